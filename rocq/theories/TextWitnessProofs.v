(** Concrete texts. *)
From Coq Require Import NArith ZArith Arith Bool Ascii String List Lia.
From Verif Require Import CoreModel AlgModel LocModel InfModel InfSpec InfWitnessProofs TextModel TextSpec TextProofs TextNameProofs TextTableProofs TextWordProofs TextSceneProofs.
Import ListNotations.
Local Open Scope list_scope.

Lemma t_default moved self_moved mode n : exists t, name_table moved self_moved mode n (default_names n) = Some t.
Proof.
  apply t_made. unfold default_names. rewrite map_length, seq_length. split; [reflexivity|]. split.
  - intros m I. apply in_map_iff in I. destruct I as [i [<- _]]. exists "X"%char, (dec (i + 1)). repeat split; [left; cbn; lia|].
    intros x J. apply in_name_spec. pose proof (dec_digits (i + 1)) as H. rewrite forallb_forall in H. specialize (H x J). unfold in_name. rewrite H. now rewrite orb_true_r.
  - apply FinFun.Injective_map_NoDup; [|apply seq_NoDup]. intros i j E. injection E as E. apply dec_inj in E. lia.
Qed.
Definition same (t : text) : text := t.
Definition lost (t : text) : text := [].
Definition xy : list text := [tx "x"; tx "yy"].
Definition bunched_xy : names := match name_table same lost Bunched 2 xy with Some t => t | None => mk_names [] [] false end.
Definition woven_xy : names := match name_table lost lost Interleaved 2 xy with Some t => t | None => mk_names [] [] false end.
Lemma bunched_made : name_table same lost Bunched 2 xy = Some bunched_xy. Proof. vm_compute. reflexivity. Qed.
Lemma woven_made : name_table lost lost Interleaved 2 xy = Some woven_xy. Proof. vm_compute. reflexivity. Qed.
Lemma bunched_texts : nm_names bunched_xy = [tx "x"; tx "yy"; tx "x*"; tx "yy*"] /\ alg_text bunched_xy true SNeg [3; 0] = tx "-<yy*;x>". Proof. vm_compute. split; reflexivity. Qed.
Lemma round_refuted : exists moved self_moved mode raw l t o, name_table moved self_moved mode raw l = Some t /\ o < pc_num (mk_pc raw mode) /\ find_operator t (operator_text t o) <> Some o.
Proof. exists lost, lost, Interleaved, 2, xy, woven_xy, 0. split; [exact woven_made|]. split; [cbn; lia|]. vm_compute. discriminate. Qed.
Lemma round_others : operator_text woven_xy 1 = tx "x*" /\ operator_text woven_xy 2 = tx "yy" /\ operator_text woven_xy 3 = tx "yy*" /\ operator_text woven_xy 0 = [].
Proof. vm_compute. repeat split; reflexivity. Qed.
Definition ix : list text := [tx "i"; tx "x"].
Definition plain_ix : names := match name_table same same SelfAdjoint 2 ix with Some t => t | None => mk_names [] [] false end.
Lemma plain_made : name_table same same SelfAdjoint 2 ix = Some plain_ix. Proof. vm_compute. reflexivity. Qed.
Lemma imaginary_refuted : exists moved self_moved mode raw l t s s' w w', name_table moved self_moved mode raw l = Some t /\ mode <> Interleaved /\
  Forall (fun o => o < pc_num (mk_pc raw mode)) w /\ Forall (fun o => o < pc_num (mk_pc raw mode)) w' /\ w <> [] /\ w' <> [] /\ alg_text t false s w = alg_text t false s' w' /\ (s, w) <> (s', w').
Proof.
  exists same, same, SelfAdjoint, 2, ix, plain_ix, SIm, SPos, [1], [0; 1]. split; [exact plain_made|]. split; [discriminate|].
  split; [constructor; [cbn; lia|constructor]|]. split; [constructor; [cbn; lia|constructor; [cbn; lia|constructor]]|]. split; [discriminate|]. split; [discriminate|]. split; [vm_compute; reflexivity|discriminate].
Qed.
Lemma identity_same : (forall t b s s', alg_text t b s [] = alg_text t b s' []) /\ (forall f sc b n n', loc_text f sc b n [] = loc_text f sc b n' []) /\ (forall c b n n', inf_text c b n [] = inf_text c b n' []).
Proof. repeat split; intros; reflexivity. Qed.
Lemma words_met : Forall (fun o => o < pc_num (mk_pc 2 Bunched)) [3; 0]. Proof. constructor; [cbn; lia|constructor; [cbn; lia|constructor]]. Qed.
Lemma names_27 : map (alpha true) [0; 25; 26; 701; 702]%N = [tx "A"; tx "Z"; tx "AA"; tx "ZZ"; tx "AAA"]. Proof. vm_compute. reflexivity. Qed.
Lemma pauli_example : pauli_text true SNegIm [0; 4; 8] = tx "-i<X1Y2Z3>". Proof. vm_compute. reflexivity. Qed.
Definition two_three : scenario := [[2; 3]; [2]].
Lemma loc_example : loc_text Natural two_three true true [2; 3] = tx "-<A.b1;B.a0>" /\ loc_text Traditional two_three false false [2; 3] = tx "A1|1;B0|0" /\ Forall (fun o => o < operator_count two_three) [2; 3].
Proof. split; [vm_compute; reflexivity|]. split; [vm_compute; reflexivity|]. constructor; [vm_compute; lia|constructor; [vm_compute; lia|constructor]]. Qed.
Lemma inf_example : inf_text (inflate ex_net 2) true false [0; 3; 4] = tx "<A[0];B1[00];B0[10]>" /\ word_exists (inflate ex_net 2) [0; 3; 4].
Proof. split; [vm_compute; reflexivity|]. intros x I. assert (length (ic_ops (inflate ex_net 2)) = 13) as -> by (vm_compute; reflexivity). destruct I as [<-|[<-|[<-|[]]]]; lia. Qed.
