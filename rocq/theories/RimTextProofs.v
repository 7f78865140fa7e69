(** Proofs about the text of rules: different rules have different texts. *)
From Coq Require Import NArith Arith Bool Ascii String List Lia.
From Verif Require Import CoreModel CoreSpec AlgModel AlgSpec TextModel TextProofs RimModel.
Import ListNotations.
Local Open Scope list_scope.

Definition piece (o : nat) : text := tx "X" ++ dec o.
Lemma piece_eq o : piece o = "X"%char :: dec o.
Proof. reflexivity. Qed.
Lemma pieces_stop w : stops is_digit (concat (map piece w)).
Proof. destruct w as [|a w]; [exact I|reflexivity]. Qed.
Lemma pieces_inj : forall u w, concat (map piece u) = concat (map piece w) -> u = w.
Proof.
  induction u as [|a u IH]; intros [|b w] E; auto; cbn [map concat] in E; rewrite ?piece_eq in E; try discriminate.
  cbn [app] in E. injection E as E. apply (span is_digit) in E; auto using dec_digits, pieces_stop.
  destruct E as [E1 E2]. apply dec_inj in E1. subst b. f_equal. apply IH, E2.
Qed.
Lemma pieces_lack w : lacks " "%char (concat (map piece w)).
Proof.
  induction w as [|a w IH]; [reflexivity|]. cbn [map concat]. rewrite piece_eq. apply lacks_app; [|exact IH].
  change (lacks " "%char (["X"%char] ++ dec a)). apply lacks_app; [reflexivity|]. apply (lacks_by is_digit); [apply dec_digits|reflexivity].
Qed.
Lemma side_text_eq q : side_text q = match hs_ops q with [] => if hs_zero q then tx "0" else tx "I" | w => concat (map piece w) end.
Proof. reflexivity. Qed.
Lemma side_lacks q : lacks " "%char (side_text q).
Proof.
  rewrite side_text_eq. destruct (hs_ops q) as [|a w] eqn:E; [destruct (hs_zero q); reflexivity|]. rewrite <- E. rewrite E. apply pieces_lack.
Qed.
Lemma side_head q : exists c r, side_text q = c :: r /\ (c = "0" \/ c = "I" \/ c = "X")%char.
Proof.
  rewrite side_text_eq. destruct (hs_ops q) as [|a w]; [destruct (hs_zero q)|].
  - exists "0"%char, []. auto.
  - exists "I"%char, []. auto.
  - exists "X"%char, (dec a ++ concat (map piece w)). auto.
Qed.
Lemma side_inj r L p q : wf_seq r L p -> wf_seq r L q -> side_text p = side_text q -> hs_ops p = hs_ops q /\ hs_hash p = hs_hash q.
Proof.
  intros Wp Wq E. rewrite !side_text_eq in E. unfold hs_zero in E.
  destruct (hs_ops p) as [|a u] eqn:P, (hs_ops q) as [|b w] eqn:Q.
  - split; [reflexivity|]. unfold wf_seq in *. rewrite P in Wp. rewrite Q in Wq.
    destruct (N.eqb_spec (hs_hash p) 0) as [Hp|Hp], (N.eqb_spec (hs_hash q) 0) as [Hq|Hq]; try discriminate; [congruence|].
    destruct Wp as [[C _]|[Cp _]]; [contradiction|]. destruct Wq as [[C _]|[Cq _]]; [contradiction|]. congruence.
  - destruct (N.eqb (hs_hash p) 0); discriminate.
  - destruct (N.eqb (hs_hash q) 0); discriminate.
  - apply pieces_inj in E. split; [exact E|]. unfold wf_seq in *. rewrite P in Wp. rewrite Q in Wq.
    destruct Wp as [[_ C]|[Cp _]]; [discriminate|]. destruct Wq as [[_ C]|[Cq _]]; [discriminate|]. congruence.
Qed.
Lemma signed_inj s t p q : sign_text s ++ side_text p = sign_text t ++ side_text q -> s = t /\ side_text p = side_text q.
Proof.
  destruct (side_head p) as (c & u & -> & Hc), (side_head q) as (d & w & -> & Hd).
  destruct s, t; cbn [sign_text tx list_ascii_of_string app]; intro E; try (split; [reflexivity|congruence]); exfalso; injection E; intros; subst;
    repeat match goal with H : _ \/ _ |- _ => destruct H end; discriminate.
Qed.
Lemma rule_text_inj r L a b : wf_rule r L a -> wf_rule r L b -> rule_text a = rule_text b -> a = b.
Proof.
  intros (La & Ra & Sa & _ & Za & Ta) (Lb & Rb & Sb & _ & Zb & Tb) E. unfold rule_text in E. cbn [tx list_ascii_of_string app] in E.
  apply split_at in E; [|apply side_lacks..]. destruct E as [E1 E2]. injection E2 as E2.
  apply signed_inj in E2 as [E2 E3]. apply (side_inj r L _ _ La Lb) in E1 as [O1 H1]. apply (side_inj r L _ _ Ra Rb) in E3 as [O2 H2].
  unfold rule_sign, hs_zero in *. destruct a as [[] [] ? ?], b as [[] [] ? ?]. cbn in *. subst. reflexivity.
Qed.
Lemma text_example : exists a, make_rule (hseq_make 12 [1; 11; 0] SPos) (hseq_make 12 [10] SNegIm) = Ret a /\ wf_rule 12 3 a /\ rule_text a = tx "X1X11X0 -> -iX10".
Proof.
  eexists. split; [vm_compute; reflexivity|].
  assert (O : forall w, forallb (fun o => o <? 12) w = true -> over 12 w).
  { intros w H o I. apply Nat.ltb_lt. rewrite forallb_forall in H. apply (H o I). }
  split; [|vm_compute; reflexivity].
  split; [right; split; [vm_compute; reflexivity|split; [apply O; reflexivity|cbn; lia]]|].
  split; [right; split; [vm_compute; reflexivity|split; [apply O; reflexivity|cbn; lia]]|repeat split; vm_compute; reflexivity].
Qed.
