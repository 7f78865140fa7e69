(** Instances for the examples: the rationals, and the table of PolyWitnessProofs. *)
From Coq Require Import NArith ZArith QArith Qcanon Qround Arith Bool Ascii String List Lia.
From Verif Require Import TextModel CoreModel FieldModel FieldProofs SymModel PolyModel PolySpec PolyProofs PolyOrderProofs PolyFinalProofs PolyWitnessProofs PolyTableProofs.
From Verif Require Import MonModel MonSpec MonProofs PioModel PioSpec PioProofs.
Import ListNotations.
Local Open Scope list_scope.
Local Open Scope nat_scope.

Definition scan8 (t : text) : option N := match t with [] => None | _ => Some (Z.to_N (digits_value t)) end.
Definition scanb8 (t : text) : option bool := if text_eqb t (tx "1") then Some true else if text_eqb t (tx "0") then Some false else None.
Definition neg8 (x : Qc_rfield) : bool := (Qnum (this (x : Qc)) <? 0)%Z.
Definition trunc8 (x : Qc_rfield) : option N := let z := Qfloor (this (x : Qc)) in if (z <? 2 ^ 64)%Z then Some (Z.to_N z) else None.
Definition of8 (z : Z) : Qc_rfield := (Q2Qc (inject_Z z)).
Definition stod8 (t : text) : option (Qc_rfield * nat) := None.
Lemma floor8 z : Qfloor (this (of8 z : Qc)) = z.
Proof. unfold of8. cbn [this Q2Qc]. rewrite (Qfloor_comp _ _ (Qred_correct (inject_Z z))). apply Qfloor_Z. Qed.
Lemma casts8 : casts neg8 trunc8 of8.
Proof.
  constructor.
  - intro n. unfold neg8. apply Z.ltb_ge. pose proof (floor8 (Z.of_N n)) as F. unfold Qfloor in F. destruct (this (of8 (Z.of_N n) : Qc)) as [a b]. cbn [Qnum].
    destruct (Z.le_gt_cases 0 a) as [H|H]; [assumption|]. exfalso. assert (a / Z.pos b < 0)%Z by (apply Z.div_lt_upper_bound; lia). lia.
  - intros n Hn. unfold trunc8. cbn zeta. rewrite floor8. rewrite (proj2 (Z.ltb_lt _ _)) by lia. now rewrite N2Z.id.
Qed.
Definition imp8 := import_poly scan8 scanb8 neg8 trunc8 of8 stod8 t8 (isort id_less).
Definition denotes8 := denotes scan8 scanb8 neg8 of8 stod8.
Lemma order8 : @term_order Qc_rfield t8 id_less. Proof. apply id_less_order. Qed.
Lemma sorts8 : @sorts Qc_rfield t8 id_less (isort id_less). Proof. apply isort_sorts, id_less_order. Qed.
(** {2}, {6, 3}, {3, 1+i, true} *)
Definition arr8 : marray Qc_rfield := MCell [MCell [MInts [2%Z]]; MCell [MReals [of8 6]; MInts [3%Z]]; MCell [MInts [3%Z]; MCplx [cq 1 1]; MBools [true]]].
Definition terms8 : list (PolyModel.mono Qc_rfield) := [PolyModel.mk_mono 2 false c1; PolyModel.mk_mono 6 false (mk_cx (of8 3) (r0 Qc_rfield)); PolyModel.mk_mono 3 true (cq 1 1)].
Lemma arr8_denotes : denotes8 arr8 terms8.
Proof.
  apply denotes_cell. constructor; [|constructor; [|constructor; [|constructor]]].
  - apply element_1. exact (names_int _ _ 2).
  - apply element_2; [apply (names_real scan8 of8 6)|apply weighs_int]. reflexivity.
  - apply element_3; [exact (names_int _ _ 3)|apply weighs_cplx|apply flags_bool].
Qed.
Lemma size8 : List.length (t_syms t8) = 8. Proof. vm_compute. reflexivity. Qed.
Lemma terms8_in : Forall (in_table t8) terms8.
Proof. unfold terms8. repeat (constructor; [unfold in_table; rewrite size8; cbn; lia|]). constructor. Qed.
Lemma arr8_plain : plain neg8 of8 arr8.
Proof.
  intros l [= <-]. constructor; [|constructor; [|constructor; [|constructor]]]; intros x r H; try discriminate H.
  right. exists 6%N. split; [reflexivity|]. change (Z.of_N 6) with 6%Z. congruence.
Qed.
(** "3*", a missing text, "-2" *)
Definition txt8 : marray Qc_rfield := MText [Some (tx "3*"); None; Some (tx "-2")].
Definition txt8_terms : list (PolyModel.mono Qc_rfield) := [PolyModel.mk_mono 3 true c1; PolyModel.mk_mono 0 false c0; PolyModel.mk_mono 2 false (mk_cx (ropp Qc_rfield (r1 Qc_rfield)) (r0 Qc_rfield))].
Lemma txt8_denotes : denotes8 txt8 txt8_terms.
Proof.
  apply denotes_text. constructor; [|constructor; [|constructor; [|constructor]]].
  - apply (text_some stod8 (tx "3*") (MonModel.mk_mono 3 (r1 Qc_rfield) (r0 Qc_rfield) true)); [cbn; lia|]. apply (parse_reads Qc_rfield (r0 Qc_rfield) (r1 Qc_rfield) (ropp Qc_rfield) stod8); [cbn; lia|]. reflexivity.
  - apply text_none.
  - apply (text_some stod8 (tx "-2") (MonModel.mk_mono 2 (ropp Qc_rfield (r1 Qc_rfield)) (r0 Qc_rfield) false)); [cbn; lia|]. apply (parse_reads Qc_rfield (r0 Qc_rfield) (r1 Qc_rfield) (ropp Qc_rfield) stod8); [cbn; lia|]. reflexivity.
Qed.
Lemma arr8_ok : imp8 arr8 = POk (make_poly t8 (isort id_less) terms8).
Proof. apply (import_complete scan8 scanb8 neg8 trunc8 of8 stod8 casts8 t8 (isort id_less)); [exact arr8_denotes|exact terms8_in]. Qed.
Lemma txt8_ok : imp8 txt8 = POk (make_poly t8 (isort id_less) txt8_terms).
Proof.
  apply (import_complete scan8 scanb8 neg8 trunc8 of8 stod8 casts8 t8 (isort id_less)); [exact txt8_denotes|].
  unfold txt8_terms. repeat (constructor; [unfold in_table; rewrite size8; cbn; lia|]). constructor.
Qed.
(** {2}, then {}, then {7} *)
Definition bad8 : marray Qc_rfield := MCell [MCell [MInts [2%Z]]; MCell []; MCell [MInts [7%Z]]].
Lemma bad8_plain : plain neg8 of8 bad8.
Proof. intros l [= <-]. constructor; [|constructor; [|constructor; [|constructor]]]; intros x r H; discriminate H. Qed.
Lemma bad8_error : imp8 bad8 = PErr (BadElement 2). Proof. reflexivity. Qed.
(** {2}, then {99} *)
Definition far8 : marray Qc_rfield := MCell [MCell [MInts [2%Z]]; MCell [MInts [99%Z]]].
Definition far8_terms : list (PolyModel.mono Qc_rfield) := [PolyModel.mk_mono 2 false c1; PolyModel.mk_mono 99 false c1].
Lemma far8_denotes : denotes8 far8 far8_terms.
Proof. apply denotes_cell. constructor; [|constructor; [|constructor]]; apply element_1; [exact (names_int _ _ 2)|exact (names_int _ _ 99)]. Qed.
Lemma far8_out : ~ Forall (in_table t8) far8_terms.
Proof. intro F. inversion F as [|? ? ? F']; subst. inversion F' as [|? ? HH ?]; subst. unfold in_table in HH. rewrite size8 in HH. cbn in HH. lia. Qed.
Lemma far8_plain : plain neg8 of8 far8.
Proof. intros l [= <-]. constructor; [|constructor; [|constructor]]; intros x r H; discriminate H. Qed.
Lemma far8_error : imp8 far8 = PErr (OutOfRange 1).
Proof. apply (out_of_range_rejected scan8 scanb8 neg8 trunc8 of8 stod8 casts8 t8 (isort id_less) far8 far8_terms far8_denotes far8_out). Qed.
Lemma position_refuted : exists a ts y, denotes8 a ts /\ imp8 a = PErr (OutOfRange 1) /\ nth_error ts 0 = Some y /\ in_table t8 y.
Proof.
  exists far8, far8_terms, (PolyModel.mk_mono 2 false c1). split; [exact far8_denotes|]. split; [exact far8_error|]. split; [reflexivity|].
  unfold in_table. rewrite size8. cbn. lia.
Qed.
Definition half5 : Qc_rfield := (Q2Qc (5 # 2)).
Lemma half5_cast : neg8 half5 = false /\ trunc8 half5 = Some 2%N. Proof. split; vm_compute; reflexivity. Qed.
Lemma half5_not_whole : forall z, half5 <> of8 z.
Proof. intros z H. assert (E : (this (half5 : Qc) == this (of8 z : Qc))%Q) by now rewrite H. unfold half5, of8 in E. cbn [this Q2Qc] in E. rewrite !Qred_correct in E. unfold Qeq, inject_Z in E. cbn in E. lia. Qed.
Lemma fraction_refuted : (forall z, half5 <> of8 z) /\ imp8 (MCell [MCell [MReals [half5]]]) = imp8 (MCell [MCell [MInts [2%Z]]]) /\
  exists p, imp8 (MCell [MCell [MReals [half5]]]) = POk p.
Proof.
  split; [exact half5_not_whole|].
  assert (E : imp8 (MCell [MCell [MReals [half5]]]) = imp8 (MCell [MCell [MInts [2%Z]]])).
  { destruct half5_cast as [H1 H2]. exact (fraction scan8 scanb8 neg8 trunc8 of8 stod8 half5 2 [] t8 (isort id_less) H1 H2). }
  split; [exact E|]. exists (make_poly t8 (isort id_less) [PolyModel.mk_mono 2 false c1]). rewrite E.
  apply (import_complete scan8 scanb8 neg8 trunc8 of8 stod8 casts8 t8 (isort id_less)).
  - apply denotes_cell. constructor; [|constructor]. apply element_1. exact (names_int _ _ 2).
  - constructor; [|constructor]. unfold in_table. rewrite size8. cbn. lia.
Qed.
Definition y8 : PolyModel.mono Qc_rfield := mq 6 true 0 3.
