(** A session in the CHSH scenario, for examples: two parties with two two-outcome measurements each. *)
From Coq Require Import List NArith ZArith QArith Qcanon Arith Bool Sorted Lia.
From Verif Require Import CoreModel CoreProofs AlgModel LocModel LocSpec LocSortProofs LocProofs FieldModel FieldProofs SymModel SymSpec SymProofs SymInstModel SymInstProofs SymWitnessProofs SymFinalProofs.
Import ListNotations.
Local Open Scope nat_scope.
Notation Q' := Qc_rfield.

Definition chsh_scenario : scenario := [[2;2];[2;2]].
Definition chsh_sctx : sctx := loc_sctx chsh_scenario (fun _ => []).
Notation chsh_words := (loc_wf chsh_scenario 4).
Lemma chsh_safe : loc_safe chsh_scenario 4. Proof. vm_compute. reflexivity. Qed.
Lemma chsh_lawful : lawful chsh_sctx chsh_words. Proof. apply loc_lawful, chsh_safe. Qed.
Lemma chsh_unsigned : unsigned_conj chsh_sctx chsh_words. Proof. apply loc_unsigned, chsh_safe. Qed.
(** the deterministic behaviour in which every operator has value one *)
Definition flat_E (q : hseq) : cx Q' := if hs_zero q then c0 else sphase Q' (hs_sign q).
Lemma loc_conj_sign sc L q : loc_safe sc L -> loc_wf sc L q -> hs_sign (cx_conj (loc_sctx sc (fun _ => [])) (pos q)) = SPos.
Proof.
  intros S W. cbn. destruct (wf_mkseq sc L q S W) as [->|(w & s & E & O & Len & C)]; [reflexivity|].
  assert (NF : nf sc (Some w) = Some w) by (apply canonical_sorted in C as [_ C]; now apply gnf_fixed).
  assert (P : pos q = mkseq sc SPos (nf sc (Some w))) by (rewrite E, NF; reflexivity). rewrite P. rewrite (conj_mkseq sc L) by assumption. cbn [or_self].
  destruct (nf sc (Some (rev w))); reflexivity.
Qed.
Lemma chsh_zero q : chsh_words q -> hs_zero q = true -> q = hseq_const true.
Proof.
  intros [->|(H & [O _] & Len)] Z; [reflexivity|]. exfalso. apply N.eqb_eq in Z. revert Z. rewrite H. apply (hash_nonzero _ 4); auto. exact chsh_safe.
Qed.
Add Field RfCh : (r_field Q').
Add Field CfCh : (cx_field Q').
Lemma chsh_expectation : expectation chsh_sctx chsh_words Q' flat_E.
Proof.
  split.
  - intros q W. unfold flat_E. assert (ZZ : hs_zero (cx_conj chsh_sctx q) = hs_zero q).
    { destruct (hs_zero q) eqn:Z.
      - rewrite (chsh_zero q W Z). reflexivity.
      - destruct (hs_zero (cx_conj chsh_sctx q)) eqn:Z'; [|reflexivity]. apply chsh_zero in Z'; [|now apply (lw_conj _ _ chsh_lawful)].
        pose proof (lw_invol _ _ chsh_lawful q W) as I. rewrite Z' in I. cbn in I. subst q. discriminate. }
    rewrite ZZ. destruct (hs_zero q); [symmetry; apply cconj_0|]. rewrite (lw_phase _ _ chsh_lawful q W). cbn [SymModel.set_sign hs_sign].
    assert (S : hs_sign (cx_conj chsh_sctx (pos q)) = SPos) by (apply (loc_conj_sign chsh_scenario 4); [exact chsh_safe|exact W]). rewrite S. destruct (hs_sign q); apply cx_ext; reflexivity.
  - intros q W. unfold flat_E. change (hs_zero (pos q)) with (hs_zero q). cbn [pos SymModel.set_sign hs_sign sphase]. destruct (hs_zero q).
    + ring.
    + ring.
  - reflexivity.
  - discriminate.
Qed.
(** symbols: 0, 1, A0 A1 (2) and A0 B0 (3) *)
Definition chsh_ops : list op := [ORegister (hseq_make 4 [0;1] SPos); ORegister (hseq_make 4 [0;2] SNeg)].
Definition chsh_table : table := table_after chsh_sctx chsh_ops.
Lemma chsh_word (w : word) s : loc_simplify chsh_scenario w = Ret (Some w) -> length w <= 4 -> chsh_words (hseq_make 4 w s).
Proof. intros H Len. right. split; [reflexivity|]. split; [|exact Len]. now apply loc_canonical_iff. Qed.
Lemma chsh_ops_ok : Forall (op_ok chsh_sctx chsh_words) chsh_ops.
Proof. repeat (constructor; [apply chsh_word; [reflexivity|cbn; lia]|]). constructor. Qed.
Lemma chsh_run : run_ops chsh_sctx table_start chsh_ops = Done chsh_table tt. Proof. vm_compute. reflexivity. Qed.
Lemma chsh_reach : reachable chsh_sctx chsh_words chsh_table. Proof. apply clean_reachable. exists chsh_ops. split; [exact chsh_ops_ok|exact chsh_run]. Qed.
Lemma chsh_plain : plain_words chsh_table.
Proof. intros id w E. do 4 (destruct id as [|id]; [vm_compute in E; injection E as <-; reflexivity|]). vm_compute in E. destruct id; discriminate E. Qed.
Lemma chsh_flagged : flagged chsh_sctx chsh_table.
Proof.
  intros id s w N Q. do 3 (destruct id as [|id]; [vm_compute in N; injection N as <-; cbn in Q; injection Q as <-; vm_compute; split; split; intro H; try discriminate H; reflexivity|]).
  vm_compute in N. destruct id; discriminate N.
Qed.
