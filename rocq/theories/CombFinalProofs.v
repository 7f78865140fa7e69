(** The statements used in CombProps.v. *)
From Coq Require Import List NArith Arith Bool Lia Sorted.
From Verif Require Import CoreModel CoreSpec AlgModel EnumModel EnumSpec EnumProofs PartitionProofs CombModel CombSpec CombProofs.
Import ListNotations.

Lemma combinations_listed n k : k <= n -> exists l, (forall fuel, length l <= fuel -> comb_run false fuel n k = Ret l) /\
  lists_in_order colex_lt (subset_of n k) l /\ length l = binomial n k.
Proof.
  intro H. exists (clist n k). split; [|split; [apply clist_spec|apply clist_length]]. intros fuel Hf. apply excl_run_spec; [exact H|].
  now rewrite clist_length in Hf.
Qed.
Lemma multisets_listed n k : 0 < n \/ k = 0 -> exists l, (forall fuel, length l <= fuel -> comb_run true fuel n k = Ret l) /\
  lists_in_order lex_lt (multiset_of n k) l /\ length l = binomial (n + k - 1) k.
Proof.
  intro H. exists (glist 0 k 0 n). split; [|split; [apply multisets_spec|apply glist0_length]]. intros fuel Hf. apply incl_run_spec; [exact H|].
  now rewrite glist0_length in Hf.
Qed.
Lemma ordered_listed n k : 0 < n -> exists l, (forall fuel, length l <= fuel -> operm_run fuel n k = Ret l) /\
  lists_in_order lex_lt (multiset_of n k) l /\ length l = binomial (n + k - 1) k.
Proof.
  intro H. exists (glist 0 k 0 n). split; [|split; [apply multisets_spec|apply glist0_length]]. intros fuel Hf. apply operm_run_spec; [exact H|].
  now rewrite glist0_length in Hf.
Qed.
Lemma partitions_listed n k : k <= n -> exists l, (forall fuel, length l <= fuel -> parts_run fuel n k = Ret (map (fun x => (x, complement_of n x, membership n x)) l)) /\
  lists_in_order colex_lt (subset_of n k) l /\ length l = binomial n k.
Proof.
  intro H. exists (clist n k). split; [|split; [apply clist_spec|apply clist_length]]. intros fuel Hf. apply parts_run_spec; [exact H|].
  now rewrite clist_length in Hf.
Qed.
Lemma unique_triangular_listed n k : 0 < k -> exists l, (forall fuel, length l <= fuel -> tri_run false fuel n k = Ret l) /\
  lists_in_order lex_lt (subset_of n k) l /\ length l = binomial n k.
Proof.
  intro H. exists (glist 1 k 0 n). split; [|split; [apply subsets_spec|apply glist1_length]]. intros fuel Hf.
  rewrite tri_run_spec; unfold tri_list; destruct (Nat.eqb_spec k 0); try lia; [reflexivity|exact Hf].
Qed.
Lemma duplicate_triangular_listed n k : 0 < k -> exists l, (forall fuel, length l <= fuel -> tri_run true fuel n k = Ret l) /\
  lists_in_order lex_lt (multiset_of n k) l /\ length l = binomial (n + k - 1) k.
Proof.
  intro H. exists (glist 0 k 0 n). split; [|split; [apply multisets_spec|apply glist0_length]]. intros fuel Hf.
  rewrite tri_run_spec; unfold tri_list; destruct (Nat.eqb_spec k 0); try lia; [reflexivity|exact Hf].
Qed.
Lemma empty_triangular dup n fuel : tri_run dup fuel n 0 = Ret [].
Proof. rewrite tri_run_spec; [reflexivity|]. unfold tri_list. cbn. lia. Qed.

(** the number of compositions *)
Lemma sorted_lists_same {X} (R : X -> X -> Prop) (l1 l2 : list X) :
  (forall x, ~ R x x) -> (forall x y z, R x y -> R y z -> R x z) -> StronglySorted R l1 -> StronglySorted R l2 -> (forall x, In x l1 <-> In x l2) -> l1 = l2.
Proof.
  intros irr tr S1. revert l2. induction S1 as [|a l1 S1 IH F1]; intros l2 S2 M.
  - destruct l2 as [|b l2]; [reflexivity|]. exfalso. apply (M b). now left.
  - destruct S2 as [|b l2 S2 F2]; [exfalso; apply (M a); now left|]. rewrite Forall_forall in *.
    assert (a = b) as ->.
    { destruct (proj1 (M a)) as [E|I]; [now left|now symmetry|]. destruct (proj2 (M b)) as [E|J]; [now left|exact E|].
      exfalso. apply (irr a). apply tr with b; auto. }
    f_equal. apply IH; [exact S2|]. intro x. split; intro I.
    + destruct (proj1 (M x)) as [E|J]; [now right| |exact J]. subst x. exfalso. apply (irr b). auto.
    + destruct (proj2 (M x)) as [E|J]; [now right| |exact J]. subst x. exfalso. apply (irr b). auto.
Qed.
Lemma acomps_count k : forall s, length (acomps s (S k)) = binomial (s + k) k.
Proof.
  induction k as [|k IH].
  - intro s. cbn [acomps]. rewrite binomial_0.
    assert (G : forall n a, a + n = S s -> 0 < n -> length (flat_map (fun y => map (cons y) (acomps (s - y) 0)) (seq a n)) = 1).
    { induction n as [|n IHn]; intros a E H; [lia|]. cbn [seq flat_map]. rewrite app_length, map_length. destruct n as [|n].
      - replace (s - a) with 0 by lia. reflexivity.
      - rewrite IHn by lia. destruct (s - a) eqn:Q; [lia|]. reflexivity. }
    apply (G (S s) 0); lia.
  - intro s. change (acomps s (S (S k))) with (flat_map (fun y => map (cons y) (acomps (s - y) (S k))) (seq 0 (S s))).
    assert (G : forall n a, a + n = S s -> 0 < n -> length (flat_map (fun y => map (cons y) (acomps (s - y) (S k))) (seq a n)) = binomial (s - a + S k) (S k)).
    { induction n as [|n IHn]; intros a E H; [lia|]. cbn [seq flat_map]. rewrite app_length, map_length, IH. destruct n as [|n].
      - cbn. replace (s - a) with 0 by lia. cbn. assert (D : forall m, binomial m m = 1 /\ binomial m (S m) = 0).
        { induction m as [|m [D1 D2]]; [split; reflexivity|]. split; [cbn [binomial]; lia|apply binomial_above; lia]. }
        destruct (D k) as [D1 D2]. rewrite D1, D2. reflexivity.
      - rewrite IHn by lia. replace (s - a) with (S (s - S a)) by lia.
        replace (S (s - S a) + S k) with (S (s - S a + S k)) by lia. cbn [binomial].
        replace (S (s - S a) + k) with (s - S a + S k) by lia. reflexivity. }
    rewrite (G (S s) 0) by lia. now rewrite Nat.sub_0_r.
Qed.
Lemma multipartitions_listed s k : 0 < k -> exists l, (forall fuel, length l <= fuel -> mpi_run_fwd fuel s k = Ret l /\ mpi_run_rev fuel s k = Ret (rev l)) /\
  lists_in_order lex_lt (composition s k) l /\ length l = binomial (s + (k - 1)) (k - 1).
Proof.
  intro H. exists (acomps s k).
  assert (E : comps s k = rev (acomps s k)).
  { destruct (comps_spec k s) as [S1 M1]. destruct (acomps_spec k s) as [S2 M2].
    apply (sorted_lists_same (fun u v => lex_lt v u)).
    - exact lex_irr.
    - intros x y z H1 H2. now apply lex_trans with y.
    - exact S1.
    - clear - S2. induction S2 as [|x l S2 IH F]; cbn; [constructor|]. apply sorted_app; [exact IH|repeat constructor|].
      intros a b Ia [<-|[]]. apply in_rev in Ia. rewrite Forall_forall in F. now apply F.
    - intro x. rewrite <- in_rev, M1, M2. reflexivity. }
  split; [|split; [apply acomps_spec|]].
  - intros fuel Hf. split; [now apply mpi_run_fwd_spec|]. rewrite <- E. apply mpi_run_rev_spec; [exact H|]. now rewrite E, rev_length.
  - destruct k as [|k]; [lia|]. rewrite acomps_count. now replace (S k - 1) with k by lia.
Qed.
(** the announced number *)
Lemma count_right n k : k <= n -> (N.of_nat (binomial n k) * N.of_nat (fact k) < word64)%N ->
  combination_count (comb_start false n k) = Some (N.of_nat (binomial n k)).
Proof. apply combinations_exact. Qed.
(* 210 ways of choosing 19 out of 21, but 21!/2! does not fit in 64 bits and the answer is 58; 66! is a multiple of 2^64 *)
Lemma count_wrap_refuted : exists n k, k <= n /\ combinations n k <> Some (N.of_nat (binomial n k)).
Proof.
  exists 21, 19. split; [lia|]. replace (binomial 21 19) with 210 by (vm_compute; reflexivity). intro H. vm_compute in H. discriminate.
Qed.
Lemma count_undefined_refuted : exists n k, k <= n /\ combinations n k = None.
Proof. exists 66, 66. split; [lia|]. vm_compute. reflexivity. Qed.
Lemma count_inclusive_refuted : exists n k l, comb_run true 10 n k = Ret l /\ combination_count (comb_start true n k) <> Some (N.of_nat (length l)).
Proof. exists 2, 2, [[0;0];[0;1];[1;1]]. split; [vm_compute; reflexivity|]. vm_compute. discriminate. Qed.
(* K elements out of none: the iterator reports one multiset {0, ..., 0} *)
Lemma inclusive_empty_refuted : exists k l x, comb_run true 10 0 k = Ret l /\ In x l /\ ~ multiset_of 0 k x.
Proof.
  exists 1, [[0]], [0]. split; [vm_compute; reflexivity|]. split; [now left|]. intros (_ & _ & F). apply Forall_inv in F. lia.
Qed.
