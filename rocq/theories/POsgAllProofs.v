(** The dictionary of all words. *)
From Coq Require Import List NArith Arith Bool Lia Sorted Permutation.
From Verif Require Import CoreModel CoreSpec AlgModel EnumModel EnumSpec EnumProofs CombModel CombSpec CombFinalProofs PauliModel SiteModel SiteSpec SiteWordProofs POsgModel POsgSpec POsgProofs POsgListProofs.
Import ListNotations.

Lemma binomial_pow n : forall k, binomial n k <= 2 ^ n.
Proof.
  induction n as [|n IH]; intros [|k]; cbn [binomial].
  - cbn. lia.
  - cbn. lia.
  - apply Nat.neq_0_lt_0, Nat.pow_nonzero. lia.
  - cbn [Nat.pow]. assert (A := IH k). assert (B := IH (S k)). lia.
Qed.
Lemma order_nodup {X} (R : X -> X -> Prop) P l : (forall x, ~ R x x) -> lists_in_order R P l -> NoDup l.
Proof.
  intros I [S _]. induction S as [|x l S IH F]; constructor; [|exact IH]. intro J. rewrite Forall_forall in F. exact (I x (F x J)).
Qed.
Lemma all_of_value c k : 3 <= k <= pc_qubits c -> exists l, NoDup l /\ (forall s, In s l <-> subset_of (pc_qubits c) k s) /\
  all_of c k = DOk (flat_map (fill_words (pc_qubits c)) l).
Proof.
  intro K. destruct (partitions_listed (pc_qubits c) k) as (l & R & O & B); [lia|]. exists l.
  assert (N : NoDup l) by (apply (order_nodup _ _ _ (fun x => DictInstProofs.lex_irrefl (rev x)) O)).
  split; [exact N|]. destruct O as [_ M]. split; [exact M|]. unfold all_of. rewrite R by (rewrite B; apply binomial_pow). cbn [of_res dbind].
  rewrite (each_ok _ (fun p => fill_words (pc_qubits c) (fst (fst p)))).
  - f_equal. rewrite <- flat_map_of. reflexivity.
  - intros p I. apply in_map_iff in I. destruct I as (s & <- & S). cbn [fst]. apply permutation_fill_value.
    apply M in S. destruct S as (_ & S & _). now apply sorted_nodup.
Qed.
Definition pair_sites (n : nat) : list (list nat) :=
  flat_map (fun q1 => map (fun q2 => [q1; q2]) (seq (q1 + 1) (n - (q1 + 1)))) (seq 0 (n - 1)).
Lemma pair_sites_in n s : In s (pair_sites n) <-> subset_of n 2 s.
Proof.
  unfold pair_sites, subset_of. rewrite in_flat_map. split.
  - intros (a & A & I). apply in_map_iff in I. destruct I as (b & <- & B). apply in_seq in A, B. split; [reflexivity|].
    split; repeat constructor; lia.
  - intros (L & S & F). destruct s as [|a [|b [|]]]; try discriminate. inversion S as [|? ? _ O]; inversion O; subst.
    inversion F as [|? ? _ F']; inversion F'; subst. exists a. split; [apply in_seq; lia|]. apply in_map_iff. exists b.
    split; [reflexivity|]. apply in_seq. lia.
Qed.
Lemma pair_sites_nodup n : NoDup (pair_sites n).
Proof.
  apply nodup_flat; [apply seq_NoDup| |].
  - intros a _. apply FinFun.Injective_map_NoDup; [|apply seq_NoDup]. intros x y E. congruence.
  - intros a b s _ _ A B. apply in_map_iff in A, B. destruct A as (x & <- & _), B as (y & E & _). congruence.
Qed.
Lemma all_pairs_value c : all_pairs c = flat_map (fill_words (pc_qubits c)) (pair_sites (pc_qubits c)).
Proof.
  unfold all_pairs, pair_sites. rewrite flat_flat. apply flat_ext. intros a A. rewrite <- flat_map_of. apply flat_ext. intros b B.
  apply in_seq in B. apply two_fill_value. lia.
Qed.
Lemma longer_value c m : m <= pc_qubits c -> exists l, NoDup l /\ (forall s, In s l <-> exists k, 3 <= k <= m /\ subset_of (pc_qubits c) k s) /\
  each (all_of c) (seq 3 (m - 2)) = DOk (flat_map (fill_words (pc_qubits c)) l).
Proof.
  intro M. remember (m - 2) as j eqn:J. assert (G : forall j o, 3 <= o -> o + j <= pc_qubits c + 1 -> exists l, NoDup l /\
    (forall s, In s l <-> exists k, o <= k < o + j /\ subset_of (pc_qubits c) k s) /\
    each (all_of c) (seq o j) = DOk (flat_map (fill_words (pc_qubits c)) l)).
  { clear. induction j as [|j IH]; intros o O B.
    - exists []. split; [constructor|]. split; [|reflexivity]. intro s. split; [intros []|]. intros (k & K & _). lia.
    - destruct (all_of_value c o) as (l1 & N1 & M1 & E1); [lia|]. destruct (IH (S o)) as (l2 & N2 & M2 & E2); [lia|lia|].
      exists (l1 ++ l2). split; [|split].
      + apply nodup_app; auto. intros s I1 I2. apply M1 in I1. apply M2 in I2. destruct I2 as (k & K & L & _), I1 as (L' & _). lia.
      + intro s. rewrite in_app_iff, M1, M2. split.
        * intros [H|(k & K & H)]; [exists o; split; [lia|exact H]|exists k; split; [lia|exact H]].
        * intros (k & K & H). destruct (Nat.eq_dec k o) as [->|NE]; [now left|]. right. exists k. split; [lia|exact H].
      + cbn [seq each]. rewrite E1. cbn [dbind]. rewrite E2. cbn [dbind]. now rewrite flat_map_app. }
  destruct (Nat.le_gt_cases m 2) as [S|S].
  - subst j. replace (m - 2) with 0 by lia. exists []. split; [constructor|]. split; [|reflexivity]. intro s. split; [intros []|].
    intros (k & K & _). lia.
  - destruct (G j 3) as (l & N & I & E); [lia|lia|]. exists l. split; [exact N|]. split; [|exact E]. intro s. rewrite I.
    split; intros (k & K & H); exists k; (split; [lia|exact H]).
Qed.
Lemma compute_all_sites c level : exists ss, NoDup ss /\
  (forall s, In s ss <-> exists k, k <= level /\ subset_of (pc_qubits c) k s) /\
  compute_all c level = DOk (flat_map (fill_words (pc_qubits c)) ss).
Proof.
  set (n := pc_qubits c). unfold compute_all. fold n.
  assert (Z : forall s, In s [[]] <-> subset_of n 0 s).
  { intro s. split; [intros [<-|[]]; split; [reflexivity|split; constructor]|]. intros (L & _). apply length_zero_iff_nil in L. left. congruence. }
  assert (O : forall s, In s (map (fun q => [q]) (seq 0 n)) <-> subset_of n 1 s).
  { intro s. rewrite in_map_iff. split.
    - intros (q & <- & Q). apply in_seq in Q. split; [reflexivity|]. split; repeat constructor. lia.
    - intros (L & _ & F). destruct s as [|q [|]]; try discriminate. exists q. split; [reflexivity|]. inversion F; subst. apply in_seq. lia. }
  assert (ON : NoDup (map (fun q => [q]) (seq 0 n))) by (apply FinFun.Injective_map_NoDup; [intros x y E; congruence|apply seq_NoDup]).
  assert (ZN : NoDup [@nil nat]) by (repeat constructor; intros []).
  assert (SM : forall k s, subset_of n k s -> k <= n).
  { intros k s (L & S & F). rewrite <- L. rewrite <- (seq_length n 0). apply NoDup_incl_length; [now apply sorted_nodup|]. intros q Q.
    apply in_seq. rewrite Forall_forall in F. specialize (F q Q). lia. }
  assert (CAP : forall s k, k <= level -> subset_of n k s -> k <= Nat.min level n).
  { intros s k K H. specialize (SM k s H). lia. }
  assert (APP : forall (a b : list (list nat)) i j, NoDup a -> NoDup b -> (forall s, In s a -> i <= length s < j) -> (forall s, In s b -> j <= length s) -> NoDup (a ++ b)).
  { intros a b i j A B HA HB. apply nodup_app; auto. intros s I1 I2. specialize (HA s I1). specialize (HB s I2). lia. }
  destruct (Nat.ltb_spec (Nat.min level n) 1) as [L1|L1].
  { exists [[]]. split; [exact ZN|]. split; [|reflexivity]. intro s. rewrite Z. split; [intro H; exists 0; split; [lia|exact H]|].
    intros (k & K & H). assert (K' := CAP s k K H). replace k with 0 in H by lia. exact H. }
  assert (N01 : NoDup ([[]] ++ map (fun q => [q]) (seq 0 n))).
  { apply (APP _ _ 0 1); auto; intros s I; [apply Z in I|apply O in I]; destruct I as (I & _); lia. }
  destruct (Nat.ltb_spec (Nat.min level n) 2) as [L2|L2].
  { exists ([[]] ++ map (fun q => [q]) (seq 0 n)). split; [exact N01|]. split.
    - intro s. rewrite in_app_iff, Z, O. split.
      + intros [H|H]; [exists 0|exists 1]; (split; [lia|exact H]).
      + intros (k & K & H). assert (K' := CAP s k K H). assert (C : k = 0 \/ k = 1) by lia. destruct C; subst k; auto.
    - rewrite flat_map_app, <- (zero_value n), one_value. reflexivity. }
  destruct (longer_value c (Nat.min level n)) as (l & N & I & E); [fold n; lia|]. fold n in N, I, E. rewrite E. cbn [dbind].
  exists ([[]] ++ map (fun q => [q]) (seq 0 n) ++ pair_sites n ++ l). split; [|split].
  - rewrite app_assoc. apply (APP _ _ 0 2); auto.
    + apply (APP _ _ 2 3); [apply pair_sites_nodup|exact N| |]; intros s J; [apply pair_sites_in in J; destruct J as (J & _); lia|].
      apply I in J. destruct J as (k & K & J & _). lia.
    + intros s J. apply in_app_iff in J. destruct J as [J|J]; [apply Z in J|apply O in J]; destruct J as (J & _); lia.
    + intros s J. apply in_app_iff in J. destruct J as [J|J]; [apply pair_sites_in in J; destruct J as (J & _); lia|].
      apply I in J. destruct J as (k & K & J & _). lia.
  - intro s. rewrite !in_app_iff, Z, O, pair_sites_in, I. split.
    + intros [H|[H|[H|(k & K & H)]]]; [exists 0|exists 1|exists 2|exists k]; (split; [lia|exact H]).
    + intros (k & K & H). assert (K' := CAP s k K H). assert (C : k = 0 \/ k = 1 \/ k = 2 \/ 3 <= k) by lia.
      destruct C as [->|[->|[->|C]]]; auto. right. right. right. exists k. split; [lia|exact H].
  - rewrite !flat_map_app, <- (zero_value n), all_pairs_value, one_value. reflexivity.
Qed.
Lemma subset_support n w : pauli_word n w -> subset_of n (length w) (support w).
Proof.
  intro W. split; [apply map_length|]. split; [now apply (support_sorted n)|]. apply Forall_forall. intros q I. now apply (support_lt n w).
Qed.
Lemma all_words_listed wide c level : exists l, pauli_osg wide c level 0 = DOk l /\ lists_once (pc_qubits c) (fun w => length w <= level) l.
Proof.
  destruct (compute_all_sites c level) as (ss & N & I & E). exists (flat_map (fill_words (pc_qubits c)) ss). split; [exact E|].
  apply lists_once_ext with (P := fun w => In (support w) ss).
  - intros w W. rewrite I. split.
    + intros (k & K & L & _). unfold support in L. rewrite map_length in L. lia.
    + intro L. exists (length w). split; [exact L|now apply subset_support].
  - apply sorted_fills_once; [|exact N]. intros s S. apply I in S. destruct S as (k & _ & _ & S & F). split; [exact S|].
    now apply Forall_forall.
Qed.
