(** The fills. *)
From Coq Require Import List NArith Arith Bool Lia Sorted Permutation.
From Verif Require Import CoreModel CoreSpec CoreProofs AlgModel EnumModel EnumSpec EnumProofs PauliModel PauliSpec PauliProofs PauliFinalProofs SiteModel SiteSpec SiteWordProofs POsgModel POsgSpec DictInstProofs.
Import ListNotations.

(** * Words with given letters *)
Lemma canonical_pauli_word n w : pauli_word n w <-> pauli_canonical w /\ over (3 * n) w.
Proof. reflexivity. Qed.

Lemma sort_nodup w : NoDup (support w) -> pauli_canonical (stable_sort_qubits w).
Proof.
  intro ND. assert (P := sort_perm w). assert (S := sort_sorted w).
  assert (ND' : NoDup (support (stable_sort_qubits w))) by (eapply Permutation_NoDup; [apply Permutation_map, P|exact ND]).
  clear P ND. unfold pauli_canonical. induction S as [|x l S IH F]; [constructor|].
  unfold support in ND'. cbn [map] in ND'. apply NoDup_cons_iff in ND'. destruct ND' as [N1 N2]. constructor; [apply IH, N2|].
  rewrite Forall_forall in *. intros y Y. specialize (F y Y). unfold qle, qubit_of in F.
  assert (x / 3 <> y / 3); [|lia]. intro E. apply N1. apply in_map_iff. exists y. now rewrite E.
Qed.
Lemma simp_loop_canonical rest : forall op s, pauli_canonical (op :: rest) ->
  simp_loop (qubit_of op) (1 + pauli_of op) rest s = (op :: rest, s).
Proof.
  intros op s C. assert (H := simplify_fixed (op :: rest) s C). unfold pauli_simplify in H.
  assert (E : stable_sort_qubits (op :: rest) = op :: rest).
  { clear H. revert op C. induction rest as [|x rest IH]; intros op C; [reflexivity|].
    apply canonical_cons in C. destruct C as [C1 C2]. change (insert_by_qubit op (stable_sort_qubits (x :: rest)) = op :: x :: rest).
    rewrite (IH x C1). cbn [insert_by_qubit]. destruct (Nat.leb_spec (qubit_of op) (qubit_of x)) as [_|L]; [reflexivity|].
    specialize (C2 x (or_introl eq_refl)). unfold qubit_of in L. lia. }
  rewrite E in H. exact H.
Qed.
Lemma simplify_sort w s : NoDup (support w) -> pauli_simplify w s = (stable_sort_qubits w, s).
Proof.
  intro ND. assert (C := sort_nodup w ND). unfold pauli_simplify. destruct (stable_sort_qubits w) as [|op rest] eqn:E; [reflexivity|].
  now apply simp_loop_canonical.
Qed.

Lemma letter_perm w w' : NoDup (support w) -> Permutation w w' -> forall q, letter w q = letter w' q.
Proof.
  intros ND P. induction P as [|x l l' P IH|x y l|l l' l'' P1 IH1 P2 IH2]; intro q.
  - reflexivity.
  - rewrite !letter_cons. unfold support in ND. cbn [map] in ND. apply NoDup_cons_iff in ND. rewrite IH by (apply ND). reflexivity.
  - rewrite !letter_cons. destruct (Nat.eqb_spec (y / 3) q), (Nat.eqb_spec (x / 3) q); try reflexivity.
    exfalso. unfold support in ND. cbn [map] in ND. apply NoDup_cons_iff in ND. apply ND. left. congruence.
  - rewrite IH1 by assumption. apply IH2. eapply Permutation_NoDup; [apply Permutation_map, P1|exact ND].
Qed.
Lemma letter_support w q : letter w q <> 0%N <-> In q (support w).
Proof.
  split.
  - intro H. destruct (letter_some w q H) as (op & I & E & _). rewrite <- E. apply (in_map (fun o => o / 3)), I.
  - intros I E. induction w as [|x w IH]; [destruct I|]. rewrite letter_cons in E. destruct (Nat.eqb_spec (x / 3) q) as [Q|Q]; [lia|].
    destruct I as [I|I]; [contradiction|]. apply IH; assumption.
Qed.
Lemma support_nodup n w : pauli_word n w -> NoDup (support w).
Proof.
  intros [S _]. induction S as [|x l S IH F]; [constructor|]. unfold support in *. cbn [map]. constructor; [|exact IH]. intro I. apply in_map_iff in I.
  destruct I as (y & E & Y). rewrite Forall_forall in F. specialize (F y Y). lia.
Qed.
Lemma support_lt n w q : pauli_word n w -> In q (support w) -> q < n.
Proof. intros [_ O] I. apply in_map_iff in I. destruct I as (y & E & Y). specialize (O y Y). subst q. apply Nat.div_lt_upper_bound; lia. Qed.
Lemma acts_length n w sites : pauli_word n w -> NoDup sites -> acts_on sites w -> length w = length sites.
Proof.
  intros W ND A. transitivity (length (support w)); [symmetry; apply map_length|].
  apply Permutation_length, NoDup_Permutation; [now apply (support_nodup n)|exact ND|exact A].
Qed.

(** * site_ops *)
Lemma site_ops_support sites raw : length raw = length sites -> (forall a, In a raw -> a < 3) -> support (site_ops sites raw) = sites.
Proof.
  revert raw. induction sites as [|s sites IH]; intros [|a raw] L R; try discriminate; [reflexivity|]. injection L as L.
  unfold site_ops, support in *. cbn [List.combine map fst snd]. rewrite IH by (auto; intros; apply R; now right).
  assert (A : a < 3) by (apply R; now left). f_equal. rewrite (op_div s a A). reflexivity.
Qed.
Lemma site_ops_letter sites raw : length raw = length sites -> (forall a, In a raw -> a < 3) -> NoDup sites ->
  forall i, i < length sites -> letter (site_ops sites raw) (nth i sites 0) = N.of_nat (nth i raw 0 + 1).
Proof.
  revert raw. induction sites as [|s sites IH]; intros [|a raw] L R ND i Hi; try discriminate; [inversion Hi|]. injection L as L.
  assert (A : a < 3) by (apply R; now left). inversion ND as [|? ? N1 N2]; subst.
  change (site_ops (s :: sites) (a :: raw)) with ((3 * s + a) :: site_ops sites raw). rewrite letter_cons, (op_div s a A), (op_mod s a A).
  destruct i as [|i]; cbn [nth].
  - now rewrite Nat.eqb_refl.
  - cbn in Hi. destruct (Nat.eqb_spec s (nth i sites 0)) as [E|_].
    + exfalso. apply N1. rewrite E. apply nth_In. lia.
    + apply IH; auto; [|lia]. intros; apply R; now right.
Qed.
Lemma site_ops_over n sites raw : (forall q, In q sites -> q < n) -> (forall a, In a raw -> a < 3) -> over (3 * n) (site_ops sites raw).
Proof.
  intros S R o O. apply in_map_iff in O. destruct O as ((q, a) & <- & I). cbn [fst snd].
  specialize (S q (in_combine_l _ _ _ _ I)). specialize (R a (in_combine_r _ _ _ _ I)). lia.
Qed.
Lemma sequence_site_ops n sites raw : length raw = length sites -> (forall a, In a raw -> a < 3) -> NoDup sites ->
  (forall q, In q sites -> q < n) ->
  let s := pauli_sequence n (site_ops sites raw) SPos in
  hs_sign s = SPos /\ hs_hash s = hash (N.of_nat (3 * n)) (hs_ops s) /\ pauli_word n (hs_ops s) /\ acts_on sites (hs_ops s) /\
  (forall q, letter (hs_ops s) q = letter (site_ops sites raw) q).
Proof.
  intros L R ND S. assert (SU := site_ops_support sites raw L R). assert (ND' : NoDup (support (site_ops sites raw))) by (now rewrite SU).
  unfold pauli_sequence. rewrite (simplify_sort _ SPos ND'). cbn [fst snd hs_sign hs_hash hs_ops hseq_make].
  assert (P := sort_perm (site_ops sites raw)).
  split; [reflexivity|]. split; [reflexivity|]. split; [|split].
  - apply canonical_pauli_word. split; [now apply sort_nodup|]. intros o O.
    assert (O' := site_ops_over n sites raw S R). apply O'.
    eapply Permutation_in; [apply Permutation_sym, P|exact O].
  - intro q. rewrite <- SU at 2. unfold support. split; intro I; (eapply Permutation_in; [|exact I]); apply Permutation_map;
      [apply Permutation_sym, P|exact P].
  - intro q. symmetry. now apply letter_perm.
Qed.
(** every word on the sites is obtained from its letters *)
Lemma word_site_ops n sites w : pauli_word n w -> NoDup sites -> acts_on sites w ->
  let raw := map (fun q => N.to_nat (letter w q) - 1) sites in
  length raw = length sites /\ (forall a, In a raw -> a < 3) /\ hs_ops (pauli_sequence n (site_ops sites raw) SPos) = w.
Proof.
  intros W ND A raw. assert (L : length raw = length sites) by apply map_length.
  assert (R : forall a, In a raw -> a < 3).
  { intros a I. apply in_map_iff in I. destruct I as (q & <- & _). assert (B := letter_lt w q). lia. }
  split; [exact L|]. split; [exact R|].
  assert (S : forall q, In q sites -> q < n) by (intros q I; apply (support_lt n w q W), A, I).
  destruct (sequence_site_ops n sites raw L R ND S) as (_ & _ & W' & A' & LE). apply (word_unique n); auto.
  intros q _. rewrite LE. destruct (in_dec Nat.eq_dec q sites) as [I|NI].
  - destruct (In_nth _ _ 0 I) as (i & Hi & E). rewrite <- E at 1. rewrite site_ops_letter by assumption. unfold raw.
    rewrite (nth_indep _ 0 (N.to_nat (letter w 0) - 1)) by (rewrite map_length; exact Hi).
    rewrite (map_nth (fun q => N.to_nat (letter w q) - 1)), E.
    assert (Z : letter w q <> 0%N) by (apply letter_support, A, I). lia.
  - assert (Z : letter w q = 0%N). { destruct (N.eq_dec (letter w q) 0) as [Z|Z]; [exact Z|]. exfalso. apply NI, A, letter_support, Z. }
    rewrite Z. destruct (N.eq_dec (letter (site_ops sites raw) q) 0) as [Z'|Z']; [exact Z'|]. exfalso. apply NI.
    apply letter_support in Z'. now rewrite site_ops_support in Z'.
Qed.

(** * permutation_fill *)
Definition digits (k : nat) : list (list nat) := box (repeat (0, 3) k).
Definition fill_words (n : nat) (sites : list nat) : list hseq := map (fun raw => pauli_sequence n (site_ops sites raw) SPos) (digits (length sites)).
Lemma in_digits k x : In x (digits k) <-> length x = k /\ forall a, In a x -> a < 3.
Proof.
  unfold digits. destruct (box_spec (repeat (0, 3) k)) as [_ M]. rewrite M. change 3 with (0 + 3) at 1. rewrite moi_in_box.
  split; (intros [L R]; split; [exact L|]); intros a A; specialize (R a A); lia.
Qed.
Lemma digits_nodup k : NoDup (digits k).
Proof.
  unfold digits. destruct (box_spec (repeat (0, 3) k)) as [S _]. induction S as [|x l S IH F]; constructor; [|exact IH].
  intro I. rewrite Forall_forall in F. exact (lex_irrefl x (F x I)).
Qed.
Lemma raw_one_sequence n q r : r < 3 -> raw_one (3 * q + r) = pauli_sequence n [3 * q + r] SPos.
Proof.
  intro R. unfold pauli_sequence. rewrite simplify_fixed by (constructor; constructor). cbn [fst snd]. unfold raw_one, hseq_make.
  unfold pauli_radix. now rewrite hash_op_word.
Qed.
Lemma pair_sequence n a b ra rb : a <> b -> ra < 3 -> rb < 3 ->
  pauli_sequence n [3 * a + ra; 3 * b + rb] SPos =
  presorted (pauli_radix n) (if a <? b then [3 * a + ra; 3 * b + rb] else [3 * b + rb; 3 * a + ra]) SPos.
Proof.
  intros NE A B. unfold pauli_sequence. rewrite simplify_sort.
  2:{ unfold support. cbn [map]. rewrite !op_div by assumption. constructor; [intros [E|[]]; congruence|repeat constructor; intros []]. }
  cbn [fst snd]. unfold hseq_make, presorted. cbn [stable_sort_qubits fold_right insert_by_qubit]. unfold qubit_of.
  rewrite !op_div by assumption. destruct (Nat.leb_spec a b), (Nat.ltb_spec a b); try lia; reflexivity.
Qed.
Lemma permutation_fill_value c sites : NoDup sites -> permutation_fill c sites = DOk (fill_words (pc_qubits c) sites).
Proof.
  intro ND. assert (G : forall sites, sites <> [] -> do_permutation_fill c sites = DOk (fill_words (pc_qubits c) sites)).
  { intros s NE. unfold do_permutation_fill. rewrite moi_run_spec; [reflexivity| |reflexivity]. destruct s; [contradiction|cbn; lia]. }
  unfold permutation_fill. destruct sites as [|a [|b [|d sites]]].
  - reflexivity.
  - unfold fill_words, one_qubit_fill. rewrite (Nat.mul_comm a 3). replace (3 * a) with (3 * a + 0) by lia.
    replace (3 * a + 0 + 1) with (3 * a + 1) by lia. replace (3 * a + 0 + 2) with (3 * a + 2) by lia.
    rewrite !(raw_one_sequence (pc_qubits c)) by lia. reflexivity.
  - assert (NE : a <> b). { intro E. apply NoDup_cons_iff in ND. apply (proj1 ND). left. congruence. }
    unfold fill_words, two_qubit_fill. cbv zeta.
    replace (3 * a <? 3 * b) with (a <? b) by (destruct (Nat.ltb_spec a b), (Nat.ltb_spec (3 * a) (3 * b)); lia).
    change (digits (length [a; b])) with [[0;0];[0;1];[0;2];[1;0];[1;1];[1;2];[2;0];[2;1];[2;2]]. cbn [map seq flat_map app].
    unfold site_ops. cbn [List.combine map fst snd]. rewrite !pair_sequence by (assumption || lia).
    rewrite !Nat.add_0_r. replace (S (S (3 * a))) with (3 * a + 2) by lia. replace (S (3 * a)) with (3 * a + 1) by lia.
    replace (S (S (3 * b))) with (3 * b + 2) by lia. replace (S (3 * b)) with (3 * b + 1) by lia.
    destruct (a <? b); reflexivity.
  - apply G. discriminate.
Qed.
Lemma two_fill_value c a b : a <> b -> two_qubit_fill c a b = fill_words (pc_qubits c) [a; b].
Proof.
  intro NE. assert (ND : NoDup [a; b]) by (constructor; [intros [E|[]]; congruence|repeat constructor; intros []]).
  assert (H := permutation_fill_value c [a; b] ND). cbn [permutation_fill] in H. now injection H.
Qed.
Lemma fill_words_once n sites : NoDup sites -> (forall q, In q sites -> q < n) -> lists_once n (acts_on sites) (fill_words n sites).
Proof.
  intros ND S. unfold fill_words. split; [split|].
  - intros s I. apply in_map_iff in I. destruct I as (raw & <- & R). apply in_digits in R. destruct R as [L R].
    destruct (sequence_site_ops n sites raw L R ND S) as (A & B & _). split; assumption.
  - intro w. rewrite map_map, in_map_iff. split.
    + intros (raw & <- & R). apply in_digits in R. destruct R as [L R]. destruct (sequence_site_ops n sites raw L R ND S) as (_ & _ & A & B & _).
      split; assumption.
    + intros [W A]. destruct (word_site_ops n sites w W ND A) as (L & R & E). eexists. split; [exact E|]. apply in_digits. now split.
  - rewrite map_map. apply NoDup_nth with (d := []). intros i j Hi Hj E. rewrite map_length in Hi, Hj.
    rewrite !(nth_indep _ [] (hs_ops (pauli_sequence n (site_ops sites []) SPos))) in E by (rewrite map_length; assumption).
    rewrite !(map_nth (fun raw => hs_ops (pauli_sequence n (site_ops sites raw) SPos))) in E.
    assert (X := proj1 (in_digits _ _) (nth_In _ [] Hi)). assert (Y := proj1 (in_digits _ _) (nth_In _ [] Hj)).
    destruct X as [XL XR], Y as [YL YR].
    assert (LX := proj2 (proj2 (proj2 (proj2 (sequence_site_ops n sites _ XL XR ND S))))).
    assert (LY := proj2 (proj2 (proj2 (proj2 (sequence_site_ops n sites _ YL YR ND S))))).
    rewrite E in LX. apply (NoDup_nth (digits (length sites)) []); [apply digits_nodup|exact Hi|exact Hj|].
    apply nth_ext with (d := 0) (d' := 0); [congruence|]. intros m Hm. rewrite XL in Hm.
    assert (Q := LX (nth m sites 0)). rewrite LY in Q. rewrite !site_ops_letter in Q by assumption. lia.
Qed.
