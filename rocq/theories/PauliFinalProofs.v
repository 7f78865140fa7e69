(** Pauli sequences: construction, products, conjugates, (anti)commutators. *)
From Coq Require Import List ZArith NArith Arith Bool Sorted Lia Permutation.
From Coq Require Import ZifyBool ZifyNat ZifyN.
From Verif Require Import CoreModel CoreSpec CoreProofs PauliModel PauliSpec PauliProofs.
Import ListNotations.
Local Arguments qubit_of : simpl never.
Local Arguments pauli_of : simpl never.
Local Arguments Nat.div : simpl never.
Local Arguments Nat.modulo : simpl never.

(* ---------------------------------------------------------------- rows of a word have one entry *)
Lemma act_row p q b : p < 3 -> exists k c, forall psi, act (pauli_matrix p) q psi b = gmul (phase k) (psi c).
Proof.
  intro Hp. unfold act. assert (E : p = 0 \/ p = 1 \/ p = 2) by lia.
  destruct E as [->|[->| ->]]; destruct (N.testbit b (N.of_nat q)); cbn [pauli_matrix xorb].
  - exists SPos, (with_bit b q false). intro psi. destruct (psi (with_bit b q false)), (psi (with_bit b q true)). gring.
  - exists SPos, (with_bit b q true). intro psi. destruct (psi (with_bit b q false)), (psi (with_bit b q true)). gring.
  - exists SIm, (with_bit b q false). intro psi. destruct (psi (with_bit b q false)), (psi (with_bit b q true)). gring.
  - exists SNegIm, (with_bit b q true). intro psi. destruct (psi (with_bit b q false)), (psi (with_bit b q true)). gring.
  - exists SNeg, (with_bit b q true). intro psi. destruct (psi (with_bit b q false)), (psi (with_bit b q true)). gring.
  - exists SPos, (with_bit b q false). intro psi. destruct (psi (with_bit b q false)), (psi (with_bit b q true)). gring.
Qed.
Lemma word_row w : forall b, exists k c, forall psi, apply_word w psi b = gmul (phase k) (psi c).
Proof.
  induction w as [|o w IH]; intro b.
  - exists SPos, b. intro psi. cbn. destruct (psi b). gring.
  - destruct (act_row (o mod 3) (o / 3) b) as (k & c & H); [apply Nat.mod_upper_bound; lia|].
    destruct (IH c) as (k' & c' & H'). exists (smul k k'), c'. intro psi. cbn [apply_word]. rewrite H, H', gmul_assoc, smul_phase. reflexivity.
Qed.
Lemma basis_refl c : basis_state c c = gone. Proof. unfold basis_state. rewrite N.eqb_refl. reflexivity. Qed.
Lemma gmul_one_r x : gmul x gone = x. Proof. destruct x. gring. Qed.
Lemma entries_determine s u t w :
  (forall r c, entry (apply_signed s u) r c = entry (apply_signed t w) r c) ->
  forall psi b, apply_signed s u psi b = apply_signed t w psi b.
Proof.
  intros E psi b. destruct (word_row u b) as (k1 & c1 & H1). destruct (word_row w b) as (k2 & c2 & H2).
  pose proof (E b c1) as E1. unfold entry, apply_signed in *. rewrite H1, H2, basis_refl, gmul_one_r in E1.
  unfold basis_state in E1. destruct (N.eqb_spec c2 c1) as [C|C].
  - subst c2. rewrite gmul_one_r in E1. rewrite H1, H2, !gmul_assoc, E1. reflexivity.
  - exfalso. rewrite !gmul_zero_r in E1. rewrite <- smul_phase in E1. apply (phase_nonzero _ E1).
Qed.

(* ---------------------------------------------------------------- adjoint *)
Lemma act_entry m q c b : act m q (basis_state c) b =
  if N.eqb (with_bit b q (N.testbit c (N.of_nat q))) c then m (N.testbit b (N.of_nat q)) (N.testbit c (N.of_nat q)) else gzero.
Proof.
  unfold act, basis_state.
  assert (H : forall x, with_bit b q x = c -> x = N.testbit c (N.of_nat q)) by (intros x <-; symmetry; apply with_bit_same).
  set (mm := m (N.testbit b (N.of_nat q))).
  destruct (N.eqb_spec (with_bit b q false) c) as [E0|E0], (N.eqb_spec (with_bit b q true) c) as [E1|E1].
  - pose proof (H _ E0). pose proof (H _ E1). congruence.
  - rewrite <- (H _ E0), E0, N.eqb_refl. destruct (mm false), (mm true). gring.
  - rewrite <- (H _ E1), E1, N.eqb_refl. destruct (mm false), (mm true). gring.
  - destruct (N.testbit c (N.of_nat q)).
    + rewrite (proj2 (N.eqb_neq _ _) E1). destruct (mm false), (mm true). gring.
    + rewrite (proj2 (N.eqb_neq _ _) E0). destruct (mm false), (mm true). gring.
Qed.
Lemma pauli_hermitian p r c : pauli_matrix p r c = gconj (pauli_matrix p c r).
Proof. destruct p as [|[|[|p]]], r, c; reflexivity. Qed.
Lemma act_adjoint p q r c : entry (act (pauli_matrix p) q) r c = gconj (entry (act (pauli_matrix p) q) c r).
Proof.
  unfold entry. rewrite !act_entry.
  assert (H : with_bit r q (N.testbit c (N.of_nat q)) = c <-> with_bit c q (N.testbit r (N.of_nat q)) = r).
  { split; intro E; rewrite <- E at 1; rewrite with_bit_twice; apply with_bit_id. }
  destruct (N.eqb_spec (with_bit r q (N.testbit c (N.of_nat q))) c) as [E|E].
  - rewrite (proj1 H E), N.eqb_refl. apply pauli_hermitian.
  - rewrite (proj2 (N.eqb_neq _ _)); [reflexivity|]. intro E'. apply E, H, E'.
Qed.
(** columns of a word *)
Lemma act_col p q c : p < 3 -> exists k d, seq_eq (act (pauli_matrix p) q (basis_state c)) (scale (phase k) (basis_state d)).
Proof.
  intro Hp. destruct (act_row p q c Hp) as (k & d & H). exists (sconj k), d. intro b.
  pose proof (act_adjoint p q b c) as A. unfold entry in A. rewrite A, H. unfold scale. rewrite gconj_mul, sconj_phase. f_equal.
  unfold basis_state. rewrite N.eqb_sym. destruct (N.eqb b d); reflexivity.
Qed.
Lemma word_col w c : exists k d, seq_eq (apply_word w (basis_state c)) (scale (phase k) (basis_state d)).
Proof.
  induction w as [|o w (k & d & H)].
  - exists SPos, c. intro b. unfold scale. cbn [apply_word phase]. fold gone. rewrite gmul_one. reflexivity.
  - destruct (act_col (o mod 3) (o / 3) d) as (k' & d' & H'); [apply Nat.mod_upper_bound; lia|]. exists (smul k k'), d'.
    intro b. cbn [apply_word]. rewrite (act_ext _ _ _ _ H), act_scale. unfold scale. rewrite H'. unfold scale.
    rewrite gmul_assoc, smul_phase. reflexivity.
Qed.
Lemma word_adjoint w : forall r c, entry (apply_word w) r c = gconj (entry (apply_word (rev w)) c r).
Proof.
  induction w as [|o w IH]; intros r c.
  - unfold entry, basis_state. cbn. rewrite N.eqb_sym. destruct (N.eqb c r); reflexivity.
  - cbn [rev]. unfold entry in *. rewrite apply_word_app. cbn [apply_word].
    destruct (word_col w c) as (k & d & H). rewrite (act_ext _ _ _ _ H), act_scale. unfold scale.
    destruct (act_col (o mod 3) (o / 3) r) as (k' & d' & H'); [apply Nat.mod_upper_bound; lia|].
    rewrite (apply_word_ext (rev w) _ _ H'), apply_word_scale. unfold scale. rewrite gconj_mul, <- (IH d' c), H. unfold scale.
    pose proof (act_adjoint (o mod 3) (o / 3) r d) as A. unfold entry in A. rewrite A, H'. unfold scale, basis_state.
    rewrite N.eqb_sym. destruct (N.eqb d' d); gring.
Qed.
Lemma canonical_rev w psi : pauli_canonical w -> seq_eq (apply_word (rev w) psi) (apply_word w psi).
Proof.
  revert psi. induction w as [|o w IH]; intros psi Hc b; [reflexivity|]. apply canonical_cons in Hc as [H1 H2].
  cbn [rev]. rewrite apply_word_app. cbn [apply_word].
  rewrite word_skip.
  - apply act_ext, IH, H1.
  - intros x Hx. apply in_rev in Hx. specialize (H2 x Hx). lia.
Qed.
Lemma rev_apply_ext u w : (forall psi, seq_eq (apply_word u psi) (apply_word w psi)) -> forall psi, seq_eq (apply_word (rev u) psi) (apply_word (rev w) psi).
Proof.
  intros H psi b. assert (E : apply_signed SPos (rev u) psi b = apply_signed SPos (rev w) psi b).
  { apply entries_determine. intros r c. unfold apply_signed, entry. cbn [phase]. fold gone. rewrite !gmul_one.
    pose proof (word_adjoint (rev u) r c) as A. pose proof (word_adjoint (rev w) r c) as B. unfold entry in *.
    rewrite !rev_involutive in A, B. rewrite A, B, H. reflexivity. }
  unfold apply_signed in E. cbn [phase] in E. fold gone in E. rewrite !gmul_one in E. exact E.
Qed.

(** the product of two canonical words in the other order *)
Lemma simplify_swap l r s : pauli_canonical l -> pauli_canonical r ->
  pauli_simplify (r ++ l) (sconj s) = (fst (pauli_simplify (l ++ r) s), sconj (snd (pauli_simplify (l ++ r) s))).
Proof.
  intros Hl Hr. set (x := pauli_simplify (l ++ r) s).
  rewrite <- (simplify_fixed (fst x) (sconj (snd x))) by apply simplify_shape.
  apply simplify_unique. apply entries_determine. intros a c.
  assert (X : forall psi b, apply_signed (snd x) (fst x) psi b = apply_signed s (l ++ r) psi b) by (intros; apply simplify_sound).
  unfold entry, apply_signed in *. rewrite !sconj_phase.
  pose proof (word_adjoint (fst x) a c) as A. unfold entry in A. rewrite A. rewrite canonical_rev by apply simplify_shape.
  rewrite <- gconj_mul, X, gconj_mul. f_equal.
  pose proof (word_adjoint (l ++ r) c a) as B. unfold entry in B. rewrite B, gconj_invol, rev_app_distr, !apply_word_app.
  rewrite (apply_word_ext r _ (apply_word (rev l) (basis_state c))); [|intro; symmetry; apply canonical_rev, Hl].
  symmetry. apply canonical_rev, Hr.
Qed.

(* ---------------------------------------------------------------- sequences *)
Lemma canonical_NoDup_len n w : pauli_canonical w -> over (3 * n) w -> length w <= n.
Proof.
  intros Hc Ho. assert (N : NoDup (map (fun x => x / 3) w)).
  { clear Ho. induction w as [|o w IH]; cbn; [constructor|]. apply canonical_cons in Hc as [H1 H2]. constructor; [|apply IH, H1].
    intro Hin. apply in_map_iff in Hin as (x & E & Hx). specialize (H2 x Hx). lia. }
  rewrite <- (map_length (fun x => x / 3) w), <- (seq_length n 0). apply NoDup_incl_length; [exact N|].
  intros q Hq. apply in_map_iff in Hq as (x & <- & Hx). specialize (Ho x Hx). apply in_seq.
  assert (x / 3 < n) by (apply Nat.div_lt_upper_bound; lia). lia.
Qed.
Lemma sequence_wf n L w s : over (3 * n) w -> length w <= L \/ n <= L -> pauli_wf n L (pauli_sequence n w s).
Proof.
  intros Ho HL. right. unfold pauli_sequence. cbn. split; [reflexivity|]. split; [apply simplify_over, Ho|].
  destruct (simplify_shape w s) as (C & Len & _). split; [|exact C].
  pose proof (canonical_NoDup_len n _ C (simplify_over n w s Ho)). lia.
Qed.
Lemma wf_hash_nonzero n L w : pauli_safe n L -> over (3 * n) w -> length w <= L -> hash (pauli_radix n) w <> 0%N.
Proof. apply hash_nonzero. Qed.
Lemma sequence_sound n L w s psi b : pauli_safe n L -> over (3 * n) w -> length w <= L \/ n <= L ->
  apply_seq (pauli_sequence n w s) psi b = apply_signed s w psi b.
Proof.
  intros Hs Ho HL. unfold apply_seq, pauli_sequence. cbn [hseq_make hs_hash hs_sign hs_ops].
  rewrite (proj2 (N.eqb_neq _ _)); [apply (simplify_sound w s psi b)|]. apply (wf_hash_nonzero n L); [exact Hs|apply simplify_over, Ho|].
  destruct (simplify_shape w s) as (C & Len & _). pose proof (canonical_NoDup_len n _ C (simplify_over n w s Ho)). lia.
Qed.
Lemma sequence_unique n L u s w t : pauli_safe n L -> over (3 * n) u -> over (3 * n) w ->
  length u <= L \/ n <= L -> length w <= L \/ n <= L ->
  ((forall psi b, apply_signed s u psi b = apply_signed t w psi b) <-> pauli_sequence n u s = pauli_sequence n w t) /\
  (hs_eqb (pauli_sequence n u s) (pauli_sequence n w t) = true <-> pauli_sequence n u s = pauli_sequence n w t).
Proof.
  intros Hs Hu Hw Lu Lw. split.
  - rewrite simplify_unique. unfold pauli_sequence. split; [intro E; rewrite E; reflexivity|]. intro E.
    apply (f_equal hs_ops) in E as E1. apply (f_equal hs_sign) in E as E2. cbn in E1, E2.
    destruct (pauli_simplify u s), (pauli_simplify w t); cbn in *; congruence.
  - unfold hs_eqb. split.
    + destruct (N.eqb_spec (hs_hash (pauli_sequence n u s)) (hs_hash (pauli_sequence n w t))) as [E|E]; [|discriminate].
      destruct (sequence_wf n L u s Hu Lu) as [Z|(A1 & A2 & A3 & A4)].
      * exfalso. apply (f_equal hs_hash) in Z. revert Z. cbn. apply (wf_hash_nonzero n L); [exact Hs|apply simplify_over, Hu|].
        destruct (simplify_shape u s) as (C & Len & _). pose proof (canonical_NoDup_len n _ C (simplify_over n u s Hu)). lia.
      * destruct (sequence_wf n L w t Hw Lw) as [Z|(B1 & B2 & B3 & B4)].
        -- exfalso. apply (f_equal hs_hash) in Z. revert Z. cbn. apply (wf_hash_nonzero n L); [exact Hs|apply simplify_over, Hw|].
           destruct (simplify_shape w t) as (C & Len & _). pose proof (canonical_NoDup_len n _ C (simplify_over n w t Hw)). lia.
        -- rewrite A1, B1 in E. apply (hash_inj (3 * n) L) in E; try assumption. intro S.
           destruct (pauli_sequence n u s) as [h1 o1 s1], (pauli_sequence n w t) as [h2 o2 s2]; cbn in *. subst.
           destruct s1, s2; cbn in S; try discriminate; reflexivity.
    + intros ->. rewrite N.eqb_refl. destruct (hs_sign (pauli_sequence n w t)); reflexivity.
Qed.

Definition wf_nonzero (n L : nat) (q : hseq) : Prop := pauli_wf n L q /\ hs_hash q <> 0%N.
Lemma wf_zero n L q : pauli_safe n L -> pauli_wf n L q -> hs_zero q = true -> q = hseq_const true.
Proof.
  intros Hs [->|(A & B & C & D)] Z; [reflexivity|]. exfalso. unfold hs_zero in Z. apply N.eqb_eq in Z. rewrite A in Z.
  apply (hash_nonzero (3 * n) L) in Z; assumption.
Qed.
Lemma wf_parts n L q : pauli_wf n L q -> hs_hash q <> 0%N ->
  hs_hash q = hash (N.of_nat (3 * n)) (hs_ops q) /\ over (3 * n) (hs_ops q) /\ length (hs_ops q) <= L /\ pauli_canonical (hs_ops q).
Proof. intros [->|H] Z; [contradiction Z; reflexivity|exact H]. Qed.

Lemma multiply_is_sequence n L a b : pauli_wf n L a -> pauli_wf n L b -> hs_hash a <> 0%N -> hs_hash b <> 0%N ->
  pauli_multiply n a b = pauli_sequence n (hs_ops a ++ hs_ops b) (smul (hs_sign a) (hs_sign b)).
Proof.
  intros Wa Wb Za Zb. destruct (wf_parts n L a Wa Za) as (A1 & A2 & A3 & A4). destruct (wf_parts n L b Wb Zb) as (B1 & B2 & B3 & B4).
  unfold pauli_multiply, pauli_sequence. rewrite <- merge_simplify by assumption. unfold hs_zero.
  destruct (hs_ops b) as [|ob wb] eqn:Eb.
  - rewrite (proj2 (N.eqb_neq _ _) Zb), merge_nil_r. cbn [fst snd]. unfold hseq_make. rewrite A1. reflexivity.
  - destruct (hs_ops a) as [|oa wa] eqn:Ea; [|reflexivity].
    rewrite (proj2 (N.eqb_neq _ _) Za). rewrite merge_nil_l. cbn [fst snd]. unfold hseq_make. rewrite B1. reflexivity.
Qed.
Lemma multiply_zero n L a b : pauli_safe n L -> pauli_wf n L a -> pauli_wf n L b -> hs_hash a = 0%N \/ hs_hash b = 0%N ->
  hs_hash (pauli_multiply n a b) = 0%N.
Proof.
  intros Hs Wa Wb H. unfold pauli_multiply. destruct (N.eqb_spec (hs_hash b) 0) as [Zb|Zb].
  - apply N.eqb_eq in Zb. pose proof (wf_zero n L b Hs Wb Zb) as Eb. rewrite Eb. reflexivity.
  - destruct H as [H|H]; [|contradiction]. assert (Za : hs_zero a = true) by (apply N.eqb_eq; exact H).
    pose proof (wf_zero n L a Hs Wa Za) as Ea. rewrite Ea. unfold hs_zero. cbn.
    rewrite (proj2 (N.eqb_neq _ _) Zb). destruct (hs_ops b); reflexivity.
Qed.
Lemma apply_seq_nonzero q psi b : hs_hash q <> 0%N -> apply_seq q psi b = apply_signed (hs_sign q) (hs_ops q) psi b.
Proof. intro H. unfold apply_seq. rewrite (proj2 (N.eqb_neq _ _) H). reflexivity. Qed.
Lemma apply_seq_zero q psi b : hs_hash q = 0%N -> apply_seq q psi b = gzero.
Proof. intro H. unfold apply_seq. rewrite H. reflexivity. Qed.
Lemma apply_seq_ext q psi psi' : seq_eq psi psi' -> seq_eq (apply_seq q psi) (apply_seq q psi').
Proof. intros H b. unfold apply_seq. destruct (N.eqb (hs_hash q) 0); [reflexivity|]. rewrite (apply_word_ext _ _ _ H). reflexivity. Qed.
Lemma apply_word_null w : seq_eq (apply_word w (fun _ => gzero)) (fun _ => gzero).
Proof. induction w as [|o w IH]; intro b; cbn; [reflexivity|]. rewrite (act_ext _ _ _ _ IH). unfold act. gring. Qed.

Lemma product_apply s u t w psi b :
  apply_signed s u (apply_signed t w psi) b = apply_signed (smul s t) (u ++ w) psi b.
Proof.
  unfold apply_signed. change (fun b0 => gmul (phase t) (apply_word w psi b0)) with (scale (phase t) (apply_word w psi)).
  rewrite apply_word_scale. unfold scale. rewrite gmul_assoc, smul_phase, apply_word_app. reflexivity.
Qed.
(** products denote products of operators; [L] covers words of both lengths together (or all canonical words) *)
Lemma multiply_sound n La Lb L a b psi x : pauli_safe n L -> La + Lb <= L \/ n <= L /\ La <= L /\ Lb <= L ->
  pauli_wf n La a -> pauli_wf n Lb b ->
  apply_seq (pauli_multiply n a b) psi x = apply_seq a (apply_seq b psi) x /\
  (hs_hash a <> 0%N -> hs_hash b <> 0%N -> pauli_wf n L (pauli_multiply n a b)).
Proof.
  intros Hs HL Wa Wb.
  assert (mono : forall M q, M <= L -> pauli_wf n M q -> pauli_wf n L q).
  { intros M q HM [->|(A & B & C & D)]; [left; reflexivity|right]. repeat split; try assumption. lia. }
  pose proof (mono La a ltac:(lia) Wa) as Wa'. pose proof (mono Lb b ltac:(lia) Wb) as Wb'.
  destruct (N.eqb_spec (hs_hash a) 0) as [Za|Za].
  { split; [|contradiction]. rewrite apply_seq_zero by (apply (multiply_zero n L); auto). rewrite apply_seq_zero by exact Za. reflexivity. }
  destruct (N.eqb_spec (hs_hash b) 0) as [Zb|Zb].
  { split; [|contradiction]. rewrite apply_seq_zero by (apply (multiply_zero n L); auto).
    rewrite (apply_seq_ext a _ (fun _ => gzero)) by (intro y; apply apply_seq_zero, Zb).
    rewrite apply_seq_nonzero by exact Za. unfold apply_signed. rewrite apply_word_null. rewrite gmul_zero_r. reflexivity. }
  destruct (wf_parts n La a Wa Za) as (A1 & A2 & A3 & A4). destruct (wf_parts n Lb b Wb Zb) as (B1 & B2 & B3 & B4).
  assert (Ho : over (3 * n) (hs_ops a ++ hs_ops b)) by (apply over_app; split; assumption).
  assert (Hlen : length (hs_ops a ++ hs_ops b) <= L \/ n <= L) by (rewrite app_length; lia).
  rewrite (multiply_is_sequence n L) by assumption. split.
  - rewrite (sequence_sound n L) by assumption. rewrite (apply_seq_nonzero a) by exact Za.
    rewrite <- product_apply. unfold apply_signed at 1 3. f_equal. apply apply_word_ext. intro y. symmetry. apply apply_seq_nonzero, Zb.
  - intros _ _. apply sequence_wf; assumption.
Qed.

(* ---------------------------------------------------------------- conjugation *)
Lemma conjugate_adjoint n L q r c : pauli_wf n L q -> entry (apply_seq (pauli_conjugate q)) r c = gconj (entry (apply_seq q) c r).
Proof.
  intro W. unfold entry, apply_seq, pauli_conjugate. cbn [hs_hash hs_ops hs_sign]. destruct (N.eqb_spec (hs_hash q) 0) as [Z|Z]; [reflexivity|].
  destruct (wf_parts n L q W Z) as (_ & _ & _ & C). rewrite gconj_mul, <- sconj_phase. f_equal.
  pose proof (word_adjoint (hs_ops q) r c) as A. unfold entry in A. rewrite A. f_equal. apply canonical_rev, C.
Qed.
Lemma pauli_conjugate_involutive q : pauli_conjugate (pauli_conjugate q) = q.
Proof. destruct q as [h w s]. unfold pauli_conjugate. cbn. rewrite sconj_invol. reflexivity. Qed.
Lemma conjugate_wf n L q : pauli_wf n L q -> pauli_wf n L (pauli_conjugate q).
Proof. intros [->|H]; [left; reflexivity|right; exact H]. Qed.
Lemma pauli_conjugate_product n L a b : pauli_wf n L a -> pauli_wf n L b -> hs_hash a <> 0%N -> hs_hash b <> 0%N ->
  pauli_conjugate (pauli_multiply n a b) = pauli_multiply n (pauli_conjugate b) (pauli_conjugate a).
Proof.
  intros Wa Wb Za Zb. rewrite (multiply_is_sequence n L) by assumption.
  rewrite (multiply_is_sequence n L (pauli_conjugate b)) by (try apply conjugate_wf; assumption).
  cbn [pauli_conjugate hs_ops hs_sign]. rewrite (smul_comm (sconj (hs_sign b))), <- sconj_smul.
  unfold pauli_sequence. rewrite (simplify_swap (hs_ops a) (hs_ops b)).
  - reflexivity.
  - apply (wf_parts n L a Wa Za).
  - apply (wf_parts n L b Wb Zb).
Qed.

(* ---------------------------------------------------------------- commutators *)
Definition swap_sign (s t : sign) : sign := smul (smul s s) (sconj t).
Lemma simplify_signs u s k : pauli_simplify u (smul k s) = (fst (pauli_simplify u s), smul k (snd (pauli_simplify u s))).
Proof.
  rewrite <- (simplify_fixed (fst (pauli_simplify u s)) (smul k (snd (pauli_simplify u s)))) by apply simplify_shape.
  apply simplify_unique. intros psi b. unfold apply_signed. rewrite !smul_phase, <- !gmul_assoc. f_equal.
  symmetry. apply (simplify_sound u s psi b).
Qed.
Lemma multiply_swapped n L a b : pauli_wf n L a -> pauli_wf n L b -> hs_hash a <> 0%N -> hs_hash b <> 0%N ->
  let r := pauli_multiply n a b in
  pauli_multiply n b a = mk_hseq (hs_hash r) (hs_ops r) (swap_sign (smul (hs_sign a) (hs_sign b)) (hs_sign r)).
Proof.
  intros Wa Wb Za Zb. cbv zeta. rewrite (multiply_is_sequence n L a b), (multiply_is_sequence n L b a) by assumption.
  rewrite (smul_comm (hs_sign b)). set (s := smul (hs_sign a) (hs_sign b)). unfold pauli_sequence.
  assert (E : s = smul (smul s s) (sconj s)) by (destruct s; reflexivity). rewrite E at 1 2.
  rewrite simplify_signs, (simplify_swap (hs_ops a) (hs_ops b));
    [reflexivity|apply (wf_parts n L a Wa Za)|apply (wf_parts n L b Wb Zb)].
Qed.
Lemma swap_sign_imag s t : swap_sign s t = if Bool.eqb (s_is_imaginary s) (s_is_imaginary t) then t else smul SNeg t.
Proof. destruct s, t; reflexivity. Qed.
Lemma gadd_self_neg x : gsub x (gmul (phase SNeg) x) = gadd x x. Proof. destruct x. gring. Qed.
Lemma gsub_self x : gsub x x = gzero. Proof. destruct x. gring. Qed.
Lemma gadd_neg x : gadd x (gmul (phase SNeg) x) = gzero. Proof. destruct x. gring. Qed.

Lemma commutators_spec n La Lb L a b psi x : pauli_safe n L -> La + Lb <= L \/ n <= L /\ La <= L /\ Lb <= L ->
  pauli_wf n La a -> pauli_wf n Lb b ->
  let ab := apply_seq a (apply_seq b psi) x in
  let ba := apply_seq b (apply_seq a psi) x in
  let twice q := gadd (apply_seq q psi x) (apply_seq q psi x) in
  twice (pauli_commutator n a b) = gsub ab ba /\ twice (pauli_anticommutator n a b) = gadd ab ba.
Proof.
  intros Hs HL Wa Wb ab ba twice.
  assert (mono : forall M q, M <= L -> pauli_wf n M q -> pauli_wf n L q).
  { intros M q HM [->|(A & B & C & D)]; [left; reflexivity|right]. repeat split; try assumption. lia. }
  pose proof (mono La a ltac:(lia) Wa) as Wa'. pose proof (mono Lb b ltac:(lia) Wb) as Wb'.
  assert (Eab : ab = apply_seq (pauli_multiply n a b) psi x) by (symmetry; apply (multiply_sound n La Lb L); assumption).
  assert (Eba : ba = apply_seq (pauli_multiply n b a) psi x) by (symmetry; apply (multiply_sound n Lb La L); try assumption; lia).
  rewrite Eab, Eba. unfold twice, pauli_commutator, pauli_anticommutator.
  assert (Z0 : apply_seq (hseq_const true) psi x = gzero) by reflexivity.
  destruct (N.eqb_spec (hs_hash a) 0) as [Za|Za].
  { rewrite (apply_seq_zero (pauli_multiply n a b)), (apply_seq_zero (pauli_multiply n b a)) by (apply (multiply_zero n L); auto).
    destruct (Bool.eqb _ _); cbn [negb]; rewrite ?Z0, ?(apply_seq_zero (pauli_multiply n a b)) by (apply (multiply_zero n L); auto); split; reflexivity. }
  destruct (N.eqb_spec (hs_hash b) 0) as [Zb|Zb].
  { rewrite (apply_seq_zero (pauli_multiply n a b)), (apply_seq_zero (pauli_multiply n b a)) by (apply (multiply_zero n L); auto).
    destruct (Bool.eqb _ _); cbn [negb]; rewrite ?Z0, ?(apply_seq_zero (pauli_multiply n a b)) by (apply (multiply_zero n L); auto); split; reflexivity. }
  assert (S : apply_seq (pauli_multiply n b a) psi x =
    if Bool.eqb (s_is_imaginary (smul (hs_sign a) (hs_sign b))) (hs_imaginary (pauli_multiply n a b)) then apply_seq (pauli_multiply n a b) psi x
    else gmul (phase SNeg) (apply_seq (pauli_multiply n a b) psi x)).
  { rewrite (multiply_swapped n L a b) by assumption. rewrite swap_sign_imag. unfold hs_imaginary, apply_seq. cbn [hs_hash hs_ops hs_sign].
    destruct (N.eqb (hs_hash (pauli_multiply n a b)) 0); destruct (Bool.eqb _ _); try reflexivity.
    rewrite smul_phase, gmul_assoc. reflexivity. }
  rewrite S. destruct (Bool.eqb _ _); cbn [negb]; rewrite ?Z0, ?gadd_self_neg, ?gsub_self, ?gadd_neg; split; reflexivity.
Qed.

(** both are zero or the product *)
Lemma commutators_shape n a b : let r := pauli_multiply n a b in
  (pauli_commutator n a b = hseq_const true /\ pauli_anticommutator n a b = r) \/
  (pauli_commutator n a b = r /\ pauli_anticommutator n a b = hseq_const true).
Proof.
  cbv zeta. unfold pauli_commutator, pauli_anticommutator. destruct (Bool.eqb _ _); cbn [negb]; [left|right]; split; reflexivity.
Qed.

(* ---------------------------------------------------------------- ring structure of products *)
Lemma multiply_assoc n L a b c : pauli_safe n L -> pauli_wf n L a -> pauli_wf n L b -> pauli_wf n L c ->
  hs_hash a <> 0%N -> hs_hash b <> 0%N -> hs_hash c <> 0%N ->
  length (hs_ops a) + length (hs_ops b) + length (hs_ops c) <= L \/ n <= L ->
  pauli_multiply n (pauli_multiply n a b) c = pauli_multiply n a (pauli_multiply n b c).
Proof.
  intros Hs Wa Wb Wc Za Zb Zc HL.
  destruct (wf_parts n L a Wa Za) as (A1 & A2 & A3 & A4). destruct (wf_parts n L b Wb Zb) as (B1 & B2 & B3 & B4).
  destruct (wf_parts n L c Wc Zc) as (C1 & C2 & C3 & C4).
  rewrite (multiply_is_sequence n L a b), (multiply_is_sequence n L b c) by assumption.
  assert (Hab : over (3 * n) (hs_ops a ++ hs_ops b)) by (apply over_app; split; assumption).
  assert (Hbc : over (3 * n) (hs_ops b ++ hs_ops c)) by (apply over_app; split; assumption).
  set (sab := smul (hs_sign a) (hs_sign b)). set (sbc := smul (hs_sign b) (hs_sign c)).
  assert (Wab : pauli_wf n L (pauli_sequence n (hs_ops a ++ hs_ops b) sab)) by (apply sequence_wf; [assumption|rewrite app_length; lia]).
  assert (Wbc : pauli_wf n L (pauli_sequence n (hs_ops b ++ hs_ops c) sbc)) by (apply sequence_wf; [assumption|rewrite app_length; lia]).
  assert (Zab : hs_hash (pauli_sequence n (hs_ops a ++ hs_ops b) sab) <> 0%N).
  { destruct Wab as [E|(E & O & Le & _)].
    - exfalso. apply (f_equal hs_hash) in E as E'. revert E'. cbn. apply (wf_hash_nonzero n L); [exact Hs|apply simplify_over, Hab|].
      destruct (simplify_shape (hs_ops a ++ hs_ops b) sab) as (C & Len & _). rewrite app_length in Len.
      pose proof (canonical_NoDup_len n _ C (simplify_over n _ sab Hab)). lia.
    - rewrite E. apply (hash_nonzero (3 * n) L); assumption. }
  assert (Zbc : hs_hash (pauli_sequence n (hs_ops b ++ hs_ops c) sbc) <> 0%N).
  { destruct Wbc as [E|(E & O & Le & _)].
    - exfalso. apply (f_equal hs_hash) in E as E'. revert E'. cbn. apply (wf_hash_nonzero n L); [exact Hs|apply simplify_over, Hbc|].
      destruct (simplify_shape (hs_ops b ++ hs_ops c) sbc) as (C & Len & _). rewrite app_length in Len.
      pose proof (canonical_NoDup_len n _ C (simplify_over n _ sbc Hbc)). lia.
    - rewrite E. apply (hash_nonzero (3 * n) L); assumption. }
  rewrite (multiply_is_sequence n L _ c), (multiply_is_sequence n L a _) by assumption.
  unfold pauli_sequence at 1 4. cbv zeta.
  match goal with |- hseq_make _ (fst ?p) (snd ?p) = hseq_make _ (fst ?q) (snd ?q) => enough (E : p = q) by (rewrite E; reflexivity) end.
  apply simplify_unique. intros psi x. rewrite <- !product_apply. unfold pauli_sequence. cbn [hseq_make hs_ops hs_sign].
  rewrite simplify_sound. unfold sab. rewrite <- product_apply.
  unfold apply_signed at 1 4. f_equal. apply apply_word_ext. intro y. rewrite simplify_sound. unfold sbc. apply product_apply.
Qed.
Lemma multiply_identity n L a : pauli_safe n L -> pauli_wf n L a ->
  pauli_multiply n (hseq_const false) a = a /\ pauli_multiply n a (hseq_const false) = a.
Proof.
  intros Hs Wa. unfold pauli_multiply. cbn [hseq_const hs_ops hs_sign hs_hash]. unfold hs_zero. cbn [hs_hash].
  split.
  - destruct (hs_ops a) eqn:E.
    + destruct (N.eqb_spec (hs_hash a) 0) as [Z|Z].
      * symmetry. apply (wf_zero n L); [exact Hs|exact Wa|]. unfold hs_zero. rewrite Z. reflexivity.
      * destruct (wf_parts n L a Wa Z) as (A1 & _). rewrite E in A1. cbn in A1. destruct a as [h w s]. cbn in *. subst.
        rewrite smul_pos_l. reflexivity.
    + cbn [N.eqb]. rewrite smul_pos_l. rewrite <- E. destruct a; reflexivity.
  - cbn [N.eqb]. rewrite smul_pos_r. destruct a; reflexivity.
Qed.

Lemma sigma_is_sequence n p q s : p < 3 -> q < n -> (N.of_nat (3 * n) < 2 ^ 63)%N -> pauli_sigma p q s = pauli_sequence n [3 * q + p] s.
Proof.
  intros Hp Hq Hn. unfold pauli_sequence. rewrite simplify_fixed by (repeat constructor). cbn [fst snd]. unfold pauli_sigma, hseq_make, pauli_radix.
  rewrite hash_op_word. unfold hash_op. f_equal. assert (N.of_nat (3 * q + p) < N.of_nat (3 * n))%N by lia. assert (2 ^ 63 + 2 <= two64)%N by (vm_compute; discriminate). rewrite (w64_id (1 + _)) by lia. rewrite w64_id; lia.
Qed.

Lemma pauli_get_if_canonical_spec n L w : pauli_safe n L -> over (3 * n) w -> length w <= L ->
  (pauli_canonical w -> pauli_get_if_canonical n w = Some (hseq_make (pauli_radix n) w SPos)) /\
  (~ pauli_canonical w -> pauli_get_if_canonical n w = None).
Proof.
  intros Hs Ho HL. unfold pauli_get_if_canonical. split.
  - intro Hc. unfold pauli_sequence. rewrite simplify_fixed by exact Hc. cbn [fst snd hseq_make hs_ops hs_hash].
    rewrite Nat.eqb_refl, N.eqb_refl. reflexivity.
  - intro Hc. destruct (Nat.eqb_spec (length (hs_ops (pauli_sequence n w SPos))) (length w)) as [E|E]; cbn [negb]; [|reflexivity].
    destruct (N.eqb_spec (hs_hash (pauli_sequence n w SPos)) (hash (pauli_radix n) w)) as [E'|E']; cbn [negb]; [|reflexivity].
    exfalso. apply Hc. unfold pauli_sequence in E, E'. cbn in E, E'.
    apply (hash_inj (3 * n) L) in E'; try assumption.
    + rewrite <- E'. apply simplify_shape.
    + apply simplify_over, Ho.
    + rewrite E. exact HL.
Qed.
