(** Lemmas about words, phases and hashes. *)
From Coq Require Import List ZArith NArith Arith Bool Sorted Lia.
From Coq Require Import ZifyBool ZifyNat ZifyN.
From Verif Require Import CoreModel CoreSpec.
Import ListNotations.

(* ---------------------------------------------------------------- phases *)
Lemma smul_phase a b : phase (smul a b) = gmul (phase a) (phase b).
Proof. destruct a, b; reflexivity. Qed.
Lemma sconj_phase a : phase (sconj a) = gconj (phase a).
Proof. destruct a; reflexivity. Qed.
Lemma sneg_phase a : phase (sneg a) = gneg (phase a).
Proof. destruct a; reflexivity. Qed.
Lemma sdiff_phase a b : phase (sdiff a b) = gmul (gconj (phase a)) (phase b).
Proof. destruct a, b; reflexivity. Qed.
Lemma phase_inj a b : phase a = phase b -> a = b.
Proof. destruct a, b; intro H; try reflexivity; discriminate H. Qed.
Lemma phase_image z : (exists s, phase s = z) <-> gmul z (gconj z) = gone.
Proof.
  split.
  - intros [s <-]; destruct s; reflexivity.
  - destruct z as [x y]; unfold gmul, gconj, gone; cbn [fst snd]; intro H.
    assert (H1 : (x * x + y * y = 1)%Z) by (injection H; intros; lia).
    assert (Hx : (-1 <= x <= 1)%Z) by nia.
    assert (Hy : (-1 <= y <= 1)%Z) by nia.
    assert (Hc : (x = 1 /\ y = 0 \/ x = -1 /\ y = 0 \/ x = 0 /\ y = 1 \/ x = 0 /\ y = -1)%Z) by nia.
    destruct Hc as [[-> ->]|[[-> ->]|[[-> ->]|[-> ->]]]].
    + exists SPos; reflexivity.
    + exists SNeg; reflexivity.
    + exists SIm; reflexivity.
    + exists SNegIm; reflexivity.
Qed.
Lemma s_is_negative_spec a : s_is_negative a = true <-> (phase a = (-1, 0) \/ phase a = (0, -1))%Z.
Proof. destruct a; cbv; split; intro H; try discriminate; try tauto; destruct H as [H|H]; discriminate H. Qed.
Lemma s_is_imaginary_spec a : s_is_imaginary a = true <-> fst (phase a) = 0%Z.
Proof. destruct a; cbv; split; intro H; try discriminate; reflexivity. Qed.
Lemma s_are_negatives_spec a b : s_are_negatives a b = true <-> phase a = gneg (phase b).
Proof. destruct a, b; cbv; split; intro H; try discriminate H; reflexivity. Qed.
Lemma sign_eqb_spec a b : sign_eqb a b = true <-> a = b.
Proof. destruct a, b; cbv; split; intro H; try discriminate H; reflexivity. Qed.

Lemma smul_assoc a b c : smul a (smul b c) = smul (smul a b) c.
Proof. destruct a, b, c; reflexivity. Qed.
Lemma smul_comm a b : smul a b = smul b a.
Proof. destruct a, b; reflexivity. Qed.
Lemma smul_pos_l a : smul SPos a = a.
Proof. destruct a; reflexivity. Qed.
Lemma smul_pos_r a : smul a SPos = a.
Proof. destruct a; reflexivity. Qed.
Lemma smul_sconj a : smul a (sconj a) = SPos.
Proof. destruct a; reflexivity. Qed.
Lemma sconj_invol a : sconj (sconj a) = a.
Proof. destruct a; reflexivity. Qed.
Lemma sconj_smul a b : sconj (smul a b) = smul (sconj a) (sconj b).
Proof. destruct a, b; reflexivity. Qed.
Lemma sdiff_smul a b : smul a (sdiff a b) = b.
Proof. destruct a, b; reflexivity. Qed.
Lemma sdiff_eq a b : sdiff a b = smul (sconj a) b.
Proof. destruct a, b; reflexivity. Qed.
Lemma sdiff_refl a : sdiff a a = SPos.
Proof. destruct a; reflexivity. Qed.

(* ---------------------------------------------------------------- hash *)
Local Open Scope N_scope.

Lemma two64_pos : 0 < two64. Proof. reflexivity. Qed.
Lemma w64_lt x : w64 x < two64. Proof. apply N.mod_lt. discriminate. Qed.
Lemma w64_id x : x < two64 -> w64 x = x. Proof. apply N.mod_small. Qed.
Lemma w64_idem x : w64 (w64 x) = w64 x. Proof. apply N.mod_mod. discriminate. Qed.
Lemma w64_add_l x y : w64 (w64 x + y) = w64 (x + y).
Proof. unfold w64. rewrite N.add_mod_idemp_l by discriminate. reflexivity. Qed.
Lemma w64_add_r x y : w64 (x + w64 y) = w64 (x + y).
Proof. unfold w64. rewrite N.add_mod_idemp_r by discriminate. reflexivity. Qed.
Lemma w64_mul_l x y : w64 (w64 x * y) = w64 (x * y).
Proof. unfold w64. rewrite N.mul_mod_idemp_l by discriminate. reflexivity. Qed.
Lemma w64_mul_r x y : w64 (x * w64 y) = w64 (x * y).
Proof. unfold w64. rewrite N.mul_mod_idemp_r by discriminate. reflexivity. Qed.

(** exact (unbounded) value of the code of a word *)
Fixpoint val (r : N) (w : word) : N :=
  match w with
  | [] => 0
  | a :: u => (N.of_nat a + 1) * r ^ N.of_nat (length u) + val r u
  end.

Lemma val_app r u v : val r (u ++ v) = val r u * r ^ N.of_nat (length v) + val r v.
Proof.
  induction u as [|a u IH]; cbn [val app length].
  - lia.
  - rewrite IH, app_length, Nat2N.inj_add, N.pow_add_r. lia.
Qed.

Lemma hash_loop_val r ops : forall h m k,
  w64 m = w64 (r ^ k) ->
  w64 (hash_loop r h m ops) = w64 (h + r ^ k * val r (rev ops)).
Proof.
  induction ops as [|o ops IH]; intros h m k Hm; cbn [hash_loop rev].
  - cbn [val]. rewrite N.mul_0_r, N.add_0_r. reflexivity.
  - rewrite (IH _ _ (k + 1)).
    + rewrite w64_add_l. rewrite val_app. cbn [val length]. 
      replace (h + w64 (w64 (N.of_nat o + 1) * m) + r ^ (k + 1) * val r (rev ops))
        with (w64 (w64 (N.of_nat o + 1) * m) + (h + r ^ (k + 1) * val r (rev ops))) by lia.
      rewrite w64_add_l.
      assert (E : w64 (w64 (N.of_nat o + 1) * m) = w64 ((N.of_nat o + 1) * r ^ k)).
      { rewrite w64_mul_l. rewrite <- (w64_mul_r _ m), Hm, w64_mul_r. reflexivity. }
      rewrite <- w64_add_l, E, w64_add_l.
      f_equal. rewrite N.pow_add_r, N.pow_1_r.
      change (N.of_nat 0) with 0. change (N.of_nat 1) with 1. rewrite N.pow_0_r, N.pow_1_r. lia.
    + rewrite w64_idem, <- w64_mul_l, Hm, w64_mul_l, N.pow_add_r, N.pow_1_r. reflexivity.
Qed.

Lemma hash_loop_lt r ops : forall h m, h < two64 -> hash_loop r h m ops < two64.
Proof.
  induction ops as [|o ops IH]; intros h m Hh; cbn [hash_loop].
  - exact Hh.
  - apply IH, w64_lt.
Qed.

Lemma hash_lt r w : hash r w < two64.
Proof. unfold hash, hash_with. apply hash_loop_lt. reflexivity. Qed.

Lemma hash_mod r w : hash r w = w64 (1 + val r w).
Proof.
  rewrite <- (w64_id (hash r w)) by apply hash_lt.
  unfold hash, hash_with. rewrite (hash_loop_val r _ 1 1 0) by reflexivity.
  rewrite rev_involutive, N.pow_0_r, N.mul_1_l. reflexivity.
Qed.

Lemma hash_nil r : hash r [] = 1. Proof. reflexivity. Qed.

Lemma count_words_pos r L : 0 < count_words r L.
Proof. induction L as [|L IH]; cbn [count_words]; lia. Qed.

Lemma count_words_mono r L M : (L <= M)%nat -> count_words r L <= count_words r M.
Proof. induction 1 as [|M _ IH]; cbn [count_words]; lia. Qed.

Lemma count_words_mul r L : r * count_words r L + 1 = count_words r (S L).
Proof.
  induction L as [|L IH].
  - cbn [count_words]. change (N.of_nat 1) with 1. rewrite N.pow_1_r. lia.
  - cbn [count_words] in *. rewrite N.mul_add_distr_l.
    replace (r * count_words r L) with (count_words r L + r ^ N.of_nat (S L) - 1) by lia.
    pose proof (count_words_pos r L).
    replace (N.of_nat (S (S L))) with (N.of_nat (S L) + 1) by lia.
    rewrite N.pow_add_r, N.pow_1_r. lia.
Qed.

Lemma over_cons r a u : over r (a :: u) <-> (a < r)%nat /\ over r u.
Proof.
  unfold over; cbn [In]; split.
  - intro H; split; [apply H; left; reflexivity | intros o Ho; apply H; right; exact Ho].
  - intros [Ha Hu] o [<-|Ho]; [exact Ha | apply Hu, Ho].
Qed.
Lemma over_app r u v : over r (u ++ v) <-> over r u /\ over r v.
Proof.
  induction u as [|a u IH]; cbn [app].
  - unfold over at 2; cbn [In]. tauto.
  - rewrite !over_cons, IH. tauto.
Qed.

(** the largest code of a word of length L *)
Lemma val_upper r w : over r w -> 1 + val (N.of_nat r) w <= count_words (N.of_nat r) (length w).
Proof.
  induction w as [|a u IH]; intro H.
  - cbn. lia.
  - apply over_cons in H as [Ha Hu]. specialize (IH Hu).
    cbn [val length count_words]. rewrite Nat2N.inj_succ, N.pow_succ_r'.
    assert ((N.of_nat a + 1) * N.of_nat r ^ N.of_nat (length u) <= N.of_nat r * N.of_nat r ^ N.of_nat (length u))
      by (apply N.mul_le_mono_r; lia).
    lia.
Qed.

(** the smallest code: strictly above every shorter word *)
Lemma val_lower r w : count_words r (length w) <= val r w + r ^ N.of_nat (length w).
Proof.
  induction w as [|a u IH].
  - cbn. lia.
  - cbn [val length count_words]. 
    assert (1 * r ^ N.of_nat (length u) <= (N.of_nat a + 1) * r ^ N.of_nat (length u))
      by (apply N.mul_le_mono_r; lia).
    lia.
Qed.

Lemma val_lower_pred r w n : length w = S n -> count_words r n <= val r w.
Proof.
  intro H. pose proof (val_lower r w) as L. rewrite H in L. cbn [count_words] in L. lia.
Qed.

Lemma lex_lt_val r u v : over r u -> length u = length v -> lex_lt u v ->
  val (N.of_nat r) u < val (N.of_nat r) v.
Proof.
  intros Hu Hl Hlt. revert Hu Hl. induction Hlt as [a b u v Hab|a u v Huv IH]; intros Hu Hl.
  - apply over_cons in Hu as [Ha Hu]. cbn [length] in Hl. injection Hl as Hl.
    cbn [val]. rewrite <- Hl.
    pose proof (val_upper r u Hu) as U. pose proof (val_lower (N.of_nat r) v) as Lo. rewrite <- Hl in Lo.
    assert ((N.of_nat a + 2) * N.of_nat r ^ N.of_nat (length u) <= (N.of_nat b + 1) * N.of_nat r ^ N.of_nat (length u))
      by (apply N.mul_le_mono_r; lia).
    lia.
  - apply over_cons in Hu as [_ Hu]. cbn [length] in Hl. injection Hl as Hl.
    cbn [val]. rewrite Hl. specialize (IH Hu Hl). lia.
Qed.

Lemma shortlex_lt_val r u v : over r u -> shortlex_lt u v -> val (N.of_nat r) u < val (N.of_nat r) v.
Proof.
  intros Hu [Hl|[Hl Hlt]].
  - destruct (length v) as [|n] eqn:En; [lia|].
    pose proof (val_upper r u Hu). pose proof (val_lower_pred (N.of_nat r) v n En).
    assert (count_words (N.of_nat r) (length u) <= count_words (N.of_nat r) n) by (apply count_words_mono; lia).
    lia.
  - apply lex_lt_val; assumption.
Qed.

Lemma lex_trichotomy u : forall v, length u = length v -> lex_lt u v \/ u = v \/ lex_lt v u.
Proof.
  induction u as [|a u IH]; intros [|b v] Hl; cbn [length] in Hl; try discriminate.
  - right; left; reflexivity.
  - injection Hl as Hl. destruct (Nat.lt_trichotomy a b) as [H|[->|H]].
    + left; constructor; exact H.
    + destruct (IH v Hl) as [H|[->|H]].
      * left; apply lex_tail, H.
      * right; left; reflexivity.
      * right; right; apply lex_tail, H.
    + right; right; constructor; exact H.
Qed.

Lemma shortlex_trichotomy u v : shortlex_lt u v \/ u = v \/ shortlex_lt v u.
Proof.
  unfold shortlex_lt. destruct (Nat.lt_trichotomy (length u) (length v)) as [H|[H|H]].
  - left; left; exact H.
  - destruct (lex_trichotomy u v H) as [L|[E|G]].
    + left; right; split; assumption.
    + right; left; exact E.
    + right; right; right; split; [symmetry; exact H | exact G].
  - right; right; left; exact H.
Qed.

(** code of a short word does not wrap *)
Lemma hash_exact r w L : over r w -> (length w <= L)%nat -> count_words (N.of_nat r) L < two64 ->
  hash (N.of_nat r) w = 1 + val (N.of_nat r) w.
Proof.
  intros Hw Hl HL. rewrite hash_mod. apply w64_id.
  pose proof (val_upper r w Hw). pose proof (count_words_mono (N.of_nat r) _ _ Hl). lia.
Qed.

Lemma hash_order r L u v : count_words (N.of_nat r) L < two64 ->
  over r u -> over r v -> (length u <= L)%nat -> (length v <= L)%nat ->
  (hash (N.of_nat r) u < hash (N.of_nat r) v <-> shortlex_lt u v).
Proof.
  intros HL Hu Hv Lu Lv.
  rewrite (hash_exact r u L Hu Lu HL), (hash_exact r v L Hv Lv HL).
  split; intro H.
  - destruct (shortlex_trichotomy u v) as [A|[->|A]].
    + exact A.
    + lia.
    + apply (shortlex_lt_val r) in A; [lia | exact Hv].
  - apply (shortlex_lt_val r) in H; [lia | exact Hu].
Qed.

Lemma hash_inj r L u v : count_words (N.of_nat r) L < two64 ->
  over r u -> over r v -> (length u <= L)%nat -> (length v <= L)%nat ->
  hash (N.of_nat r) u = hash (N.of_nat r) v -> u = v.
Proof.
  intros HL Hu Hv Lu Lv E.
  destruct (shortlex_trichotomy u v) as [A|[A|A]]; [|exact A|];
    apply (hash_order r L) in A; try assumption; lia.
Qed.

Lemma hash_nonzero r L w : count_words (N.of_nat r) L < two64 -> over r w -> (length w <= L)%nat ->
  hash (N.of_nat r) w <> 0.
Proof. intros HL Hw Lw. rewrite (hash_exact r w L Hw Lw HL). lia. Qed.

Lemma hash_range r L w : count_words (N.of_nat r) L < two64 -> over r w -> (length w <= L)%nat ->
  1 <= hash (N.of_nat r) w <= count_words (N.of_nat r) L.
Proof.
  intros HL Hw Lw. rewrite (hash_exact r w L Hw Lw HL).
  pose proof (val_upper r w Hw). pose proof (count_words_mono (N.of_nat r) _ _ Lw). lia.
Qed.

Lemma hash_op_word r o : hash (N.of_nat r) [o] = hash_op o.
Proof.
  rewrite hash_mod. unfold hash_op. cbn [val length]. rewrite N.pow_0_r.
  rewrite w64_add_l. f_equal. lia.
Qed.

(* dense: every code is attained *)
Lemma val_surj r L : (0 < r)%nat -> forall n, n < count_words (N.of_nat r) L ->
  exists w, over r w /\ (length w <= L)%nat /\ val (N.of_nat r) w = n.
Proof.
  intro Hr. induction L as [|L IH]; intros n Hn.
  - cbn in Hn. exists []. split; [intros o []|]. split; [apply le_n|]. cbn. lia.
  - rewrite <- count_words_mul in Hn.
    destruct (N.eq_dec n 0) as [->|Hn0].
    + exists []. split; [intros o []|]. split; [cbn; lia|reflexivity].
    + set (q := (n - 1) / N.of_nat r). set (c := (n - 1) mod N.of_nat r).
      assert (Hc : c < N.of_nat r) by (apply N.mod_lt; lia).
      assert (E : n - 1 = N.of_nat r * q + c) by (apply N.div_mod; lia).
      destruct (IH q) as (w & Hw & Lw & Vw).
      { apply N.div_lt_upper_bound; lia. }
      exists (w ++ [N.to_nat c]). split; [|split].
      * apply over_app; split; [exact Hw|]. intros o [<-|[]]. lia.
      * rewrite app_length; cbn [length]; lia.
      * rewrite val_app, Vw. cbn [val length]. change (N.of_nat 0) with 0. change (N.of_nat 1) with 1.
        rewrite N.pow_0_r, N.pow_1_r. lia.
Qed.

Lemma hash_surj r L : (0 < r)%nat -> count_words (N.of_nat r) L < two64 ->
  forall h, 1 <= h <= count_words (N.of_nat r) L ->
  exists w, over r w /\ (length w <= L)%nat /\ hash (N.of_nat r) w = h.
Proof.
  intros Hr HL h Hh. destruct (val_surj r L Hr (h - 1)) as (w & Hw & Lw & Vw); [lia|].
  exists w. split; [exact Hw|split; [exact Lw|]]. rewrite (hash_exact r w L Hw Lw HL). lia.
Qed.

(* ---------------------------------------------------------------- advertised length bound *)
Definition radix_unsafe (r : N) : bool := N.leb two64 (count_words r (longest_hashable r)).

Fixpoint nseq (s : N) (n : nat) : list N := match n with O => [] | S m => s :: nseq (s + 1) m end.
Lemma in_nseq n : forall s x, s <= x -> x < s + N.of_nat n -> In x (nseq s n).
Proof.
  induction n as [|n IH]; intros s x H1 H2; [lia|]. cbn [nseq].
  destruct (N.eq_dec s x) as [->|Hne]; [left; reflexivity|right; apply IH; lia].
Qed.
Definition radices : list N := nseq 2 (Z.to_nat 32766).

Lemma radices_in r : (2 <= r)%N -> (r <= 32767)%N -> In r radices.
Proof.
  intros H1 H2. unfold radices. apply in_nseq; [exact H1|]. 
  rewrite Z_nat_N. change (Z.to_N 32766) with 32766. lia.
Qed.

Definition bad_radices : list N := [2; 4; 16; 256].
Lemma radix_check : forallb (fun r => Bool.eqb (radix_unsafe r) (existsb (N.eqb r) bad_radices)) radices = true.
Proof. vm_cast_no_check (eq_refl true). Qed.

Lemma radix_unsafe_iff r : (2 <= r)%N -> (r <= 32767)%N ->
  (two64 <= count_words r (longest_hashable r) <-> In r bad_radices).
Proof.
  intros H1 H2. pose proof (proj1 (forallb_forall _ _) radix_check r (radices_in r H1 H2)) as H.
  apply eqb_prop in H. unfold radix_unsafe in H.
  split; intro G.
  - apply N.leb_le in G. rewrite G in H. symmetry in H. apply existsb_exists in H as (x & Hx & E).
    apply N.eqb_eq in E. subst x. exact Hx.
  - apply N.leb_le. rewrite H. apply existsb_exists. exists r. split; [exact G|apply N.eqb_refl].
Qed.

(** [longest_hashable] really is the largest L with r^L <= 2^64 *)
Lemma longest_search_spec r fuel : 2 <= r -> forall p, 0 < p -> p <= two64 ->
  let L := longest_hashable_search fuel r p in
  p * r ^ N.of_nat L <= two64 /\ ((L < fuel)%nat -> two64 < p * r ^ N.of_nat (S L)).
Proof.
  intro Hr. induction fuel as [|f IH]; intros p Hp Hp2; cbn [longest_hashable_search].
  - cbn zeta. change (N.of_nat 0) with 0. rewrite N.pow_0_r. split; [lia|intro; lia].
  - destruct (N.leb_spec (p * r) two64) as [H|H]; cbn zeta.
    + destruct (IH (p * r)) as [A B]; [nia|exact H|].
      set (L := longest_hashable_search f r (p * r)) in *.
      rewrite (Nat2N.inj_succ L), N.pow_succ_r', N.mul_assoc. split; [exact A|].
      intro HL. rewrite Nat2N.inj_succ, N.pow_succ_r', N.mul_assoc. apply B. lia.
    + change (N.of_nat 0) with 0. change (N.of_nat 1) with 1. rewrite N.pow_0_r, N.pow_1_r. split; [lia|intro; lia].
Qed.

Lemma longest_hashable_spec r : 2 <= r ->
  r ^ N.of_nat (longest_hashable r) <= two64 /\ two64 < r ^ N.of_nat (S (longest_hashable r)).
Proof.
  intro Hr. destruct (longest_search_spec r 64 Hr 1) as [A B]; [lia|discriminate|].
  fold (longest_hashable r) in A, B. rewrite N.mul_1_l in A, B. split; [exact A|].
  destruct (Nat.lt_ge_cases (longest_hashable r) 64) as [H|H]; [apply B, H|].
  apply N.lt_le_trans with (2 ^ N.of_nat (S (longest_hashable r))).
  - apply N.lt_le_trans with (2 ^ 65); [reflexivity|]. apply N.pow_le_mono_r; lia.
  - apply N.pow_le_mono_l. exact Hr.
Qed.

(* ---------------------------------------------------------------- substring hashing *)
Local Close Scope N_scope.

Lemma sub_cons w i n : i + S n <= length w -> sub w i (S n) = nth i w 0 :: sub w (S i) n.
Proof.
  unfold sub. revert i. induction w as [|a w IH]; intros i H; cbn [length] in H; [lia|].
  destruct i as [|i]; [reflexivity|]. cbn [skipn nth]. apply IH. lia.
Qed.
Lemma sub_length w i n : i + n <= length w -> length (sub w i n) = n.
Proof. unfold sub. intro H. rewrite firstn_length, skipn_length. lia. Qed.

(** invariant of the iterator at start index [s], end [e] *)
Definition sub_inv (r : N) (w : word) (s e : nat) (it : sub_iter) : Prop :=
  si_start1 it = S s /\ si_end it = e /\ si_stride it = w64 (r ^ N.of_nat (e - S s)) /\
  si_hash it = hash r (sub w s (e - s)).

Lemma hash_sub1 r w s : s < length w -> hash r (sub w s 1) = w64 (1 + (N.of_nat (nth s w 0) + 1)).
Proof.
  intro H. rewrite hash_mod, sub_cons by lia. unfold sub. rewrite firstn_O. cbn [val length].
  change (N.of_nat 0) with 0%N. rewrite N.pow_0_r. f_equal. lia.
Qed.

Lemma sub_begin_inv r w : w <> [] -> sub_inv r w (length w - 1) (length w) (sub_begin w).
Proof.
  intro H. destruct w as [|a u]; [contradiction|]. clear H.
  unfold sub_inv, sub_begin. cbn [si_start1 si_end si_stride si_hash]. 
  set (w := a :: u). assert (Hl : 0 < length w) by (cbn; lia).
  repeat split.
  - lia.
  - replace (length w - S (length w - 1)) with 0 by lia. reflexivity.
  - replace (length w - (length w - 1)) with 1 by lia. rewrite hash_sub1 by lia. f_equal. lia.
Qed.

Lemma sub_next_inv_left r w s e it : e <= length w -> S s < e -> sub_inv r w (S s) e it ->
  sub_inv r w s e (sub_next r w it).
Proof.
  intros He Hs (E1 & E2 & E3 & E4). unfold sub_next. rewrite E1, E2, E3, E4.
  replace (S (S s) - 1) with (S s) by lia. cbn [Nat.eqb].
  unfold sub_inv; cbn [si_start1 si_end si_stride si_hash].
  replace (S s - 1) with s by lia.
  repeat split.
  - rewrite w64_mul_l. replace (N.of_nat (e - S s)) with (N.succ (N.of_nat (e - S (S s)))) by lia.
    rewrite N.pow_succ_r'. f_equal. lia.
  - rewrite !hash_mod. replace (e - s) with (S (e - S s)) by lia. rewrite (sub_cons w s) by lia.
    cbn [val]. rewrite sub_length by lia.
    rewrite w64_add_l, w64_add_r. rewrite <- w64_add_r, w64_mul_l.
    replace (N.of_nat (e - S s)) with (N.succ (N.of_nat (e - S (S s)))) by lia.
    rewrite N.pow_succ_r'.
    set (p := (r ^ N.of_nat (e - S (S s)))%N).
    rewrite <- (w64_mul_r _ (w64 (w64 p * r))), w64_idem, w64_mul_l, w64_mul_r, w64_add_r. f_equal. lia.
Qed.

Lemma sub_next_inv_end r w e it : S e <= length w -> sub_inv r w 0 (S e) it -> 0 < e ->
  sub_inv r w (e - 1) e (sub_next r w it).
Proof.
  intros He (E1 & E2 & E3 & E4) Hp. unfold sub_next. rewrite E1, E2.
  cbn [Nat.sub Nat.eqb]. replace (e - 0) with e by lia.
  destruct (Nat.eqb_spec e 0) as [->|_]; [lia|].
  unfold sub_inv; cbn [si_start1 si_end si_stride si_hash]. repeat split.
  - lia.
  - replace (e - S (e - 1)) with 0 by lia. reflexivity.
  - replace (e - (e - 1)) with 1 by lia. rewrite hash_sub1 by lia.
    rewrite N.mul_1_r, w64_idem, w64_add_r. f_equal. lia.
Qed.

Lemma sub_next_done r w it : sub_inv r w 0 1 it ->
  si_start1 (sub_next r w it) = 0 /\ si_end (sub_next r w it) = 0.
Proof. intros (E1 & E2 & _ & _). unfold sub_next. rewrite E1, E2. split; reflexivity. Qed.

(** the (start, length) pairs visited from (s, e) on *)
Fixpoint starts_down (s e : nat) : list (nat * nat) :=
  (s, e - s) :: match s with O => [] | S s' => starts_down s' e end.
Fixpoint ends_down (e : nat) : list (nat * nat) :=
  match e with O => [] | S e' => starts_down e' e ++ ends_down e' end.

Lemma ends_down_pos e : 0 < e -> ends_down e = starts_down (e - 1) e ++ ends_down (e - 1).
Proof. destruct e as [|e]; [lia|]. intros _. cbn [ends_down]. replace (S e - 1) with e by lia. reflexivity. Qed.

Definition with_hash (r : N) (w : word) (p : nat * nat) : nat * nat * N := (fst p, snd p, hash r (sub w (fst p) (snd p))).

Lemma sub_run_S f r w it : Nat.eqb (si_start1 it) 0 && Nat.eqb (si_end it) 0 = false ->
  sub_run (S f) r w it = option_map (cons (si_start1 it - 1, si_end it - (si_start1 it - 1), si_hash it))
                                    (sub_run f r w (sub_next r w it)).
Proof. intro H. cbn [sub_run]. rewrite H. reflexivity. Qed.

Lemma sub_run_from r w : forall e s fuel it, e <= length w -> s < e -> sub_inv r w s e it ->
  length (starts_down s e ++ ends_down (e - 1)) <= fuel ->
  sub_run fuel r w it = Some (map (with_hash r w) (starts_down s e ++ ends_down (e - 1))).
Proof.
  induction e as [|e IHe]; intros s fuel it He Hs Hinv Hf; [lia|].
  revert fuel it Hs Hinv Hf. induction s as [|s IHs]; intros fuel it Hs Hinv Hf.
  - cbn [starts_down app length] in Hf. destruct fuel as [|fuel]; [lia|].
    pose proof Hinv as (E1 & E2 & E3 & E4).
    rewrite sub_run_S by (rewrite E1; reflexivity).
    cbn [starts_down app map]. rewrite E1, E2, E4. cbn [Nat.sub].
    replace (e - 0) with e by lia.
    destruct (Nat.eq_dec e 0) as [->|Hne].
    + destruct (sub_next_done r w it Hinv) as [D1 D2]. cbn [ends_down map].
      destruct fuel; cbn [sub_run]; rewrite D1, D2; reflexivity.
    + replace (S e - 1) with e in Hf by lia. rewrite (ends_down_pos e) in Hf by lia.
      rewrite (ends_down_pos e) by lia.
      rewrite (IHe (e - 1)); [reflexivity|lia|lia| |lia].
      apply sub_next_inv_end; [exact He|exact Hinv|lia].
  - pose proof Hinv as (E1 & E2 & E3 & E4).
    cbn [starts_down app length] in Hf. destruct fuel as [|fuel]; [lia|].
    rewrite sub_run_S by (rewrite E1; reflexivity).
    cbn [starts_down app map]. rewrite E1, E2, E4. replace (S (S s) - 1) with (S s) by lia.
    rewrite IHs; [reflexivity|lia| |lia].
    apply sub_next_inv_left; [exact He|exact Hs|exact Hinv].
Qed.

Lemma starts_down_length s e : length (starts_down s e) = S s.
Proof. induction s as [|s IH]; cbn [starts_down length]; [reflexivity|rewrite IH; reflexivity]. Qed.
Lemma ends_down_length e : 2 * length (ends_down e) = e * (e + 1).
Proof.
  induction e as [|e IH]; [reflexivity|]. cbn [ends_down]. rewrite app_length, starts_down_length. nia.
Qed.

Lemma substring_hashes_run r w fuel : length w * (length w + 1) <= 2 * fuel ->
  substring_hashes fuel r w = Some (map (with_hash r w) (ends_down (length w))).
Proof.
  intro Hf. rewrite <- ends_down_length in Hf. unfold substring_hashes.
  destruct w as [|a u].
  - destruct fuel; reflexivity.
  - set (w := a :: u) in *. assert (Hl : length w = S (length u)) by reflexivity.
    rewrite Hl in *. cbn [ends_down] in *.
    rewrite (sub_run_from r w (S (length u)) (length u) fuel).
    + replace (S (length u) - 1) with (length u) by lia. reflexivity.
    + lia.
    + lia.
    + pose proof (sub_begin_inv r w) as B. rewrite Hl in B. replace (S (length u) - 1) with (length u) in B by lia.
      apply B. discriminate.
    + replace (S (length u) - 1) with (length u) by lia. lia.
Qed.

Lemma in_starts_down s e i n : s < e -> (In (i, n) (starts_down s e) <-> i <= s /\ n = e - i).
Proof.
  intro H. induction s as [|s IH]; cbn [starts_down In].
  - split; [intros [E|[]]; injection E as <- <-; lia|intros [E ->]; left; f_equal; lia].
  - rewrite IH by lia. split.
    + intros [E|E]; [injection E as <- <-|]; lia.
    + intros [E ->]. destruct (Nat.eq_dec i (S s)) as [->|Hne]; [left; reflexivity|right; lia].
Qed.

Lemma in_ends_down e i n : In (i, n) (ends_down e) <-> 0 < n /\ i + n <= e.
Proof.
  induction e as [|e IH]; cbn [ends_down In].
  - lia.
  - rewrite in_app_iff, in_starts_down, IH by lia. lia.
Qed.

Lemma ends_down_sorted r w e : StronglySorted visited_before (map (with_hash r w) (ends_down e)).
Proof.
  induction e as [|e IH]; cbn [ends_down map]; [constructor|].
  assert (G : forall s, s < S e ->
    StronglySorted visited_before (map (with_hash r w) (starts_down s (S e) ++ ends_down e))).
  { induction s as [|s IHs]; intro Hs; cbn [starts_down app map].
    - constructor; [exact IH|]. apply Forall_forall. intros [[j m] h] Hj.
      apply in_map_iff in Hj as ([j' m'] & E & Hj). injection E as <- <- _.
      apply in_ends_down in Hj. cbn. lia.
    - constructor; [apply IHs; lia|]. apply Forall_forall. intros [[j m] h] Hj.
      apply in_map_iff in Hj as ([j' m'] & E & Hj). injection E as <- <- _.
      apply in_app_iff in Hj as [Hj|Hj].
      + apply in_starts_down in Hj; [|lia]. cbn [visited_before with_hash fst snd]. lia.
      + apply in_ends_down in Hj. cbn [visited_before with_hash fst snd]. lia. }
  apply G. lia.
Qed.

Lemma substring_hashes_spec r w fuel : length w * (length w + 1) <= 2 * fuel ->
  exists l, substring_hashes fuel r w = Some l /\
    StronglySorted visited_before l /\
    (forall i n h, In (i, n, h) l <-> 0 < n /\ i + n <= length w /\ h = hash r (sub w i n)).
Proof.
  intro Hf. eexists. split; [apply substring_hashes_run, Hf|]. split; [apply ends_down_sorted|].
  intros i n h. rewrite in_map_iff. split.
  - intros ([i' n'] & E & H). injection E as <- <- <-. apply in_ends_down in H. cbn [fst snd]. tauto.
  - intros (H1 & H2 & ->). exists (i, n). split; [reflexivity|]. apply in_ends_down. lia.
Qed.

(* ---------------------------------------------------------------- witnesses *)
Lemma hash_bound_collision :
  let u := repeat 1 63 in let v := repeat 1 64 in
  u <> v /\ over 2 u /\ over 2 v /\ length u <= longest_hashable 2 /\ length v <= longest_hashable 2 /\
  hash 2 u = hash 2 v /\ hash 2 (repeat 0 64) = 0%N /\ over 2 (repeat 0 64) /\ length (repeat 0 64) <= longest_hashable 2.
Proof.
  cbn zeta.
  assert (O : forall a n, a < 2 -> over 2 (repeat a n)) by (intros a n Ha o Ho; apply repeat_spec in Ho; lia).
  repeat split; try (apply O; lia); try (vm_compute; reflexivity); try (apply Nat.leb_le; vm_compute; reflexivity).
  intro E. apply (f_equal (@length nat)) in E. rewrite !repeat_length in E. lia.
Qed.

Lemma hash_advertised r : 2 <= r -> r <= Z.to_nat 32767 ->
  ~ In (N.of_nat r) [2; 4; 16; 256]%N ->
  forall u v, over r u -> over r v -> length u <= longest_hashable (N.of_nat r) -> length v <= longest_hashable (N.of_nat r) ->
  (hash (N.of_nat r) u = hash (N.of_nat r) v -> u = v) /\
  ((hash (N.of_nat r) u < hash (N.of_nat r) v)%N <-> shortlex_lt u v) /\
  hash (N.of_nat r) u <> 0%N.
Proof.
  intros H1 H2 H3 u v Hu Hv Lu Lv.
  assert (HL : (count_words (N.of_nat r) (longest_hashable (N.of_nat r)) < two64)%N).
  { apply N.lt_nge. intro G. apply H3. apply radix_unsafe_iff; [lia| |exact G].
    lia. }
  repeat split.
  - apply (hash_inj r _ u v HL); assumption.
  - apply (hash_order r _ u v HL); assumption.
  - apply (hash_order r _ u v HL); assumption.
  - apply (hash_nonzero r _ u HL); assumption.
Qed.

Lemma hash_collision_witness :
  exists u v z, u <> v /\ over 2 u /\ over 2 v /\ over 2 z /\
    length u <= longest_hashable 2 /\ length v <= longest_hashable 2 /\ length z <= longest_hashable 2 /\
    hash 2 u = hash 2 v /\ hash 2 z = 0%N.
Proof.
  exists (repeat 1 63), (repeat 1 64), (repeat 0 64). pose proof hash_bound_collision as H. cbn zeta in H. tauto.
Qed.

Lemma sdiff_quotient a b : gmul (phase a) (phase (sdiff a b)) = phase b.
Proof. destruct a, b; reflexivity. Qed.

Lemma hash_identity_only r L w : (count_words (N.of_nat r) L < two64)%N -> over r w -> length w <= L ->
  (hash (N.of_nat r) w = 1%N <-> w = []).
Proof.
  intros HL Hw Lw. split; [|intros ->; reflexivity]. intro E.
  apply (hash_inj r L); try assumption; [intros o []|cbn; lia].
Qed.

Lemma hs_compare_spec a b :
  (hs_compare_same_negation a b = 1%Z <-> hs_hash a = hs_hash b /\ phase (hs_sign a) = phase (hs_sign b)) /\
  (hs_compare_same_negation a b = (-1)%Z <-> hs_hash a = hs_hash b /\ phase (hs_sign a) = gneg (phase (hs_sign b))) /\
  (hs_compare_same_negation a b = 0%Z <->
     ~ (hs_hash a = hs_hash b /\ (phase (hs_sign a) = phase (hs_sign b) \/ phase (hs_sign a) = gneg (phase (hs_sign b))))).
Proof.
  destruct a as [h u s], b as [k w t]. unfold hs_compare_same_negation, hs_imaginary, hs_negated. cbn [hs_hash hs_sign].
  destruct (N.eqb_spec h k) as [E|E]; cbn [negb].
  - destruct s, t; cbn; intuition (congruence || discriminate).
  - intuition (congruence || discriminate).
Qed.
