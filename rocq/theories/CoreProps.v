(** C01-C03: words, hashes and phases. *)
From Coq Require Import List ZArith NArith Arith Bool Sorted Lia.
From Verif Require Import CoreModel CoreSpec CoreProofs.
Import ListNotations.

(* ------------------------------------------------------------------------------------------------ C01 *)
(** Whenever every code of the alphabet up to length L fits in 64 bits: equal hashes mean equal words. *)
Theorem C01_hash_injective : forall (r L : nat) (u v : word),
  (count_words (N.of_nat r) L < 2 ^ 64)%N -> over r u -> over r v -> length u <= L -> length v <= L ->
  hash (N.of_nat r) u = hash (N.of_nat r) v -> u = v.
Proof. exact hash_inj. Qed.
Print Assumptions C01_hash_injective.

(** ... and hash order is shortlex order. *)
Theorem C01_hash_is_shortlex_order : forall (r L : nat) (u v : word),
  (count_words (N.of_nat r) L < 2 ^ 64)%N -> over r u -> over r v -> length u <= L -> length v <= L ->
  ((hash (N.of_nat r) u < hash (N.of_nat r) v)%N <-> shortlex_lt u v).
Proof. exact hash_order. Qed.
Print Assumptions C01_hash_is_shortlex_order.

(** ... and no word has the reserved hash 0 of "zero". *)
Theorem C01_hash_never_zero : forall (r L : nat) (w : word),
  (count_words (N.of_nat r) L < 2 ^ 64)%N -> over r w -> length w <= L -> hash (N.of_nat r) w <> 0%N.
Proof. exact hash_nonzero. Qed.
Print Assumptions C01_hash_never_zero.

(** ... and only the empty word has the reserved hash 1 of "identity". *)
Theorem C01_hash_one_iff_identity : forall (r L : nat) (w : word),
  (count_words (N.of_nat r) L < 2 ^ 64)%N -> over r w -> length w <= L -> (hash (N.of_nat r) w = 1%N <-> w = []).
Proof. exact hash_identity_only. Qed.
Print Assumptions C01_hash_one_iff_identity.

(** ... and the code is dense: the words of length at most L take exactly the values 1 .. 1 + r + ... + r^L. *)
Theorem C01_hash_range : forall (r L : nat) (w : word),
  (count_words (N.of_nat r) L < 2 ^ 64)%N -> over r w -> length w <= L ->
  (1 <= hash (N.of_nat r) w <= count_words (N.of_nat r) L)%N.
Proof. exact hash_range. Qed.
Print Assumptions C01_hash_range.

Theorem C01_hash_surjective : forall r L : nat, 0 < r -> (count_words (N.of_nat r) L < 2 ^ 64)%N ->
  forall h, (1 <= h <= count_words (N.of_nat r) L)%N ->
  exists w, over r w /\ length w <= L /\ hash (N.of_nat r) w = h.
Proof. exact hash_surj. Qed.
Print Assumptions C01_hash_surjective.

(** A single operator's hash agrees with the hash of the one-letter word. *)
Theorem C01_hash_single_operator : forall r o : nat, hash (N.of_nat r) [o] = hash_op o.
Proof. exact hash_op_word. Qed.
Print Assumptions C01_hash_single_operator.

(** The advertised bound is what its comment says: the largest L with r^L <= 2^64. *)
Theorem C01_advertised_length : forall r : N, (2 <= r)%N ->
  (r ^ N.of_nat (longest_hashable r) <= 2 ^ 64 /\ 2 ^ 64 < r ^ N.of_nat (S (longest_hashable r)))%N.
Proof. exact longest_hashable_spec. Qed.
Print Assumptions C01_advertised_length.

(** Up to the advertised length everything above holds, for every radix an operator name (int16_t) can have,
    except radix 2, 4, 16 and 256 (and radix 1 and 0, for which the code returns a fixed value). *)
Theorem C01_advertised_length_safe : forall r : nat, 2 <= r -> r <= Z.to_nat 32767 ->
  ~ In (N.of_nat r) [2; 4; 16; 256]%N ->
  forall u v, over r u -> over r v -> length u <= longest_hashable (N.of_nat r) -> length v <= longest_hashable (N.of_nat r) ->
  (hash (N.of_nat r) u = hash (N.of_nat r) v -> u = v) /\
  ((hash (N.of_nat r) u < hash (N.of_nat r) v)%N <-> shortlex_lt u v) /\
  hash (N.of_nat r) u <> 0%N.
Proof. exact hash_advertised. Qed.
Print Assumptions C01_advertised_length_safe.

(** For those four radices, and only those, the advertised length is one too long ... *)
Theorem C01_advertised_length_overclaims_iff : forall r : N, (2 <= r)%N -> (r <= 32767)%N ->
  ((2 ^ 64 <= count_words r (longest_hashable r))%N <-> In r [2; 4; 16; 256]%N).
Proof. exact radix_unsafe_iff. Qed.
Print Assumptions C01_advertised_length_overclaims_iff.

(** ... and collisions really happen (finding F1): with two operators, within the advertised length, two different
    words share a hash and a non-zero word has the hash of zero. *)
Theorem C01_advertised_length_refuted :
  exists u v z, u <> v /\ over 2 u /\ over 2 v /\ over 2 z /\
    length u <= longest_hashable 2 /\ length v <= longest_hashable 2 /\ length z <= longest_hashable 2 /\
    hash 2 u = hash 2 v /\ hash 2 z = 0%N.
Proof. exact hash_collision_witness. Qed.
Print Assumptions C01_advertised_length_refuted.

(** Non-vacuity: 5 operators, words up to 27 letters. *)
Example C01_nonvacuous :
  (count_words 5 27 < 2 ^ 64)%N /\ over 5 [4;0;3] /\ over 5 [4;1;0] /\ shortlex_lt [4;0;3] [4;1;0] /\
  hash 5 [4;0;3] = 135%N /\ hash 5 [4;1;0] = 137%N /\ longest_hashable 5 = 27.
Proof.
  repeat split; try reflexivity; try (intros o Ho; cbn in Ho; lia).
  right. split; [reflexivity|]. apply lex_tail, lex_head. lia.
Qed.

(* ------------------------------------------------------------------------------------------------ C02 *)
(** Scanning a word of any length (fuel = number of increments) stops, visits every non-empty substring exactly once,
    right-most end first and then right-most start first, each with the hash it would have if hashed from scratch
    (64-bit wrap-around included). *)
Theorem C02_substring_hashes : forall (r : N) (w : word) (fuel : nat),
  length w * (length w + 1) <= 2 * fuel ->
  exists l, substring_hashes fuel r w = Some l /\
    StronglySorted visited_before l /\
    (forall i n h, In (i, n, h) l <-> 0 < n /\ i + n <= length w /\ h = hash r (sub w i n)).
Proof. exact substring_hashes_spec. Qed.
Print Assumptions C02_substring_hashes.

Example C02_nonvacuous : exists l, substring_hashes 6 10 [7; 2; 5] = Some l /\ length l = 6 /\
  nth 1 l (0, 0, 0%N) = (1, 2, hash 10 [2; 5]) /\ nth 5 l (0, 0, 0%N) = (0, 1, hash 10 [7]).
Proof. eexists. split; [vm_compute; reflexivity|]. repeat split. Qed.

(* ------------------------------------------------------------------------------------------------ C03 *)
(** Phase arithmetic is arithmetic of the complex units 1, i, -1, -i. *)
Theorem C03_product : forall a b, phase (smul a b) = gmul (phase a) (phase b).
Proof. exact smul_phase. Qed.
Print Assumptions C03_product.

Theorem C03_conjugate : forall a, phase (sconj a) = gconj (phase a).
Proof. exact sconj_phase. Qed.
Print Assumptions C03_conjugate.

Theorem C03_negate : forall a, phase (sneg a) = gneg (phase a).
Proof. exact sneg_phase. Qed.
Print Assumptions C03_negate.

(** difference(a, b) is the quotient b / a *)
Theorem C03_difference : forall a b, gmul (phase a) (phase (sdiff a b)) = phase b.
Proof. exact sdiff_quotient. Qed.
Print Assumptions C03_difference.

Theorem C03_negative : forall a, s_is_negative a = true <-> (phase a = (-1, 0) \/ phase a = (0, -1))%Z.
Proof. exact s_is_negative_spec. Qed.
Print Assumptions C03_negative.

Theorem C03_imaginary : forall a, s_is_imaginary a = true <-> fst (phase a) = 0%Z.
Proof. exact s_is_imaginary_spec. Qed.
Print Assumptions C03_imaginary.

Theorem C03_are_negatives : forall a b, s_are_negatives a b = true <-> phase a = gneg (phase b).
Proof. exact s_are_negatives_spec. Qed.
Print Assumptions C03_are_negatives.

(** Phases are told apart exactly by their value, and all four units occur. *)
Theorem C03_faithful : forall a b, phase a = phase b -> a = b.
Proof. exact phase_inj. Qed.
Print Assumptions C03_faithful.

Theorem C03_all_units : forall z, (exists s, phase s = z) <-> gmul z (gconj z) = gone.
Proof. exact phase_image. Qed.
Print Assumptions C03_all_units.

(** Comparing two sequences up to sign: 1 if equal, -1 if negatives of each other, 0 otherwise. *)
Theorem C03_compare_up_to_sign : forall a b,
  (hs_compare_same_negation a b = 1%Z <-> hs_hash a = hs_hash b /\ phase (hs_sign a) = phase (hs_sign b)) /\
  (hs_compare_same_negation a b = (-1)%Z <-> hs_hash a = hs_hash b /\ phase (hs_sign a) = gneg (phase (hs_sign b))) /\
  (hs_compare_same_negation a b = 0%Z <->
     ~ (hs_hash a = hs_hash b /\ (phase (hs_sign a) = phase (hs_sign b) \/ phase (hs_sign a) = gneg (phase (hs_sign b))))).
Proof. exact hs_compare_spec. Qed.
Print Assumptions C03_compare_up_to_sign.

Example C03_nonvacuous : smul SIm SIm = SNeg /\ sconj SIm = SNegIm /\ sdiff SIm SPos = SNegIm.
Proof. repeat split. Qed.
