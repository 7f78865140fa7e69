(** Model of the word/phase/hash layer of lib_moment.

    Conventions.  Operator names ([oper_name_t], int16_t, integer_types.h) are modelled as [nat]; the code only ever uses
    non-negative names inside a word.  [hash_t] / [uint64_t] values are [N] with every arithmetic operation reduced
    mod 2^64 explicitly. *)
From Coq Require Import List ZArith NArith Arith Bool.
Import ListNotations.

(** uint64_t wrap-around *)
Definition two64 : N := (2 ^ 64)%N.
Definition w64 (x : N) : N := (x mod two64)%N.

(** An operator string: sequence_storage_t = SmallVector<oper_name_t,16> (hashed_sequence.h:24), as a list. *)
Definition word := list nat.

(* ------------------------------------------------------------------------------------------------------------ *)
(** * SequenceSignType, sequence_sign_type.h *)

(** enum class SequenceSignType, sequence_sign_type.h:22-31 *)
Inductive sign := SPos | SIm | SNeg | SNegIm.

(** the enum's underlying uint8_t value, sequence_sign_type.h:24-30 *)
Definition sign_code (s : sign) : N :=
  match s with SPos => 0 | SIm => 1 | SNeg => 2 | SNegIm => 3 end%N.

(** static_cast<SequenceSignType>(x) for x in 0..3 (all call sites mask with 3 or xor a valid code with 2). *)
Definition sign_of_code (n : N) : sign :=
  match n with 0 => SPos | 1 => SIm | 2 => SNeg | _ => SNegIm end%N.

(** negate, sequence_sign_type.h:44-46: code ^ 0x02 *)
Definition sneg (s : sign) : sign := sign_of_code (N.lxor (sign_code s) 2).
(** is_negative, sequence_sign_type.h:51-53: code & 0x02 *)
Definition s_is_negative (s : sign) : bool := negb (N.eqb (N.land (sign_code s) 2) 0).
(** is_imaginary, sequence_sign_type.h:58-60: code & 0x01 *)
Definition s_is_imaginary (s : sign) : bool := negb (N.eqb (N.land (sign_code s) 1) 0).
(** conjugate, sequence_sign_type.h:65-68: (4 - code) & 3 *)
Definition sconj (s : sign) : sign := sign_of_code (N.land (4 - sign_code s) 3).
(** operator*, sequence_sign_type.h:74-77: (lhs + rhs) & 3 *)
Definition smul (a b : sign) : sign := sign_of_code (N.land (sign_code a + sign_code b) 3).
(** difference, sequence_sign_type.h:83-85: (4 + rhs - lhs) & 3 *)
Definition sdiff (lhs rhs : sign) : sign := sign_of_code (N.land (4 + sign_code rhs - sign_code lhs) 3).
(** are_negatives, sequence_sign_type.h:90-92: ((4 - lhs + rhs) & 3) == 2 *)
Definition s_are_negatives (lhs rhs : sign) : bool :=
  N.eqb (N.land (4 - sign_code lhs + sign_code rhs) 3) 2.

Definition sign_eqb (a b : sign) : bool := N.eqb (sign_code a) (sign_code b).

(* ------------------------------------------------------------------------------------------------------------ *)
(** * ShortlexHasher, shortlex_hasher.h *)

(** loop of hash(span), shortlex_hasher.h:43-46; the list argument is the part of the string not yet consumed,
    read from its end. *)
Fixpoint hash_loop (radix : N) (h mult : N) (rev_ops : list nat) : N :=
  match rev_ops with
  | [] => h
  | o :: rest => hash_loop radix (w64 (h + w64 (w64 (N.of_nat o + 1) * mult))) (w64 (mult * radix)) rest
  end.

(** ShortlexHasher::hash(span), shortlex_hasher.h:36-48 *)
Definition hash_with (radix offset : N) (w : word) : N := hash_loop radix offset 1 (rev w).

(** default offset is 1 (shortlex_hasher.h:33) *)
Definition hash (radix : N) (w : word) : N := hash_with radix 1 w.

(** ShortlexHasher::hash(op), shortlex_hasher.h:51-53 *)
Definition hash_op (op : nat) : N := w64 (w64 (1 + N.of_nat op) + 1).

(** ShortlexHasher::longest_hashable_string, shortlex_hasher.h:66-74, for radix >= 2:
    size_t(64.0 / log2(radix)), i.e. the largest L with radix^L <= 2^64.
    Simplification: the real quotient 64/log2(radix) is truncated exactly (no double rounding).  The search multiplies
    by radix while the power stays <= 2^64; [fuel] 64 suffices for radix >= 2. *)
Fixpoint longest_hashable_search (fuel : nat) (radix p : N) : nat :=
  match fuel with
  | O => O
  | S f => if N.leb (p * radix) two64 then S (longest_hashable_search f radix (p * radix)) else O
  end.
Definition longest_hashable (radix : N) : nat := longest_hashable_search 64 radix 1.

(* ------------------------------------------------------------------------------------------------------------ *)
(** * HashedSequence, hashed_sequence.h / hashed_sequence.cpp *)

Record hseq := mk_hseq { hs_hash : N; hs_ops : word; hs_sign : sign }.

(** HashedSequence(bool zero), hashed_sequence.h:49-52 *)
Definition hseq_const (zero : bool) : hseq := mk_hseq (if zero then 0 else 1)%N [] SPos.
(** HashedSequence(oper_ids, hasher, sign), hashed_sequence.h:82-86 *)
Definition hseq_make (radix : N) (w : word) (s : sign) : hseq := mk_hseq (hash radix w) w s.
(** zero(), hashed_sequence.h:98-100 *)
Definition hs_zero (q : hseq) : bool := N.eqb (hs_hash q) 0.
(** negated(), imaginary(), hashed_sequence.h:105-114 *)
Definition hs_negated (q : hseq) : bool := s_is_negative (hs_sign q).
Definition hs_imaginary (q : hseq) : bool := s_is_imaginary (hs_sign q).
(** operator<, hashed_sequence.h:209-211 *)
Definition hs_ltb (a b : hseq) : bool := N.ltb (hs_hash a) (hs_hash b).
(** operator==, hashed_sequence.h:214-222 *)
Definition hs_eqb (a b : hseq) : bool :=
  if N.eqb (hs_hash a) (hs_hash b) then sign_eqb (hs_sign a) (hs_sign b) else false.
(** compare_same_negation, hashed_sequence.h:231-244 (1, 0 or -1) *)
Definition hs_compare_same_negation (a b : hseq) : Z :=
  if negb (N.eqb (hs_hash a) (hs_hash b)) then 0%Z
  else if negb (Bool.eqb (hs_imaginary a) (hs_imaginary b)) then 0%Z
  else if Bool.eqb (hs_negated a) (hs_negated b) then 1%Z else (-1)%Z.

(** std::mismatch-based prefix test: HashedSequence::matches, hashed_sequence.cpp:13-24 *)
Fixpoint is_prefix (p w : word) : bool :=
  match p, w with
  | [], _ => true
  | _ :: _, [] => false
  | a :: p', b :: w' => if Nat.eqb a b then is_prefix p' w' else false
  end.

(** HashedSequence::matches_anywhere, hashed_sequence.cpp:26-36: offset of the first match, [None] = iter_end.
    The loop never tests the end position itself. *)
Fixpoint matches_anywhere (p w : word) : option nat :=
  match w with
  | [] => None
  | _ :: w' => if is_prefix p w then Some O else option_map S (matches_anywhere p w')
  end.

(** loop of suffix_prefix_overlap, hashed_sequence.cpp:50-60: [tail] is the current suffix of lhs, [n] its length *)
Fixpoint overlap_loop (n : nat) (tail rhs : word) : nat :=
  match n with
  | O => O
  | S m => if is_prefix tail rhs then n else overlap_loop m (tl tail) rhs
  end.
(** HashedSequence::suffix_prefix_overlap, hashed_sequence.cpp:38-61 *)
Definition suffix_prefix_overlap (lhs rhs : word) : nat :=
  let n := Nat.min (length lhs) (length rhs) in
  overlap_loop n (skipn (length lhs - n) lhs) rhs.

(* ------------------------------------------------------------------------------------------------------------ *)
(** * SubstringHashIter, utilities/substring_hasher.h *)

(** Iterator state: _substring_start + 1 (so 0 means "-1"), _substring_end, _stride, _current_hash
    (substring_hasher.h:28-34).  Simplification: start is stored shifted by one to stay in [nat]. *)
Record sub_iter := mk_sub_iter { si_start1 : nat; si_end : nat; si_stride : N; si_hash : N }.

(** constructor, substring_hasher.h:37-45.  [_current_hash] is uninitialised for the empty string; modelled as 0,
    and never read there (operator* asserts start >= 0). *)
Definition sub_begin (w : word) : sub_iter :=
  mk_sub_iter (length w) (length w) 1
    (match w with [] => 0%N | _ => w64 (N.of_nat (nth (length w - 1) w 0) + 2) end).

(** operator++, substring_hasher.h:67-84 *)
Definition sub_next (radix : N) (w : word) (it : sub_iter) : sub_iter :=
  let start1 := si_start1 it - 1 in                                    (* --_substring_start *)
  let '(start1, e, stride, h) :=
    if Nat.eqb start1 0                                                (* _substring_start < 0 *)
    then (si_end it - 1, si_end it - 1, 1%N, 1%N)                      (* new end, start = end - 1 *)
    else (start1, si_end it, w64 (si_stride it * radix), si_hash it) in
  let h := if Nat.eqb start1 0 then h
           else w64 (h + w64 (w64 (1 + N.of_nat (nth (start1 - 1) w 0)) * stride)) in
  mk_sub_iter start1 e stride h.

(** Running a range-for over SubstringHashRange: the list of (start index, length, hash) it yields.  The loop ends
    when the iterator equals the end tag {start = -1, end = 0} (substring_hasher.h:47-48, 55-61).  [None] = out of fuel. *)
Fixpoint sub_run (fuel : nat) (radix : N) (w : word) (it : sub_iter) : option (list (nat * nat * N)) :=
  if Nat.eqb (si_start1 it) 0 && Nat.eqb (si_end it) 0 then Some []
  else match fuel with
       | O => None
       | S f => option_map (cons (si_start1 it - 1, si_end it - (si_start1 it - 1), si_hash it))
                           (sub_run f radix w (sub_next radix w it))
       end.
Definition substring_hashes (fuel : nat) (radix : N) (w : word) : option (list (nat * nat * N)) :=
  sub_run fuel radix w (sub_begin w).
