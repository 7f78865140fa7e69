(** What a dictionary is. *)
From Coq Require Import List NArith Arith Bool Sorted.
From Verif Require Import CoreModel CoreSpec AlgModel LocModel LocSpec EnumSpec.
Import ListNotations.

(** [d] holds, for exactly the words [w] of length at most [L] with property [P], the sequence with those operators, the
    hash of those operators and sign +1; each once, in strictly increasing order [R]. *)
Definition is_dictionary (radix : nat) (R : word -> word -> Prop) (P : word -> Prop) (L : nat) (d : list hseq) : Prop :=
  exists ws, d = map (fun w => mk_hseq (hash (N.of_nat radix) w) w SPos) ws /\
             lists_in_order R (fun w => P w /\ length w <= L) ws.

(** operator numbers are given out party by party, so those of party [p] form an interval *)
Definition party_start (sc : scenario) (p : nat) : nat := list_sum (map count_opers (firstn p sc)).
Definition of_party (sc : scenario) (p o : nat) : bool := Nat.leb (party_start sc p) o && Nat.ltb o (party_start sc (S p)).
(** number of operators of party [p] in the word *)
Definition count_party (sc : scenario) (p : nat) (w : word) : nat := length (filter (of_party sc p) w).
Definition party_lengths (sc : scenario) (w : word) : list nat := map (fun p => count_party sc p w) (seq 0 (length sc)).
(** The order of a locality dictionary: first by length; then words with more operators of the first party first (then of
    the second party, ...); then alphabetically. *)
Definition loc_before (sc : scenario) (u v : word) : Prop :=
  length u < length v \/
  (length u = length v /\
   (lex_lt (party_lengths sc v) (party_lengths sc u) \/ (party_lengths sc u = party_lengths sc v /\ lex_lt u v))).

(** the result of a computation that is given enough fuel *)
Definition eventually {A} (f : nat -> res A) (v : A) : Prop := exists F, forall fuel, F <= fuel -> f fuel = Ret v.
(** The canonical test of a context answers property [P] on the non-empty words of length at most [L]: a word with [P] is
    returned as the sequence with those operators and their hash, sign +1; for another word nothing is returned. *)
Definition canon_ok (num : nat) (canon : word -> res (option hseq)) (P : word -> Prop) (L : nat) : Prop :=
  forall w, over num w -> 0 < length w <= L ->
    (P w /\ canon w = Ret (Some (mk_hseq (hash (N.of_nat num) w) w SPos))) \/ (~ P w /\ canon w = Ret None).
Definition no_empty_lhs (ctx : acontext) : Prop := forall k rl, In (k, rl) (rb_rules (ac_rules ctx)) -> hs_ops (rl_lhs rl) <> [].
