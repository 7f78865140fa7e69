(** Subsets, multisets and binomial coefficients. *)
From Coq Require Import List NArith Arith Bool Sorted.
From Verif Require Import CoreSpec EnumSpec.
Import ListNotations.

(** [x] lists, in increasing order, a subset of {0, ..., n-1} with [k] elements. *)
Definition subset_of (n k : nat) (x : list nat) : Prop := length x = k /\ StronglySorted lt x /\ Forall (fun a => a < n) x.
(** [x] lists, in order, a multiset of [k] elements of {0, ..., n-1}. *)
Definition multiset_of (n k : nat) (x : list nat) : Prop := length x = k /\ StronglySorted le x /\ Forall (fun a => a < n) x.
(** Lists compared from their last entry. *)
Definition colex_lt (x y : list nat) : Prop := lex_lt (rev x) (rev y).
(** Pascal's triangle *)
Fixpoint binomial (n k : nat) : nat :=
  match n, k with
  | _, O => 1
  | O, S _ => 0
  | S n', S k' => binomial n' k' + binomial n' k
  end.
(** The elements of {0, ..., n-1} that are not in [x], and the membership of each element in [x]. *)
Definition in_list (x : list nat) (i : nat) : bool := if in_dec Nat.eq_dec i x then true else false.
Definition complement_of (n : nat) (x : list nat) : list nat := filter (fun i => negb (in_list x i)) (seq 0 n).
Definition membership (n : nat) (x : list nat) : list bool := map (in_list x) (seq 0 n).
