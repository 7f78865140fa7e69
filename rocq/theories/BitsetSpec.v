(** Finite sets of natural numbers below a bound: what a bitset stands for. *)
From Coq Require Import List NArith Arith Bool.
From Verif Require Import BitsetModel.
Import ListNotations.

(** the size of the result of a chain of operations, and which numbers are in it *)
Fixpoint e_size (e : bexp) : nat :=
  match e with
  | EMake n | EAll n => n
  | ESet e _ | EUnset e _ | EClear e | EInvert e | ENot e => e_size e
  | EAnd a _ | EOr a _ => e_size a
  | ESubset _ _ len => len
  end.
Fixpoint e_has (e : bexp) (k : nat) : bool :=
  match e with
  | EMake _ => false
  | EAll n => Nat.ltb k n
  | ESet e i => Nat.eqb k i || e_has e k
  | EUnset e i => negb (Nat.eqb k i) && e_has e k
  | EClear _ => false
  | EAnd a b => e_has a k && e_has b k
  | EOr a b => e_has a k || e_has b k
  | EInvert e | ENot e => Nat.ltb k (e_size e) && negb (e_has e k)
  | ESubset e first len => Nat.ltb k len && e_has e (first + k)
  end.
(** the bounds the code asserts in debug builds *)
Fixpoint e_ok (e : bexp) : Prop :=
  match e with
  | EMake _ | EAll _ => True
  | ESet e i | EUnset e i => e_ok e /\ i < e_size e
  | EClear e | EInvert e | ENot e => e_ok e
  | EAnd a b | EOr a b => e_ok a /\ e_ok b /\ e_size a = e_size b
  | ESubset e first len => e_ok e /\ first < e_size e /\ first + len <= e_size e
  end.
(** no complement or full set of size zero *)
Fixpoint e_nonempty (e : bexp) : Prop :=
  match e with
  | EMake _ => True
  | EAll n => 0 < n
  | ENot e => 0 < e_size e /\ e_nonempty e
  | ESet e _ | EUnset e _ | EClear e | EInvert e | ESubset e _ _ => e_nonempty e
  | EAnd a b | EOr a b => e_nonempty a /\ e_nonempty b
  end.
(** the members in increasing order *)
Definition members (n : nat) (has : nat -> bool) : list nat := filter has (seq 0 n).
