(** When a rule directly implies another. *)
From Coq Require Import List NArith Arith.
From Verif Require Import CoreModel CoreSpec AlgModel AlgSpec.
Import ListNotations.

(** [b] follows from [a] in every algebra *)
Definition consequence (a b : rule) : Prop := forall (A : algebra) (v : nat -> A), holds A v a -> holds A v b.
(** [u] is first found in [w] after [p], and is followed there by [q] *)
Definition first_found (p u q w : word) : Prop :=
  w = p ++ u ++ q /\ forall p' q', w = p' ++ u ++ q' -> length p <= length p'.
(** [b] is [a] with the same operators put before and after both sides *)
Definition extends (a b : rule) : Prop :=
  exists p q, hs_ops (rl_lhs b) = p ++ hs_ops (rl_lhs a) ++ q /\ hs_ops (rl_rhs b) = p ++ hs_ops (rl_rhs a) ++ q.
