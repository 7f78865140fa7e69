(** Finite groups, and elements made from generators. *)
From Coq Require Import List Arith.
Import ListNotations.

Section Group.
  Variables (E : Type) (mul : E -> E -> E) (one : E).
  (** the members of [G] form a group *)
  Record group (G : list E) : Prop := mk_group {
    gr_one : In one G;
    gr_mul : forall x y, In x G -> In y G -> In (mul x y) G;
    gr_assoc : forall x y z, In x G -> In y G -> In z G -> mul x (mul y z) = mul (mul x y) z;
    gr_left : forall x, In x G -> mul one x = x;
    gr_right : forall x, In x G -> mul x one = x;
    gr_inv : forall x, In x G -> exists y, In y G /\ mul x y = one /\ mul y x = one }.
  (** products of generators *)
  Inductive generated (gens : list E) : E -> Prop :=
  | gen_one : generated gens one
  | gen_mul x g : generated gens x -> In g gens -> generated gens (mul x g).
  Fixpoint power (x : E) (n : nat) : E := match n with 0 => one | S n' => mul (power x n') x end.
End Group.
Arguments group {E}. Arguments generated {E}. Arguments power {E}.
