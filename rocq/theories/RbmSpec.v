(** What the matrix of a rulebook means. *)
From Coq Require Import List NArith Arith Bool.
From Verif Require Import CoreModel FieldModel SymModel SymSpec PolyModel PolySpec RuleModel RuleSpec RbmModel.
Import ListNotations.

Section Spec.
  Context {R : rfield}.
  Notation matrix := (list (nat * nat * R)).
  (** the number of elements of the real and imaginary basis *)
  Definition dimension (t : table) : nat := length (t_real t) + length (t_imag t).
  (** entries of the matrix lie inside of it *)
  Definition fits_in (n : nat) (m : matrix) : Prop := forall row col w, In (row, col, w) m -> row < n /\ col < n.
  (** [y] is the matrix times [x] *)
  Definition product (n : nat) (m : matrix) (x y : nat -> R) : Prop := forall row, row < n -> row_dot m row x = y row.
  (** [v] with another value for the symbol [i] *)
  Definition with_value (v : nat -> cx R) (i : nat) (z : cx R) (j : nat) : cx R := if Nat.eqb j i then z else v j.
  (** no rule fixes a mixture of the real and the imaginary part of its symbol *)
  Definition straight (rules : list (rule R)) : Prop :=
    forall r, In r rules -> ru_partial r = true -> cre (ru_dir r) = r0 R \/ cim (ru_dir r) = r0 R.
  (** [w] is what the rules, each applied once, make of [v]: symbols without a rule keep their values, full rules give the value of
      their right hand side, partial rules give a value that satisfies the rule *)
  Definition applied (rules : list (rule R)) (v w : nat -> cx R) : Prop :=
    (forall i, (forall r, In r rules -> ru_lhs r <> i) -> w i = v i) /\
    (forall r, In r rules -> ru_partial r = false -> w (ru_lhs r) = value v (ru_rhs r)) /\
    (forall r, In r rules -> w (ru_lhs r) = value (with_value v (ru_lhs r) (w (ru_lhs r))) (ru_rhs r)).
End Spec.
