(** Finite maps from sequences of integers; the lexicographic order. *)
From Coq Require Import List ZArith.
From Verif Require Import TreeModel.
Import ListNotations.

Definition path_eq_dec : forall p q : list Z, {p = q} + {p <> q} := list_eq_dec Z.eq_dec.
(** the entry the history [e] leaves at [p] *)
Fixpoint entry {V} (e : texp V) (p : list Z) : option V :=
  match e with
  | TNew => None
  | TAdd e q v => if path_eq_dec p q then Some v else entry e p
  | TAddIfNew e q v => match entry e p with Some w => Some w | None => if path_eq_dec p q then Some v else None end
  | TAddNode e _ => entry e p
  | TMerge a b => match entry b p with Some w => Some w | None => entry a p end
  end.
(** which nodes there are: every prefix of an index that was used *)
Definition prefix (p q : list Z) : Prop := exists s, q = p ++ s.
Fixpoint present {V} (e : texp V) (p : list Z) : Prop :=
  match e with
  | TNew => p = []
  | TAdd e q _ | TAddIfNew e q _ => prefix p q \/ present e p
  | TAddNode e x => p = [x] \/ present e p
  | TMerge a b => present a p \/ present b p
  end.
(** strict lexicographic order, shorter first *)
Inductive lex : list Z -> list Z -> Prop :=
| lex_nil : forall x p, lex [] (x :: p)
| lex_head : forall x y p q, (x < y)%Z -> lex (x :: p) (y :: q)
| lex_tail : forall x p q, lex p q -> lex (x :: p) (x :: q).
