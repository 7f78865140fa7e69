(** What the small utilities should compute. *)
From Coq Require Import List ZArith Arith Bool Sorted.
Import ListNotations.

(** Values of an integer type of [w] bits. *)
Definition fits (signed : bool) (w x : Z) : Prop :=
  if signed then (- 2 ^ (w - 1) <= x < 2 ^ (w - 1))%Z else (0 <= x < 2 ^ w)%Z.

(** Lexicographic order, and the rotation of a list that starts at position [i]. *)
Inductive list_less : list Z -> list Z -> Prop :=
| less_end : forall b y, list_less [] (b :: y)
| less_head : forall a b x y, (a < b)%Z -> list_less (a :: x) (b :: y)
| less_tail : forall a x y, list_less x y -> list_less (a :: x) (a :: y).
Definition rotation (data : list Z) (i : nat) : list Z := skipn i data ++ firstn i data.

Section Orders.
  Context {A : Type}.
  Variable less : A -> A -> bool.
  Definition equiv (a b : A) : Prop := less a b = false /\ less b a = false.
  Record weak_order : Prop := {
    wo_irr : forall a, less a a = false;
    wo_trans : forall a b c, less a b = true -> less b c = true -> less a c = true;
    wo_equiv : forall a b c, equiv a b -> equiv b c -> equiv a c }.
  Definition ascending (l : list A) : Prop := StronglySorted (fun a b => less b a = false) l.
  Definition in_test (test : list A) (b : A) : Prop := exists a, In a test /\ equiv a b.
End Orders.

Section Maps.
  Context {V : Type}.
  Definition keys_ascend (m : list (Z * V)) : Prop := StronglySorted Z.lt (map fst m).
  Fixpoint find_key (k : Z) (m : list (Z * V)) : option V :=
    match m with [] => None | (k', v) :: m' => if Z.eqb k k' then Some v else find_key k m' end.
  (** keys of one integer type of at most 64 bits *)
  Definition one_type (signed : bool) (m : list (Z * V)) : Prop := Forall (fun p => fits signed 64 (fst p)) m.
End Maps.

(** Starting points of chunks. *)
Definition starts_ok {A} (data : list A) (indices : list nat) : Prop := StronglySorted le indices /\ Forall (fun i => i <= length data) indices.
(** data from [i] to before [j] *)
Definition slice {A} (data : list A) (i j : nat) : list A := firstn (j - i) (skipn i data).

(** Matrices over a ring-like type; Kronecker product; equality of entries. *)
Section Matrices.
  Context {T : Type}.
  Variable mul : T -> T -> T.
  Variable one : T.
  Record matrix := mk_matrix { mx_rows : nat; mx_cols : nat; mx_entry : nat -> nat -> T }.
  Definition same_matrix (a b : matrix) : Prop := mx_rows a = mx_rows b /\ mx_cols a = mx_cols b /\
    forall i j, i < mx_rows a -> j < mx_cols a -> mx_entry a i j = mx_entry b i j.
  Definition kronecker (a b : matrix) : matrix :=
    mk_matrix (mx_rows a * mx_rows b) (mx_cols a * mx_cols b)
      (fun i j => mul (mx_entry a (i / mx_rows b) (j / mx_cols b)) (mx_entry b (i mod mx_rows b) (j mod mx_cols b))).
  Definition unit_matrix : matrix := mk_matrix 1 1 (fun _ _ => one).
  Fixpoint tensor_power (a : matrix) (n : nat) : matrix := match n with O => unit_matrix | S n' => kronecker a (tensor_power a n') end.
End Matrices.
