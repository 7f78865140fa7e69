(** What the numeric basis of a symbolic matrix should be. *)
From Coq Require Import List Arith Bool.
From Verif Require Import FieldModel SymModel PolyModel PolySpec BasModel.
Import ListNotations.

Section BasSpec.
  Context {R : rfield}.
  Notation mono := (mono R).
  (** entry of a matrix stored by columns *)
  Definition by_columns {A} (d : nat) (l : list A) (x : A) (r c : nat) : A := nth (c * d + r) l x.
  (** x_1 B_1 + ... + x_n B_n, at row r and column c *)
  Definition weighted (n : nat) (x : nat -> R) (b : list (dmat R)) (r c : nat) : cx R :=
    fold_right (fun k s => cadd (cmul (creal (x k)) (nth k b zero_matrix r c)) s) c0 (seq 0 n).
  (** the real basis matrices weighted by the real parts of the symbols plus the imaginary ones weighted by the imaginary parts *)
  Definition combination (t : table) (v : nat -> cx R) (b : basis R) (r c : nat) : cx R :=
    cadd (weighted (length (t_real t)) (real_elem t v) (b_real b) r c) (weighted (length (t_imag t)) (imag_elem t v) (b_imag b) r c).
  (** ... is the matrix, whatever the values of the symbols *)
  Record represents (t : table) (d : nat) (entry : nat -> nat -> list mono) (b : basis R) : Prop := mk_represents {
    rp_real : length (b_real b) = length (t_real t);
    rp_imag : length (b_imag b) = length (t_imag t);
    rp_value : forall v, assignment t v -> forall r c, r < d -> c < d -> combination t v b r c = value v (entry r c) }.
  (** the matrix is Hermitian, whatever the values of the symbols *)
  Definition truly_hermitian (t : table) (d : nat) (entry : nat -> nat -> list mono) : Prop :=
    forall v, assignment t v -> forall r c, r < d -> c < d -> value v (entry c r) = cconj (value v (entry r c)).
  (** one of the basis matrices is not zero *)
  Definition nonzero (d : nat) (b : dmat R) : Prop := exists r c, r < d /\ c < d /\ b r c <> c0.
  Definition poly_entry (d : nat) (cells : list (list mono)) (r c : nat) : list mono := by_columns d cells [] r c.
  Definition mono_entry (d : nat) (cells : list mono) (r c : nat) : list mono := [by_columns d cells (mk_mono 0 false c0) r c].
End BasSpec.
