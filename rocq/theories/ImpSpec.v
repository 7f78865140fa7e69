(** What importing a matrix should do. *)
From Coq Require Import List NArith ZArith Arith Bool.
From Verif Require Import CoreModel FieldModel SymModel SymSpec PolyModel PolySpec BasModel BasSpec ImpModel.
Import ListNotations.

Section ImpSpec.
  Context {R : rfield}.
  Notation mono := (mono R).
  (** the value of the entry in row [i] and column [j] *)
  Definition entry_value (v : nat -> cx R) (d : nat) (cells : list mono) (i j : nat) : cx R := value v (mono_entry d cells i j).
  (** What an import says about the values of the first [n] symbols: in a purely real system all are real; the symbols of a real matrix
      are; the matrix is Hermitian if it is said to be. *)
  Definition imposes (pr cplx hermitian : bool) (d : nat) (cells : list mono) (n : nat) (v : nat -> cx R) : Prop :=
    (pr = true -> forall id, id < n -> cim (v id) = r0 R) /\
    (cplx = false -> forall x, In x cells -> cim (v (m_id x)) = r0 R) /\
    (hermitian = true -> forall i j, i < d -> j < d -> entry_value v d cells j i = cconj (entry_value v d cells i j)).
  (** square matrices with real coefficients that are not zero (unless the symbol is 0) *)
  Definition input_ok (d : nat) (cells : list mono) : Prop :=
    length cells = d * d /\ forall x, In x cells -> cim (m_f x) = r0 R /\ (m_f x = c0 -> m_id x = 0).
  (** two opposite entries that no value of the symbols other than zero makes conjugates of each other, or only a relation between two symbols *)
  Definition mismatch (d : nat) (cells : list mono) : Prop := exists i j, i < j /\ j < d /\
    let a := elem d cells i j in let b := elem d cells j i in
    m_id a <> m_id b \/ (m_id a = m_id b /\ m_f b <> m_f a /\ m_f b <> copp (m_f a)).
  (** an operation whose input is square and real, and that does not fail half way: an import that is refused is refused before the
      symbols are touched *)
  Definition half_way (cplx hermitian : bool) (d : nat) (cells : list mono) (s : imsys R) : Prop :=
    exists re im t', sys_real s && cplx = false /\ import_bits (sys_real s) cplx hermitian d cells (sys_table s) = Some (re, im) /\ merge_bits (sys_table s) re im = Throw t'.
  Definition quiet (s : imsys R) (o : iop R) : Prop :=
    match o with IImport cplx hermitian d cells => input_ok d cells /\ ~ half_way cplx hermitian d cells s | IBasis _ => True end.
  (** the states of such sessions *)
  Inductive session (is_dense : bool) : imsys R -> Prop :=
  | se_start : forall pr, session is_dense (ifresh pr)
  | se_step : forall s o s', session is_dense s -> quiet s o -> istep is_dense s o = Some s' -> session is_dense s'.
  (** the same matrix, with the values [v] *)
  Definition same_entries (v : nat -> cx R) (m m' : imat R) : Prop :=
    im_dim m' = im_dim m /\ im_herm m' = im_herm m /\ im_basis m' = im_basis m /\
    forall i j, i < im_dim m -> j < im_dim m -> entry_value v (im_dim m) (im_cells m') i j = entry_value v (im_dim m) (im_cells m) i j.
  Definition is_import (o : iop R) : Prop := match o with IImport _ _ _ _ => True | IBasis _ => False end.
  (** each operation satisfies [P] in the state it finds *)
  Fixpoint each (is_dense : bool) (P : imsys R -> iop R -> Prop) (s : imsys R) (l : list (iop R)) : Prop :=
    match l with [] => True | o :: l' => P s o /\ forall s', istep is_dense s o = Some s' -> each is_dense P s' l' end.
End ImpSpec.
(** the words of the imported context *)
Definition imported_words (q : hseq) : Prop := q = hseq_const true \/ q = hseq_const false.
