(** Moment and localizing matrices of concrete contexts, and the Hermiticity check.

    Products and conjugates may throw (see [res]); a cell then holds the error instead of a word, so that nothing is lost. *)
From Coq Require Import List NArith Arith Bool.
From Verif Require Import CoreModel AlgModel PauliModel LocModel MatModel.
Import ListNotations.

(** multiplication and conjugation of possibly missing words *)
Definition rmul (mul : hseq -> hseq -> res hseq) (a b : res hseq) : res hseq := bind a (fun x => bind b (fun y => mul x y)).
Definition rconj (cj : hseq -> res hseq) (a : res hseq) : res hseq := bind a cj.

(** moment_matrix.h:33-36: lhs * rhs *)
Definition moment_functor (mul : hseq -> hseq -> res hseq) : res hseq -> res hseq -> res hseq := rmul mul.
(** localizing_matrix.h:31-34: lhs * (Word * rhs) *)
Definition localizing_functor (mul : hseq -> hseq -> res hseq) (word : hseq) (lhs rhs : res hseq) : res hseq := rmul mul lhs (rmul mul (Ret word) rhs).
(** moment_matrix.h:39 *)
Definition moment_should_be_hermitian : bool := true.
(** localizing_matrix.h:37-39: hashes of the word and of its conjugate are compared, their signs are not *)
Definition localizing_should_be_hermitian (cj : hseq -> res hseq) (word : hseq) : res bool :=
  bind (cj word) (fun c => Ret (negb (hs_imaginary word) && N.eqb (hs_hash word) (hs_hash c))).
(** operator_matrix_factory.h:122-124; [unexpected] is Context::can_make_unexpected_nonhermitian_matrices *)
Definition could_be_non_hermitian (should_be_hermitian unexpected : bool) : bool := negb should_be_hermitian || unexpected.

(** the generators of a level: the dictionary for the columns, its conjugates in the same order for the rows
    (operator_matrix_factory.h:111-115) *)
Definition col_gen (d : list hseq) : list (res hseq) := map Ret d.
Definition row_gen (cj : hseq -> res hseq) (d : list hseq) : list (res hseq) := map cj d.

(** the single-threaded matrices (operator_matrix_factory_singlethreaded.h:59-71) *)
Definition moment_matrix (mul : hseq -> hseq -> res hseq) (cj : hseq -> res hseq) (d : list hseq) : list (res hseq) :=
  st_generate (moment_functor mul) (row_gen cj d) (col_gen d).
Definition localizing_matrix (mul : hseq -> hseq -> res hseq) (cj : hseq -> res hseq) (word : hseq) (d : list hseq) : list (res hseq) :=
  st_generate (localizing_functor mul word) (row_gen cj d) (col_gen d).

(** is_hermitian.cpp:11-29 (NonHInfo::find_first_index), for any comparison and conjugation of the elements.  Index (row, col) of a
    matrix of dimension n is at position col*n+row.  The default is never used for indices within the matrix. *)
Section Find.
  Variable A : Type.
  Variables (eqb : A -> A -> bool) (cj : A -> A) (dflt : A).
  Fixpoint first_bad_row (n : nat) (m : list A) (col : nat) (rows : list nat) : option (nat * nat) :=
    match rows with
    | [] => None
    | row :: rest =>
        let upper := nth (col * n + row) m dflt in let lower := nth (row * n + col) m dflt in
        if eqb upper (cj lower) then first_bad_row n m col rest else Some (row, col)
    end.
  Fixpoint first_bad_col (n : nat) (m : list A) (cols : list nat) : option (nat * nat) :=
    match cols with
    | [] => None
    | col :: rest =>
        let diag := nth (col * n + col) m dflt in
        if eqb diag (cj diag)
        then match first_bad_row n m col (seq (S col) (n - S col)) with Some x => Some x | None => first_bad_col n m rest end
        else Some (col, col)
    end.
  Definition find_first_index (n : nat) (m : list A) : option (nat * nat) := first_bad_col n m (seq 0 n).
End Find.
Arguments first_bad_row {A}. Arguments first_bad_col {A}. Arguments find_first_index {A}.

(** comparison of cells: operator == of operator sequences (hashed_sequence.h:214-222) *)
Definition cell_eqb (a b : res hseq) : bool := match a, b with Ret x, Ret y => hs_eqb x y | _, _ => false end.

(** multiplication and conjugation of Pauli contexts never throw *)
Definition pauli_mul (n : nat) (a b : hseq) : res hseq := Ret (pauli_multiply n a b).
Definition pauli_conj (q : hseq) : res hseq := Ret (pauli_conjugate q).

(** scenarios/pauli/matrices/monomial_commutator_matrix.h:41-48: the (anti)commutator of lhs * rhs with the word *)
Definition commutator_functor (n : nat) (word : hseq) (lhs rhs : res hseq) : res hseq := bind (rmul (pauli_mul n) lhs rhs) (fun x => Ret (pauli_commutator n x word)).
Definition anticommutator_functor (n : nat) (word : hseq) (lhs rhs : res hseq) : res hseq := bind (rmul (pauli_mul n) lhs rhs) (fun x => Ret (pauli_anticommutator n x word)).
(** monomial_commutator_matrix.h:50-60 *)
Definition commutator_should_be_hermitian (word : hseq) : bool := hs_imaginary word.
Definition anticommutator_should_be_hermitian (word : hseq) : bool := negb (hs_imaginary word).
(** scenarios/pauli/matrices/monomial_localizing_matrix.h:43-47 *)
Definition pauli_localizing_should_be_hermitian (word : hseq) : bool := negb (hs_imaginary word).
