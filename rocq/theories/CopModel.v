(** Symmetrised polynomials: LatticeDuplicator::symmetrical_copy, scenarios/pauli/symmetry/lattice_duplicator.cpp:379-463.

    Terms are pairs of a Pauli word and its weight; RawPolynomial keeps phases in the weight.  Numbers are exact. *)
From Coq Require Import NArith ZArith Arith Bool List.
From Verif Require Import CoreModel FieldModel SiteModel.
Import ListNotations.
Local Open Scope list_scope.
Local Open Scope nat_scope.

(** The parts of PauliContext that matter, pauli_context.h:65-95: symmetry, wrapping, col_height (0 for chains) and row_width, qubit_size; and the hasher
    that the moment simplifier of a wrapped context holds *)
Record pctx := mk_pctx { k_sym : bool; k_wrap : bool; k_col : nat; k_row : nat; k_qubits : nat; k_hasher : hasher }.
(** is_lattice, pauli_context.h:133-135 *)
Definition is_lattice (k : pctx) : bool := negb (k_col k =? 0).

Section Copy.
  Context {R : rfield}.
  Notation poly := (list (word * cx R)).
  (** undefined shifts, see SiteModel *)
  Variable wide : bool -> N -> N -> sout N.
  (** static_cast<double> of a count *)
  Fixpoint cnat (n : nat) : cx R := match n with O => c0 | S m => cadd c1 (cnat m) end.
  Fixpoint smap {A B} (f : A -> sout B) (l : list A) : sout (list B) :=
    match l with [] => SOk [] | a :: r => sbind (f a) (fun b => sbind (smap f r) (fun bs => SOk (b :: bs))) end.
  (** the body of the loops at 395-402 and 427-435: a term and its copies *)
  Definition term_copies {K} (off : K -> word -> sout word) (ks : list K) (pre : cx R) (x : word * cx R) : sout poly :=
    sbind (smap (fun k => off k (fst x)) ks) (fun ws => SOk (map (fun w => (w, cmul (snd x) pre)) (fst x :: ws))).
  Definition copies {K} (off : K -> word -> sout word) (ks : list K) (pre : cx R) (p : poly) : sout poly :=
    sbind (smap (term_copies off ks pre) p) (fun l => SOk (concat l)).
  (** get_max_chain_offset, 379-385 *)
  Definition max_chain (k : pctx) (p : poly) : nat := if k_wrap k then k_qubits k else 1 + k_qubits k - chain_supremum_poly (map fst p).
  (** chain_offset of the context's simplifier *)
  Definition chain_off (k : pctx) (d : nat) (w : word) : sout word :=
    if k_wrap k then wrap_chain_offset wide (k_hasher k) w (Z.of_nat d) else SOk (map Z.to_nat (do_chain_offset w (Z.of_nat d))).
  (** do_apply_symmetry_chain, 387-404 *)
  Definition copy_chain (k : pctx) (p : poly) : sout poly :=
    let m := max_chain k p in copies (chain_off k) (seq 1 (m - 1)) (cinv (cnat m)) p.
  (** lattice_supremum of a polynomial, moment_simplifier_no_wrapping.cpp:187-195 *)
  Definition lattice_supremum_poly (ch : nat) (p : poly) : nat * nat :=
    fold_left (fun m x => let s := lattice_supremum ch (fst x) in (Nat.max (fst m) (fst s), Nat.max (snd m) (snd s))) p (0, 0).
  (** get_max_lattice_offset, 406-416: numbers of rows and columns *)
  Definition max_lattice (k : pctx) (p : poly) : nat * nat :=
    if k_wrap k then (k_col k, k_row k)
    else let s := lattice_supremum_poly (k_col k) p in (1 + k_col k - fst s, 1 + k_row k - snd s).
  (** the loops at 430-434, as (row, column) *)
  Definition lattice_offsets (rows cols : nat) : list (nat * nat) :=
    flat_map (fun c => let from := if c =? 0 then 1 else 0 in map (fun r => (r, c)) (seq from (rows - from))) (seq 0 cols).
  Definition lattice_off (k : pctx) (d : nat * nat) (w : word) : sout word :=
    if k_wrap k then wrap_lattice_offset wide (k_hasher k) w (Z.of_nat (fst d)) (Z.of_nat (snd d))
    else SOk (map Z.to_nat (lattice_offset (k_col k) w (Z.of_nat (fst d)) (Z.of_nat (snd d)))).
  (** do_apply_symmetry_lattice, 418-438 *)
  Definition copy_lattice (k : pctx) (p : poly) : sout poly :=
    let m := max_lattice k p in copies (lattice_off k) (lattice_offsets (fst m) (snd m)) (cinv (cnat (fst m * snd m))) p.
  (** RawPolynomial::is_scalar, dictionary/raw_polynomial.cpp:57-67 *)
  Definition is_scalar (p : poly) : bool := forallb (fun x => match fst x with [] => true | _ => false end) p.
  (** symmetrical_copy, 442-461 *)
  Definition symmetrical_copy (k : pctx) (p : poly) : sout poly :=
    if negb (k_sym k) || is_scalar p then SOk p else if is_lattice k then copy_lattice k p else copy_chain k p.
End Copy.
