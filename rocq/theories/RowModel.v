(** Tables of words and terms handed to MATLAB: mex_functions/export/full_monomial_specification.cpp, export_polynomial.cpp, export_osg.cpp,
    export_operator_matrix.cpp, export_symbol_table.cpp, export_operator_sequence.cpp.

    A row holds one entry of each of the arrays that are returned.  Numbers of operators and of basis elements count from 1; in the latter 0 stands for none.
    The texts in the symbol table's rows are left out. *)
From Coq Require Import NArith ZArith Arith Bool List.
From Verif Require Import CoreModel FieldModel SymModel PolyModel FacModel.
Import ListNotations.
Local Open Scope list_scope.
Local Open Scope nat_scope.

Section Row.
  Context {R : rfield}.
  Notation term := (mono R).

  (** symbol_ids, is_conjugated, real_basis_elems, im_basis_elems: full_monomial_specification.h *)
  Record info := mk_info { i_id : nat; i_cj : bool; i_re : nat; i_im : nat }.
  (** operators, coefficients, hashes, the columns about symbols if they are asked for, and is_aliased if aliases exist *)
  Record row := mk_row { r_ops : list nat; r_coef : cx R; r_hash : N; r_info : option info; r_alias : option bool }.
  (** Errors: a symbol out of range or without a word at a position (export_polynomial.cpp:152-165); a symbol out of range; a word without a symbol; undefined *)
  Inductive rerr := RUnknownAt (n : nat) | RNoWordAt (n : nat) | RUnknown | RNoSymbol | RUndef.
  Inductive rout (A : Type) := ROk (a : A) | RErr (e : rerr).
  Arguments ROk {A}. Arguments RErr {A}.

  (** export_operator_sequence with matlab_indexing, export_operator_sequence.cpp:14-26 *)
  Definition export_ops (q : hseq) : list nat := map S (hs_ops q).
  (** basis_key() + 1, where -1 is none *)
  Definition key (o : option nat) : nat := match o with Some k => S k | None => 0 end.
  Definition info_of (id : nat) (cj : bool) (s : symbol) : info := mk_info id cj (key (sy_re s)) (key (sy_im s)).
  (** sequence() or sequence_conj(), symbol.h:80-92; None is undefined *)
  Definition stored (s : symbol) (cj : bool) : option hseq := if cj then if sy_herm s then sy_seq s else sy_conj s else sy_seq s.

  (** PartialWriteFunctor and FullWriteFunctor on Monomial, full_monomial_specification.cpp:172-185, 199-216 *)
  Definition mono_row (full : bool) (t : table) (x : term) : rout row :=
    match nth_error (t_syms t) (m_id x) with
    | None => RErr RUnknown
    | Some s =>
      match stored s (m_cj x) with
      | None => RErr RUndef
      | Some q => ROk (mk_row (export_ops q) (m_f x) (hs_hash q) (if full then Some (info_of (m_id x) (m_cj x) s) else None) None)
      end
    end.
  (** PartialWriteFunctor on OperatorSequence, 188-196; the factor is 1 by default *)
  Definition seq_row (q : hseq) (f : cx R) : row := mk_row (export_ops q) (cmul f (to_scalar (hs_sign q))) (hs_hash q) None None.
  (** FullWriteFunctor on OperatorSequence, 219-235 *)
  Definition seq_row_full (c : sctx) (t : table) (q : hseq) : rout row :=
    match lk_symbol (where_ c t q) with
    | None => RErr RNoSymbol
    | Some id =>
      match nth_error (t_syms t) id with
      | None => RErr RUndef
      | Some s => ROk (mk_row (export_ops q) (if hs_negated q then copp c1 else c1) (hs_hash q) (Some (info_of (sy_id s) (lk_conj (where_ c t q)) s)) None)
      end
    end.
  (** FullWriteFunctor on a term with a word, 238-257 *)
  Definition pair_row (t : table) (y : term * hseq) : rout row :=
    let x := fst y in
    match nth_error (t_syms t) (m_id x) with
    | None => RErr RUnknown
    | Some s => ROk (mk_row (export_ops (snd y)) (m_f x) (hs_hash (snd y)) (Some (info_of (m_id x) (m_cj x) s)) None)
    end.
  (** do_write: row by row *)
  Fixpoint rows {A} (f : A -> rout row) (l : list A) : rout (list row) :=
    match l with
    | [] => ROk []
    | a :: r => match f a with RErr e => RErr e | ROk y => match rows f r with RErr e => RErr e | ROk ys => ROk (y :: ys) end end
    end.

  (** OSGExporter::sequences and sequences_with_symbol_info, export_osg.cpp:36-61 *)
  Definition word_rows (l : list hseq) : list row := map (fun q => seq_row q c1) l.
  Definition word_rows_full (c : sctx) (t : table) (l : list hseq) : rout (list row) := rows (seq_row_full c t) l.
  (** OperatorMatrixExporter::monomials, export_operator_matrix.cpp:158-180 *)
  Definition matrix_rows (t : table) (cells : list term) (words : list hseq) : rout (list row) := rows (pair_row t) (List.combine cells words).
  (** PolynomialExporter::sequences(Polynomial), export_polynomial.cpp:135-195.  idx is never advanced (150). *)
  Definition poly_row (c : sctx) (symbols : bool) (t : table) (x : term) : rout row :=
    match nth_error (t_syms t) (m_id x) with
    | None => RErr (RUnknownAt 1)
    | Some s =>
      match sy_seq s with
      | None => RErr (RNoWordAt 1)
      | Some _ =>
        match stored s (m_cj x) with
        | None => RErr RUndef
        | Some q => ROk (mk_row (export_ops q) (m_f x) (hs_hash q) (if symbols then Some (info_of (m_id x) (m_cj x) s) else None) (if symbols && cx_alias c then Some false else None))
        end
      end
    end.
  Definition poly_rows (c : sctx) (symbols : bool) (t : table) (p : list term) : rout (list row) := rows (poly_row c symbols t) p.
  (** PolynomialExporter::sequences(RawPolynomial), export_polynomial.cpp:112-132 *)
  Definition raw_rows (p : list (hseq * cx R)) : list row := map (fun x => mk_row (export_ops (fst x)) (snd x) (hs_hash (fst x)) None None) p.
  (** monomial_sequence_cell_vector(Polynomials), export_polynomial.cpp:256-288: polynomials of at most one term *)
  Definition single_row (full : bool) (t : table) (p : list term) : rout row := mono_row full t (last p (mk_mono 0 false c0)).
  Definition single_rows (full : bool) (t : table) (l : list (list term)) : rout (list row) := rows (single_row full t) l.

  (** SymbolTableExporter: the columns symbol, conjugated, is_alias, hermitian, basis_re, basis_im of a row, export_symbol_table.cpp:190-243;
      None as the symbol is -1, the row for a missing symbol, 246-273 *)
  Record srow := mk_srow { w_symbol : option nat; w_cj : option bool; w_alias : option bool; w_herm : bool; w_re : nat; w_im : nat }.
  Definition symbol_row (s : symbol) (cj alias : option bool) : srow := mk_srow (Some (sy_id s)) cj alias (sy_herm s) (key (sy_re s)) (key (sy_im s)).
  (** export_table(from), 123-161 *)
  Definition table_rows (t : table) (from : nat) : list srow := map (fun s => symbol_row s None None) (skipn from (t_syms t)).
  (** export_row_array on the results of look-ups, 164-188 *)
  Definition lookup_row (c : sctx) (t : table) (q : hseq) : rout srow :=
    let w := where_ c t q in
    match lk_symbol w with
    | None => ROk (mk_srow None (Some false) (if cx_alias c then Some false else None) false 0 0)
    | Some id => match nth_error (t_syms t) id with None => RErr RUndef | Some s => ROk (symbol_row s (Some (lk_conj w)) (if cx_alias c then Some (lk_alias w) else None)) end
    end.
End Row.
Arguments ROk {A}. Arguments RErr {A}.
Arguments mk_row {R}. Arguments r_ops {R}. Arguments r_coef {R}. Arguments r_hash {R}. Arguments r_info {R}. Arguments r_alias {R}.
