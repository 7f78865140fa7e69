(** Arithmetic on symbolic matrices: matrix/symbolic_matrix.cpp, monomial_matrix.cpp, monomial_matrix_arithmetic.cpp,
    polynomial_matrix.cpp, polynomial_matrix_arithmetic.cpp, composite_matrix.cpp, value_matrix.cpp, utilities/eigen_utils.cpp.
    Coefficients are exact; the tolerances are zero.  Matrices are stored by columns. *)
From Coq Require Import List NArith ZArith Arith Bool.
From Verif Require Import CoreModel FieldModel SymModel PolyModel RawModel MatInstModel FacModel BasModel.
Import ListNotations.

(** the outcome of an operation: a result, an exception, or undefined behaviour (null pointer) *)
Inductive aout (A : Type) := AOk (a : A) | AThrow | AUndef.
Arguments AOk {A}. Arguments AThrow {A}. Arguments AUndef {A}.
Definition abind {A B} (x : aout A) (f : A -> aout B) : aout B := match x with AOk a => f a | AThrow => AThrow | AUndef => AUndef end.

Section Ari.
  Context {R : rfield}.
  Notation mono := (mono R).
  Notation poly := (list mono).

  (** MonomialMatrix, monomial_matrix.h:62-95, as far as arithmetic is concerned: entries, Hermitian flag, (unaliased) operator matrix if
      any, global prefactor; and whether it is a ValueMatrix (value_matrix.h), with that class's antihermitian flag.  What else a matrix
      stores (basis numbers) is computed from the entries: [BasModel]. *)
  Record monomat := mk_mm { mm_dim : nat; mm_cells : list mono; mm_herm : bool; mm_ops : option (list hseq); mm_factor : cx R;
                            mm_value : bool; mm_anti : bool }.
  (** PolynomialMatrix *)
  Record polymat := mk_pm { pm_dim : nat; pm_cells : list poly }.
  Inductive smx := SM (m : monomat) | SP (p : polymat).
  Definition smx_dim (a : smx) : nat := match a with SM m => mm_dim m | SP p => pm_dim p end.

  Section Sums.
    Variable t : table.
    Variable srt : list mono -> list mono.      (* std::sort with the factory's comparator *)
    Variable lt : mono -> mono -> bool.         (* the comparator *)

    (** make_rescaled_matrix, composite_matrix.cpp:23-60 *)
    Definition rescaled (a : smx) (f : cx R) : list poly :=
      match a with
      | SM m => map (fun x => fst (fix_cc_in_place t true (poly_of_mono (mk_mono (m_id x) (m_cj x) (cmul f (m_f x)))))) (mm_cells m)
      | SP p => map (fun q => fst (fix_cc_in_place t true (scale f q))) (pm_cells p)
      end.
    (** the terms that one entry of the constituents contributes, monomial matrices first (composite_matrix.cpp:62-130) *)
    Definition mono_terms (parts : list (smx * cx R)) (o : nat) : list mono :=
      flat_map (fun p => match fst p with
                         | SM m => match nth_error (mm_cells m) o with Some x => [mk_mono (m_id x) (m_cj x) (cmul (m_f x) (snd p))] | None => [] end
                         | SP _ => [] end) parts.
    Definition poly_terms (parts : list (smx * cx R)) (o : nat) : list mono :=
      flat_map (fun p => match fst p with
                         | SM _ => []
                         | SP q => match nth_error (pm_cells q) o with
                                   | Some l => map (fun x => mk_mono (m_id x) (m_cj x) (cmul (m_f x) (snd p))) l | None => [] end end) parts.
    (** compile_to_polynomial_matrix_data and the constructor, composite_matrix.cpp:62-175.  The dimensions are only compared if there
        is more than one constituent. *)
    Definition composite (dim : nat) (parts : list (smx * cx R)) : aout polymat :=
      match parts with
      | [] => AOk (mk_pm dim (repeat [] (dim * dim)))
      | [(a, f)] => AOk (mk_pm (smx_dim a) (rescaled a f))
      | _ => if forallb (fun p => Nat.eqb (smx_dim (fst p)) dim) parts
             then AOk (mk_pm dim (map (fun o => make_poly t srt (mono_terms parts o ++ poly_terms parts o)) (seq 0 (dim * dim))))
             else AThrow
      end.
    (** SymbolicMatrix::add(SymbolicMatrix), symbolic_matrix.cpp:236-255 *)
    Definition add_matrix (a b : smx) : aout polymat :=
      if Nat.eqb (smx_dim a) (smx_dim b) then composite (smx_dim a) [(a, c1); (b, c1)] else AThrow.
    (** MonomialMatrix::add(Monomial), monomial_matrix_arithmetic.cpp:24-46; PolynomialMatrix::add(Monomial),
        polynomial_matrix_arithmetic.cpp:20-45.  Adding nothing to a polynomial matrix clones it, which that class does not support. *)
    Definition add_mono (a : smx) (x : mono) : aout polymat :=
      if Nat.eqb (m_id x) 0 || is_zero (m_f x) then
        match a with SM m => composite (mm_dim m) [(a, c1)] | SP _ => AThrow end
      else
        match a with
        | SM m => AOk (mk_pm (mm_dim m) (map (fun e => sum_mm lt e x) (mm_cells m)))
        | SP p => AOk (mk_pm (pm_dim p) (map (fun q => sum_pm lt q x) (pm_cells p)))
        end.
    (** MonomialMatrix::add(Polynomial), 49-72; PolynomialMatrix::add(Polynomial), 47-75 *)
    Definition add_poly (a : smx) (q : poly) : aout polymat :=
      match q with
      | [] => match a with SM m => composite (mm_dim m) [(a, c1)] | SP _ => AThrow end
      | [x] => add_mono a x
      | _ =>
          match a with
          | SM m => AOk (mk_pm (mm_dim m) (map (fun e => sum_pm lt q e) (mm_cells m)))
          | SP p => AOk (mk_pm (pm_dim p) (map (fun r => sum_pp lt r q) (pm_cells p)))
          end
      end.
    (** synthesize_from_parts, polynomial_matrix.cpp:44-89 (all parts have the same dimension; no part: exception) *)
    Definition synthesize (dim : nat) (parts : list (list mono)) : aout polymat :=
      match parts with
      | [] => AThrow
      | [a] => AOk (mk_pm dim (map poly_of_mono a))
      | [a; b] => AOk (mk_pm dim (map (fun p => sum_mm lt (fst p) (snd p)) (combine a b)))
      | _ => AOk (mk_pm dim (map (fun o => make_poly t srt (flat_map (fun l => match nth_error l o with Some x => [x] | None => [] end) parts)) (seq 0 (dim * dim))))
      end.
  End Sums.

  (** ** Multiplication *)
  Section Mul.
    Variable c : sctx.
    Variable mul : hseq -> hseq -> hseq.        (* the context's product of operator sequences *)
    Variable only : bool.                       (* the context knows only Hermitian operators: [FacModel] *)
    Variable srt : table -> list mono -> list mono.
    Variable lt : table -> mono -> mono -> bool.

    (** is_hermitian of an operator matrix: OperatorMatrix constructor, operator_matrix.cpp:25-40; [MatInstModel] *)
    Definition ops_hermitian (dim : nat) (ops : list hseq) : bool :=
      match find_first_index hs_eqb (cx_conj c) (hseq_const true) dim ops with None => true | Some _ => false end.
    (** all entries were found *)
    Fixpoint all_some {A} (l : list (option A)) : option (list A) :=
      match l with
      | [] => Some []
      | Some x :: l' => match all_some l' with Some r => Some (x :: r) | None => None end
      | None :: _ => None
      end.
    (** register_symbols_and_create_matrix, monomial_matrix_factory.cpp:725-800 (one thread; the parallel version has the same values: C45),
        with MonomialMatrix's constructor, monomial_matrix.cpp:24-70: symbols of the aliased matrix if the context has aliases *)
    Definition from_ops (dim : nat) (ops : list hseq) (factor : cx R) (t : table) : outcome monomat :=
      let used := if cx_alias c then map (cx_moment c) ops else ops in
      let h := ops_hermitian dim used in
      match st_run c dim used h factor only t with
      | Done t' out => match all_some out with
                       | Some cells => Done t' (mk_mm dim (map (canonical_mono t') cells) h (Some ops) factor false false)
                       | None => Undef
                       end
      | Throw t' => Throw t'
      | Undef => Undef
      end.
    (** zero_matrix, monomial_matrix.cpp:131-161, for a context that defines operators *)
    Definition zero_matrix (dim : nat) : monomat :=
      mk_mm dim (repeat (mk_mono 0 false c0) (dim * dim)) true (Some (repeat (hseq_const true) (dim * dim))) c1 false false.
    (** clone: MonomialMatrix::clone, monomial_matrix.cpp:163-186, hands a null operator matrix to a constructor that dereferences it;
        the clone of a value matrix is no value matrix.  SymbolicMatrix::clone, symbolic_matrix.cpp:71-73, throws; PolynomialMatrix does
        not override it. *)
    Definition clone (a : smx) : aout smx :=
      match a with
      | SM m => match mm_ops m with
                | Some ops => AOk (SM (mk_mm (mm_dim m) (mm_cells m) (mm_herm m) (Some ops) (mm_factor m) false false))
                | None => AUndef
                end
      | SP _ => AThrow
      end.
    Definition lift {A} (t : table) (x : aout A) : outcome A := match x with AOk a => Done t a | AThrow => Throw t | AUndef => Undef end.
    Definition as_smx (x : outcome monomat) : outcome smx := match x with Done t m => Done t (SM m) | Throw t => Throw t | Undef => Undef end.
    Definition as_poly (x : outcome polymat) : outcome smx := match x with Done t m => Done t (SP m) | Throw t => Throw t | Undef => Undef end.
    (** OperatorMatrix::pre_multiply and post_multiply, operator_matrix.cpp: entrywise *)
    Definition times (pre : bool) (q : hseq) (ops : list hseq) : list hseq := map (fun a => if pre then mul q a else mul a q) ops.

    (** do_raw_monomial_multiply, monomial_matrix_arithmetic.cpp:74-114 *)
    Definition mm_multiply (pre : bool) (q : hseq) (w : cx R) (m : monomat) (t : table) : outcome monomat :=
      if hs_zero q then Done t (zero_matrix (mm_dim m))
      else match mm_ops m with
           | None => Throw t
           | Some ops => from_ops (mm_dim m) (times pre q ops) (cmul (mm_factor m) w) t
           end.
    (** do_raw_polynomial_multiply, 133-190, the loop over the terms *)
    Fixpoint mm_terms (pre : bool) (dim : nat) (ops : list hseq) (factor : cx R) (p : list (hseq * cx R)) (t : table) : outcome (list (list mono)) :=
      match p with
      | [] => Done t []
      | (q, w) :: p' =>
          match from_ops dim (times pre q ops) (cmul factor w) t with
          | Done t' m => match mm_terms pre dim ops factor p' t' with Done t2 l => Done t2 (mm_cells m :: l) | Throw t2 => Throw t2 | Undef => Undef end
          | Throw t' => Throw t'
          | Undef => Undef
          end
      end.
    Definition mm_multiply_raw (pre : bool) (p : list (hseq * cx R)) (m : monomat) (t : table) : outcome smx :=
      match p with
      | [] => Done t (SM (zero_matrix (mm_dim m)))
      | [(q, w)] => as_smx (mm_multiply pre q w m t)
      | _ => match mm_ops m with
             | None => Throw t
             | Some ops =>
                 match mm_terms pre (mm_dim m) ops (mm_factor m) p t with
                 | Done t' l => as_poly (lift t' (synthesize t' (srt t') (lt t') (mm_dim m) l))
                 | Throw t' => Throw t'
                 | Undef => Undef
                 end
             end
      end.

    (** ** Matrices of numbers *)
    (** monomialize, value_matrix.cpp:158-176 *)
    Definition monomialize (q : hseq) (w : cx R) (t : table) : outcome mono :=
      let w' := match hs_sign q with SPos => w | s => cmul w (to_scalar s) end in
      let q' := set_sign q SPos in
      match lk_symbol (where_ c t q') with
      | Some id => Done t (mk_mono id (lk_conj (where_ c t q')) w')
      | None => match merge_sequence c t q' with
                | Done t' id => Done t' (mk_mono id false w')
                | Throw t' => Throw t'
                | Undef => Undef
                end
      end.
    (** hermitian_type, operator_sequence.cpp:67-88: Some 1 / Some -1 / Some 0 as Hermitian / anti-Hermitian / neither, None for zero *)
    Definition hermitian_type (q : hseq) : option Z :=
      match hs_ops q with
      | [] => if hs_zero q then None else Some (if hs_imaginary q then -1 else 1)%Z
      | _ => Some (hs_compare_same_negation q (cx_conj c q))
      end.
    (** ValueMatrix::pre_multiply(OperatorSequence), value_matrix.cpp:178-222; post_multiply, 224-230, calls it *)
    Definition vm_multiply (q : hseq) (w : cx R) (m : monomat) (t : table) : outcome monomat :=
      if is_zero w || hs_zero q then Done t (zero_matrix (mm_dim m))
      else match monomialize q w t with
           | Done t' x =>
               let cells := map (fun e => let f := cmul (m_f x) (m_f e) in if is_zero f then mk_mono 0 false c0 else mk_mono (m_id x) (m_cj x) f) (mm_cells m) in
               let is s := match hermitian_type q with Some z => Z.eqb z s | None => false end in
               let h := if mm_herm m then is 1%Z else if mm_anti m then is (-1)%Z else false in
               Done t' (mk_mm (mm_dim m) (map (canonical_mono t') cells) h None c1 false false)
           | Throw t' => Throw t'
           | Undef => Undef
           end.
    (** ValueMatrix::pre_multiply(RawPolynomial), 232-270.  Simplified: the order in which the terms are sorted is that of the comparator at the
        beginning (it only matters for comparators that look at the table). *)
    Definition vm_multiply_raw (p : list (hseq * cx R)) (m : monomat) (t : table) : outcome smx :=
      match p with
      | [] => Done t (SM (zero_matrix (mm_dim m)))
      | [(q, w)] => as_smx (vm_multiply q w m t)
      | _ =>
          if raw_is_scalar p then as_smx (vm_multiply (hseq_const false) (fold_left (fun s x => cadd s (snd x)) p c0) m t)
          else match register_construct c t (srt t) p with
               | Done t' q => Done t' (SP (mk_pm (mm_dim m) (map (fun e => scale (m_f e) q) (mm_cells m))))
               | Throw t' => Throw t'
               | Undef => Undef
               end
      end.

    (** ** Any symbolic matrix (virtual functions; those that SymbolicMatrix does not override throw, symbolic_matrix.cpp:92-130) *)
    Definition multiply (pre : bool) (q : hseq) (w : cx R) (a : smx) (t : table) : outcome smx :=
      match a with
      | SM m => as_smx (if mm_value m then vm_multiply q w m t else mm_multiply pre q w m t)
      | SP _ => Throw t
      end.
    Definition multiply_raw (pre : bool) (p : list (hseq * cx R)) (a : smx) (t : table) : outcome smx :=
      match a with
      | SM m => if mm_value m then vm_multiply_raw p m t else mm_multiply_raw pre p m t
      | SP _ => Throw t
      end.
    (** the sequence do_monomial_multiply looks up, symbolic_matrix.cpp:157-158: of the CONJUGATE of the monomial *)
    Definition looked_up (t : table) (x : mono) : option hseq :=
      match nth_error (t_syms t) (m_id x) with
      | None => None
      | Some s => if m_cj x then sy_seq s else if sy_herm s then sy_seq s else sy_conj s
      end.
    Definition has_ops (a : smx) : bool := match a with SM m => match mm_ops m with Some _ => true | None => false end | SP _ => false end.
    (** do_monomial_multiply, symbolic_matrix.cpp:133-170 *)
    Definition multiply_mono (pre : bool) (x : mono) (a : smx) (t : table) : outcome smx :=
      if Nat.eqb (m_id x) 0 then Done t (SM (zero_matrix (smx_dim a)))
      else if Nat.eqb (m_id x) 1 && ceqb (m_f x) c1 then lift t (clone a)
      else if negb (has_ops a) then Throw t
      else match looked_up t x with
           | Some q => multiply pre q (m_f x) a t
           | None => Undef
           end.
    (** do_polynomial_multiply, 190-220 *)
    Definition multiply_poly (pre : bool) (p : poly) (a : smx) (t : table) : outcome smx :=
      match p with
      | [] => Done t (SM (zero_matrix (smx_dim a)))
      | [x] => multiply_mono pre x a t
      | _ => match raw_of_poly t p with
             | Some r => multiply_raw pre r a t
             | None => Undef
             end
      end.
  End Mul.

  (** ** Making matrices of numbers *)
  Definition c_real (z : cx R) : bool := ceqb (cconj z) z.
  Definition c_imag (z : cx R) : bool := ceqb (cconj z) (copp z).
  Definition at_ (d : nat) (data : list (cx R)) (row col : nat) : cx R := nth (col * d + row) data c0.
  (** is_hermitian and is_antihermitian of dense matrices, eigen_utils.cpp:39-69, 117-135 ([s] = 1 or -1).  For real data the test of the
      diagonal always succeeds. *)
  Definition dense_test (diag : cx R -> bool) (s : cx R -> cx R) (d : nat) (data : list (cx R)) : bool :=
    forallb (fun col => diag (at_ d data col col) &&
      forallb (fun row => ceqb (s (cconj (at_ d data row col))) (at_ d data col row)) (seq (S col) (d - S col))) (seq 0 d).
  Definition dense_hermitian := dense_test c_real (fun z => z).
  Definition dense_antihermitian := dense_test c_imag copp.
  Definition dense_zero (data : list (cx R)) : bool := forallb (is_zero (R := R)) data.
  (** ValueMatrix from a dense matrix, value_matrix.cpp:28-51, 77-115; [real]: the constructor for real numbers *)
  Definition value_dense (t : table) (real : bool) (d : nat) (data : list (cx R)) : monomat :=
    let cells := map (fun z => if is_zero z then mk_mono 0 false c0 else mk_mono 1 false z) data in
    let h := dense_hermitian d data in
    mk_mm d (map (canonical_mono t) cells) h None c1 true (if h || real then dense_zero data else dense_antihermitian d data).

  (** sparse matrices: the stored entries (row, column, value), by columns, each position at most once *)
  Notation sparse := (list (nat * nat * cx R)).
  Definition sp_at (l : sparse) (row col : nat) : cx R :=
    match find (fun e => Nat.eqb (fst (fst e)) row && Nat.eqb (snd (fst e)) col) l with Some e => snd e | None => c0 end.
  (** eigen_utils.cpp:71-115, 137-160: only entries stored on or below the diagonal are examined *)
  Definition sparse_test (diag : cx R -> bool) (s : cx R -> cx R) (l : sparse) : bool :=
    forallb (fun e => let '(row, col, z) := e in
      if Nat.eqb row col then diag z else if Nat.ltb col row then ceqb (s (cconj (sp_at l col row))) z else true) l.
  Definition sparse_hermitian := sparse_test c_real (fun z => z).
  Definition sparse_antihermitian := sparse_test c_imag copp.
  Definition sp_cells (d : nat) (l : sparse) : list mono :=
    fold_left (fun cells e => let '(row, col, z) := e in
      firstn (col * d + row) cells ++ mk_mono 1 false z :: skipn (S (col * d + row)) cells) l (repeat (mk_mono 0 false c0) (d * d)).
  (** ValueMatrix from a sparse matrix, value_matrix.cpp:53-74, 117-155 *)
  Definition value_sparse (t : table) (real : bool) (d : nat) (l : sparse) : monomat :=
    let h := sparse_hermitian l in
    let z := match l with [] => true | _ => false end in
    mk_mm d (map (canonical_mono t) (sp_cells d l)) h None c1 true (if h || real then z else sparse_antihermitian l).
End Ari.
Arguments monomat : clear implicits. Arguments polymat : clear implicits. Arguments smx : clear implicits.
