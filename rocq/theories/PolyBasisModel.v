(** Polynomials as vectors over the real and imaginary basis: symbolic/polynomial_to_basis.{h,cpp},
    polynomial_to_basis_mask.cpp.  Sparse vectors are lists of (index, value) in the order of insertion; real numbers are
    elements of the field, "approximately zero" is zero. *)
From Coq Require Import List NArith ZArith Arith Bool.
From Verif Require Import CoreModel FieldModel SymModel PolyModel.
Import ListNotations.

Section Basis.
  Context {R : rfield}.
  Notation mono := (mono R).
  (** the loop over terms with factor_and_cc, polynomial_to_basis.cpp:22-39, 130-176, 204-260: symbol, factor of X, factor of X* *)
  Fixpoint paired (p : list mono) : list (nat * (cx R * cx R)) :=
    match p with
    | [] => []
    | x :: p' =>
        if m_cj x then (m_id x, (c0, m_f x)) :: paired p'
        else match p' with
             | y :: p'' => if Nat.eqb (m_id y) (m_id x) then (m_id x, (m_f x, m_f y)) :: paired p'' else (m_id x, (m_f x, c0)) :: paired p'
             | [] => [(m_id x, (m_f x, c0))]
             end
    end.
  (** unknown_symbol is thrown if a symbol is beyond the table, 132-134, 206-208, 337-339, 403-405.  [None] = thrown *)
  Definition known (t : table) (l : list (nat * (cx R * cx R))) : bool := forallb (fun x => Nat.ltb (fst x) (length (t_syms t))) l.
  (** 141-144, 215-218, 315-318 *)
  Definition az_ax (f c : cx R) : R := radd R (cre f) (cre c).
  Definition az_bx (f c : cx R) : R := radd R (ropp R (cim f)) (cim c).
  Definition bz_ax (f c : cx R) : R := radd R (cim f) (cim c).
  Definition bz_bx (f c : cx R) : R := rsub R (cre f) (cre c).
  (** write [v] at a basis index if there is one and [test] is not zero *)
  Definition entry {A} (zero : A -> bool) (k : option nat) (test v : A) : list (nat * A) :=
    match k with Some k => if zero test then [] else [(k, v)] | None => [] end.
  Definition rzero (x : R) : bool := r_eqb R x (r0 R).
  Definition spread {A} (f : nat -> cx R -> cx R -> list A) (l : list (nat * (cx R * cx R))) : list A :=
    flat_map (fun x => f (fst x) (fst (snd x)) (snd (snd x))) l.
  Definition re_index (t : table) (id : nat) : option nat := sy_re (sym_of t id).
  Definition im_index (t : table) (id : nat) : option nat := sy_im (sym_of t id).

  (** RealBasisVector, RealAndImaginaryBasisVector, polynomial_to_basis.h:28-44 *)
  Record basis_vec (A : Type) := mk_bv { bv_real : list (nat * A); bv_imag : list (nat * A) }.
  Arguments mk_bv {A}. Arguments bv_real {A}. Arguments bv_imag {A}.
  (** do_polynomial_to_basis_vec, polynomial_to_basis.cpp:190-272, the real half (224-228, 242-246) ... *)
  Definition real_vec (t : table) (p : list mono) : option (basis_vec R) :=
    let l := paired p in
    if known t l then
      Some (mk_bv (spread (fun id f c => entry rzero (re_index t id) (az_ax f c) (az_ax f c)) l)
                  (spread (fun id f c => entry rzero (im_index t id) (az_bx f c) (az_bx f c)) l))
    else None.
  (** ... and the imaginary half (231-235, 249-253); line 233 writes az_factor_ax where it tests bz_factor_ax *)
  Definition imaginary_vec (t : table) (p : list mono) : option (basis_vec R) :=
    let l := paired p in
    if known t l then
      Some (mk_bv (spread (fun id f c => entry rzero (re_index t id) (bz_ax f c) (az_ax f c)) l)
                  (spread (fun id f c => entry rzero (im_index t id) (bz_bx f c) (bz_bx f c)) l))
    else None.
  (** operator(), Real, Imaginary, 275-294 *)
  Definition basis_vec_both (t : table) (p : list mono) : option (basis_vec R * basis_vec R) :=
    match real_vec t p, imaginary_vec t p with Some a, Some b => Some (a, b) | _, _ => None end.
  (** ComplexBasisVector(RealAndImaginaryBasisVector), polynomial_to_basis.h:56-61; sums of sparse vectors are concatenated *)
  Definition cscale (z : cx R) (l : list (nat * R)) : list (nat * cx R) := map (fun x => (fst x, cmul z (creal (snd x)))) l.
  Definition complex_of_pair (v : basis_vec R * basis_vec R) : basis_vec (cx R) :=
    mk_bv (cscale ci (bv_real (fst v)) ++ cscale ci (bv_real (snd v))) (cscale c1 (bv_imag (fst v)) ++ cscale ci (bv_imag (snd v))).

  (** PolynomialToComplexBasisVec, 313-373 *)
  Definition z_ax (f c : cx R) : cx R := mk_cx (az_ax f c) (bz_ax f c).
  Definition z_bx (f c : cx R) : cx R := mk_cx (az_bx f c) (bz_bx f c).
  Definition complex_vec (t : table) (p : list mono) : option (basis_vec (cx R)) :=
    let l := paired p in
    if known t l then
      Some (mk_bv (spread (fun id f c => entry is_zero (re_index t id) (z_ax f c) (z_ax f c)) l)
                  (spread (fun id f c => entry is_zero (im_index t id) (z_bx f c) (z_bx f c)) l))
    else None.
  (** ... of a span of polynomials, 385-445: triplets (row, column, value); [srt] is std::sort by row of one column's part *)
  Notation triplet := (nat * nat * cx R)%type.
  Fixpoint monolith (t : table) (srt : list triplet -> list triplet) (col : nat) (ps : list (list mono)) : option (list triplet * list triplet) :=
    match ps with
    | [] => Some ([], [])
    | p :: ps' =>
        match complex_vec t p, monolith t srt (S col) ps' with
        | Some v, Some (a, b) =>
            Some (srt (map (fun x => (fst x, col, snd x)) (bv_real v)) ++ a, srt (map (fun x => (fst x, col, snd x)) (bv_imag v)) ++ b)
        | _, _ => None
        end
    end.

  (** do_polynomial_to_triplets, 119-177: rows for the real and for the imaginary part of Z, if wanted; columns: real basis, then
      imaginary basis *)
  Notation rtriplet := (nat * nat * R)%type.
  Definition row_entry (row : option nat) (offset : nat) (col : option nat) (coff : nat) (v : R) : list rtriplet :=
    match row, col with Some r, Some c => if rzero v then [] else [(r + offset, c + coff, v)] | _, _ => [] end.
  Definition triplets (t : table) (merge : bool) (zre zim : option nat) (p : list mono) : option (list rtriplet * list rtriplet) :=
    let l := paired p in
    let off := length (t_real t) in
    let ro := if merge then off else 0 in
    if known t l then
      Some (spread (fun id f c => row_entry zre 0 (re_index t id) 0 (az_ax f c) ++ row_entry zre 0 (im_index t id) off (az_bx f c)) l,
            spread (fun id f c => row_entry zim ro (re_index t id) 0 (bz_ax f c) ++ row_entry zim ro (im_index t id) off (bz_bx f c)) l)
    else None.

  (** zip_basis, 43-83: a map from symbols to pairs of numbers; [None] = unknown_basis_elem.  (The map iterates in order of
      symbols; here in order of insertion.  The result is sorted afterwards.) *)
  Fixpoint zfind (id : nat) (z : list (nat * (cx R * cx R))) : option (cx R * cx R) :=
    match z with [] => None | (k, w) :: z' => if Nat.eqb k id then Some w else zfind id z' end.
  Fixpoint zset_im (id : nat) (w : cx R) (z : list (nat * (cx R * cx R))) : list (nat * (cx R * cx R)) :=
    match z with [] => [] | (k, (a, b)) :: z' => if Nat.eqb k id then (k, (a, w)) :: z' else (k, (a, b)) :: zset_im id w z' end.
  Fixpoint zip_real (t : table) (l : list (nat * cx R)) (z : list (nat * (cx R * cx R))) : option (list (nat * (cx R * cx R))) :=
    match l with
    | [] => Some z
    | (k, w) :: l' =>
        match nth_error (t_real t) k with
        | None => None
        | Some i => let id := sy_id (sym_of t i) in
                    zip_real t l' (match zfind id z with Some _ => z | None => z ++ [(id, (w, c0))] end)
        end
    end.
  Fixpoint zip_imag (t : table) (l : list (nat * cx R)) (z : list (nat * (cx R * cx R))) : option (list (nat * (cx R * cx R))) :=
    match l with
    | [] => Some z
    | (k, w) :: l' =>
        match nth_error (t_imag t) k with
        | None => None
        | Some i => let id := sy_id (sym_of t i) in
                    zip_imag t l' (match zfind id z with Some _ => zset_im id w z | None => z ++ [(id, (c0, w))] end)
        end
    end.
  (** do_basis_vec_to_polynomial, 85-117 *)
  Definition unzip (t : table) (x : nat * (cx R * cx R)) : list mono :=
    let (id, w) := x in
    if herm t id then [mk_mono id false (fst w)]
    else if anti t id then [mk_mono id false (snd w)]
    else put id false (cmul half (cadd (fst w) (snd w))) ++ put id true (cmul half (csub (fst w) (snd w))).
  Definition basis_to_poly (t : table) (srt : list mono -> list mono) (re im : list (nat * cx R)) : option (list mono) :=
    match zip_real t re [] with
    | None => None
    | Some z => match zip_imag t im z with
                | None => None
                | Some z' => Some (make_poly t srt (flat_map (unzip t) z'))
                end
    end.
  (** BasisVecToPolynomial on real vectors, 375-378 *)
  Definition real_vector (l : list (nat * R)) : list (nat * cx R) := map (fun x => (fst x, creal (snd x))) l.

  (** PolynomialToBasisMask::set_bits(Polynomial), polynomial_to_basis_mask.cpp:19-88: the indices set in the two masks.  [nonneg]
      is ">= 0". *)
  Fixpoint mask (t : table) (nonneg : R -> bool) (p : list mono) : list nat * list nat :=
    let plus r i m := (r ++ fst m, i ++ snd m) in
    match p with
    | [] => ([], [])
    | x :: p' =>
        match re_index t (m_id x), im_index t (m_id x) with
        | None, None => mask t nonneg p'
        | None, Some k => plus [] [k] (mask t nonneg p')
        | Some k, None => plus [k] [] (mask t nonneg p')
        | Some kr, Some ki =>
            match p' with
            | y :: p'' =>
                if Nat.eqb (m_id y) (m_id x) then
                  if r_eqb R (cnorm (m_f y)) (cnorm (m_f x)) then
                    if is_zero (m_f y) then mask t nonneg p''
                    else let ratio := cmul (m_f x) (cinv (m_f y)) in
                         if negb (is_real ratio) then plus [kr] [ki] (mask t nonneg p'')
                         else if nonneg (cre ratio) then plus [kr] [] (mask t nonneg p'') else plus [] [ki] (mask t nonneg p'')
                  else plus [kr] [ki] (mask t nonneg p'')
                else plus [kr] [ki] (mask t nonneg p')
            | [] => ([kr], [ki])
            end
        end
    end.
  (** set_bits(Monomial), 91-108: index 0 is never set *)
  Definition mask_mono (t : table) (x : mono) : list nat * list nat :=
    if Nat.eqb (m_id x) 0 || is_zero (m_f x) then ([], [])
    else (match re_index t (m_id x) with Some k => if Nat.ltb 0 k then [k] else [] | None => [] end,
          match im_index t (m_id x) with Some k => if Nat.ltb 0 k then [k] else [] | None => [] end).
End Basis.
Arguments mk_bv {A}. Arguments bv_real {A}. Arguments bv_imag {A}.
