(** Monomials and polynomials: symbolic/monomial.h, monomial_comparator.h, monomial_comparator_by_hash.cpp, polynomial.{h,cpp},
    polynomial_factory.{h,cpp}, polynomial_ordering.h.  Coefficients are exact complex numbers over a real field, and every
    "approximately" test is exact. *)
From Coq Require Import List NArith ZArith Arith Bool.
From Verif Require Import CoreModel FieldModel SymModel.
Import ListNotations.

(** Monomial, monomial.h:47-50 *)
Record mono (R : rfield) := mk_mono { m_id : nat; m_cj : bool; m_f : cx R }.
Arguments mk_mono {R}. Arguments m_id {R}. Arguments m_cj {R}. Arguments m_f {R}.

Section Poly.
  Context {R : rfield}.
  Notation mono := (mono R).

  (** Monomial(int), monomial.h:63-68 *)
  Definition mono_signed (z : Z) (cj : bool) : mono := mk_mono (Z.abs_nat z) cj (if Z.ltb z 0 then copp c1 else c1).
  (** Monomial::approximately_equals, monomial.h:105-109 *)
  Definition mono_eqb (a b : mono) : bool :=
    Nat.eqb (m_id a) (m_id b) && (Nat.eqb (m_id a) 0 || (Bool.eqb (m_cj a) (m_cj b) && ceqb (m_f a) (m_f b))).
  (** LexEqComparator, polynomial.cpp:23-33 *)
  Definition same_term (a b : mono) : bool := Nat.eqb (m_id a) (m_id b) && Bool.eqb (m_cj a) (m_cj b).

  (** Comparators: IdLessComparator and IdMoreComparator, monomial_comparator.h:27-75 *)
  Definition cj_num (b : bool) : N := if b then 1%N else 0%N.
  Definition id_less (a b : mono) : bool :=
    if Nat.ltb (m_id a) (m_id b) then true else if Nat.ltb (m_id b) (m_id a) then false
    else if Bool.eqb (m_cj a) (m_cj b) then false else negb (m_cj a).
  Definition id_more (a b : mono) : bool :=
    if Nat.ltb (m_id b) (m_id a) then true else if Nat.ltb (m_id a) (m_id b) then false
    else if Bool.eqb (m_cj a) (m_cj b) then false else negb (m_cj a).
  Definition uint64_max : N := 18446744073709551615%N.
  Definition id_less_key (a : mono) : N * N := (N.of_nat (m_id a), cj_num (m_cj a)).
  Definition id_more_key (a : mono) : N * N := ((uint64_max - N.of_nat (m_id a))%N, cj_num (m_cj a)).
  (** std::pair's operator< *)
  Definition pair_less (x y : N * N) : bool :=
    (fst x <? fst y)%N || (negb (fst y <? fst x)%N && (snd x <? snd y)%N).
  (** CompareByOpHash, monomial_comparator_by_hash.cpp:20-35 *)
  Definition sym_of (t : table) (id : nat) : symbol := nth id (t_syms t) blank_symbol.
  Definition hash_key (t : table) (a : mono) : N * N :=
    match sy_seq (sym_of t (m_id a)) with
    | Some q => (hs_hash q, cj_num (m_cj a))
    | None => (uint64_max, (N.of_nat (m_id a) * 2 + cj_num (m_cj a))%N)
    end.
  Definition hash_less (t : table) (a b : mono) : bool := pair_less (hash_key t a) (hash_key t b).

  (** symbols[id].is_hermitian(), .is_antihermitian(): reading beyond the table is undefined; the theorems are about monomials
      whose symbols exist *)
  Definition herm (t : table) (id : nat) : bool := sy_herm (sym_of t id).
  Definition anti (t : table) (id : nat) : bool := sy_anti (sym_of t id).

  (** remove_duplicates, polynomial.cpp:50-75, on a list (called only for two or more terms) *)
  Definition set_f (a : mono) (f : cx R) : mono := mk_mono (m_id a) (m_cj a) f.
  Fixpoint dedup_from (lag : mono) (l : list mono) : list mono :=
    match l with
    | [] => [lag]
    | x :: l' => if same_term lag x then dedup_from (set_f lag (cadd (m_f lag) (m_f x))) l' else lag :: dedup_from x l'
    end.
  Definition remove_duplicates (l : list mono) : list mono := match l with [] => [] | x :: l' => dedup_from x l' end.
  (** remove_zeros, polynomial.cpp:77-100 *)
  Definition is_zero (f : cx R) : bool := ceqb f c0.
  Definition remove_zeros (l : list mono) : list mono := filter (fun x => negb (is_zero (m_f x) || Nat.eqb (m_id x) 0)) l.

  (** fix_cc_in_place, polynomial.cpp:155-180: new terms, and whether anything changed *)
  Definition fix_term (t : table) (x : mono) : mono :=
    let y := if herm t (m_id x) then mk_mono (m_id x) false (m_f x) else x in
    if anti t (m_id y) && m_cj y then mk_mono (m_id y) false (copp (m_f y)) else y.
  Definition fix_changes (t : table) (x : mono) : bool := m_cj x && (herm t (m_id x) || anti t (m_id x)).
  Definition fix_cc_in_place (t : table) (make_canonical : bool) (l : list mono) : list mono * bool :=
    let l' := map (fix_term t) l in
    let ch := existsb (fix_changes t) l in
    (if make_canonical && ch then remove_zeros (if Nat.ltb 1 (length l') then remove_duplicates l' else l') else l', ch).

  (** Constructors, polynomial.h:60-92.  [srt] is std::sort with the ordering. *)
  Definition tidy (srt : list mono -> list mono) (l : list mono) : list mono :=
    remove_zeros (if Nat.ltb 1 (length l) then remove_duplicates (srt l) else l).
  Definition make_plain (srt : list mono -> list mono) (l : list mono) : list mono := tidy srt l.
  (** ... and PolynomialFactoryImpl::operator(), polynomial_factory.h:135-138 *)
  Definition make_poly (t : table) (srt : list mono -> list mono) (l : list mono) : list mono :=
    tidy srt (fst (fix_cc_in_place t false l)).
  (** Polynomial(Monomial), polynomial.cpp:36-40 *)
  Definition poly_of_mono (x : mono) : list mono := if negb (Nat.eqb (m_id x) 0) && negb (is_zero (m_f x)) then [x] else [].
  (** Polynomial(std::map<symbol_name_t, double>), polynomial.cpp:42-47; the map's entries in order *)
  Definition poly_of_map (l : list (nat * R)) : list mono := map (fun x => mk_mono (fst x) false (creal (snd x))) l.
  (** operator Monomial, polynomial.cpp:109-123; [None] = logic_error *)
  Definition mono_of_poly (p : list mono) : option mono :=
    match p with [] => Some (mk_mono 0 false c1) | [x] => Some x | _ => None end.

  (** append, polynomial.h:246-303 *)
  Fixpoint merge_terms (lt : mono -> mono -> bool) (l : list mono) : list mono -> list mono :=
    fix inner (r : list mono) : list mono :=
      match l, r with
      | [], _ => r
      | _, [] => l
      | x :: l', y :: r' =>
          if lt x y then x :: merge_terms lt l' r
          else if lt y x then y :: inner r'
          else let s := cadd (m_f x) (m_f y) in
               if is_zero s then merge_terms lt l' r' else mk_mono (m_id x) (m_cj x) s :: merge_terms lt l' r'
      end.
  Definition append (lt : mono -> mono -> bool) (l r : list mono) : list mono :=
    match r, l with [], _ => l | _, [] => r | _, _ => merge_terms lt l r end.
  (** scale, polynomial.cpp:126-140 *)
  Definition scale (f : cx R) (p : list mono) : list mono :=
    if is_zero f then [] else if ceqb f c1 then p else map (fun x => set_f x (cmul (m_f x) f)) p.
  (** approximately_equals, polynomial.cpp:143-153 *)
  Fixpoint poly_eqb (p q : list mono) : bool :=
    match p, q with
    | [], [] => true
    | x :: p', y :: q' => mono_eqb x y && poly_eqb p' q'
    | _, _ => false
    end.

  (** PolynomialFactory::sum, polynomial_factory.cpp:96-113, 115-151, 153-195 *)
  Definition sum_mm (lt : mono -> mono -> bool) (a b : mono) : list mono :=
    if same_term a b then
      let f := cadd (m_f a) (m_f b) in if is_zero f then [] else poly_of_mono (mk_mono (m_id a) (m_cj a) f)
    else if lt a b then [a; b] else [b; a].
  Fixpoint sum_pm (lt : mono -> mono -> bool) (p : list mono) (b : mono) : list mono :=
    match p with
    | [] => [b]
    | x :: p' => if lt x b then x :: sum_pm lt p' b
                 else if same_term x b then
                   let f := cadd (m_f x) (m_f b) in if is_zero f then p' else mk_mono (m_id b) (m_cj b) f :: p'
                 else b :: x :: p'
    end.
  Definition sum_pp (lt : mono -> mono -> bool) (p q : list mono) : list mono := merge_terms lt p q.

  (** conjugate_in_place, polynomial.cpp:182-218 *)
  Definition conj_term (t : table) (x : mono) : mono :=
    if herm t (m_id x) then set_f x (cconj (m_f x))
    else if anti t (m_id x) then set_f x (copp (cconj (m_f x)))
    else mk_mono (m_id x) (negb (m_cj x)) (cconj (m_f x)).
  Fixpoint swap_pass (x : mono) (l : list mono) : list mono :=
    match l with
    | [] => [x]
    | y :: l' => if Nat.eqb (m_id x) (m_id y) && (m_cj x && negb (m_cj y)) then y :: swap_pass x l' else x :: swap_pass y l'
    end.
  Definition swap_all (l : list mono) : list mono := match l with [] => [] | x :: l' => swap_pass x l' end.
  Definition conjugate_poly (t : table) (p : list mono) : list mono :=
    let q := map (conj_term t) p in
    if existsb (fun x => negb (herm t (m_id x))) p && Nat.ltb 1 (length p) then swap_all q else q.

  (** is_hermitian and is_antihermitian, polynomial.cpp:221-365 ([last] = last_symbol) *)
  Definition is_real (f : cx R) : bool := r_eqb R (cim f) (r0 R).
  Definition is_imaginary (f : cx R) : bool := r_eqb R (cre f) (r0 R).
  Fixpoint herm_scan (t : table) (last : option mono) (p : list mono) : bool :=
    match p with
    | [] => match last with None => true | Some _ => false end
    | x :: p' =>
        if is_zero (m_f x) then herm_scan t last p'
        else if herm t (m_id x) then match last with Some _ => false | None => is_real (m_f x) && herm_scan t None p' end
        else if anti t (m_id x) then match last with Some _ => false | None => is_imaginary (m_f x) && herm_scan t None p' end
        else if m_cj x then match last with
               | None => false
               | Some y => Nat.eqb (m_id y) (m_id x) && (ceqb (m_f y) (cconj (m_f x)) && herm_scan t None p')
               end
        else match last with Some _ => false | None => herm_scan t (Some x) p' end
    end.
  Definition is_hermitian (t : table) (p : list mono) : bool := herm_scan t None p.
  Fixpoint anti_scan (t : table) (last : option mono) (p : list mono) : bool :=
    match p with
    | [] => match last with None => true | Some _ => false end
    | x :: p' =>
        if is_zero (m_f x) then anti_scan t last p'
        else if anti t (m_id x) then match last with Some _ => false | None => is_real (m_f x) && anti_scan t None p' end
        else if herm t (m_id x) then match last with Some _ => false | None => is_imaginary (m_f x) && anti_scan t None p' end
        else if m_cj x then match last with
               | None => false
               | Some y => Nat.eqb (m_id y) (m_id x) && (ceqb (m_f y) (copp (cconj (m_f x))) && anti_scan t None p')
               end
        else match last with Some _ => false | None => anti_scan t (Some x) p' end
    end.
  Definition is_antihermitian (t : table) (p : list mono) : bool := anti_scan t None p.
  (** is_conjugate, polynomial.cpp:367-410 *)
  Definition conj_pair (t : table) (x y : mono) : bool :=
    Nat.eqb (m_id x) (m_id y) &&
    (Nat.eqb (m_id x) 0 ||
     (if herm t (m_id x) then ceqb (m_f x) (cconj (m_f y))
      else if anti t (m_id x) then
        if ceqb (m_f x) (cconj (m_f y)) then negb (Bool.eqb (m_cj x) (m_cj y))
        else if ceqb (m_f x) (copp (cconj (m_f y))) then Bool.eqb (m_cj x) (m_cj y)
        else false
      else true)).
  Fixpoint is_conjugate (t : table) (p q : list mono) : bool :=
    match p, q with
    | [], [] => true
    | x :: p', y :: q' => conj_pair t x y && is_conjugate t p' q'
    | _, _ => false
    end.
  (** real_factors, polynomial.h:331-335 *)
  Definition real_factors (p : list mono) : bool := forallb (fun x => is_real (m_f x)) p.

  (** Real and Imaginary, polynomial.cpp:412-523 *)
  Definition half : cx R := creal (rinv R (radd R (r1 R) (r1 R))).
  Definition put (id : nat) (cj : bool) (f : cx R) : list mono := if is_zero f then [] else [mk_mono id cj f].
  Fixpoint real_terms (p : list mono) : list mono :=
    match p with
    | [] => []
    | x :: p' =>
        if m_cj x then put (m_id x) false (cmul half (cconj (m_f x))) ++ put (m_id x) true (cmul half (m_f x)) ++ real_terms p'
        else match p' with
             | y :: p'' =>
                 if Nat.eqb (m_id x) (m_id y) then
                   put (m_id x) false (cmul half (cadd (m_f x) (cconj (m_f y)))) ++
                   put (m_id x) true (cmul half (cadd (cconj (m_f x)) (m_f y))) ++ real_terms p''
                 else put (m_id x) false (cmul half (m_f x)) ++ put (m_id x) true (cmul half (cconj (m_f x))) ++ real_terms p'
             | [] => put (m_id x) false (cmul half (m_f x)) ++ put (m_id x) true (cmul half (cconj (m_f x)))
             end
    end.
  Definition ihalf : cx R := cmul ci half.          (* {0, 0.5} *)
  Definition mihalf : cx R := copp ihalf.           (* {0, -0.5} *)
  Fixpoint imag_terms (p : list mono) : list mono :=
    match p with
    | [] => []
    | x :: p' =>
        if m_cj x then put (m_id x) false (cmul ihalf (cconj (m_f x))) ++ put (m_id x) true (cmul mihalf (m_f x)) ++ imag_terms p'
        else match p' with
             | y :: p'' =>
                 if Nat.eqb (m_id x) (m_id y) then
                   put (m_id x) false (cmul mihalf (csub (m_f x) (cconj (m_f y)))) ++
                   put (m_id x) true (cmul ihalf (csub (cconj (m_f x)) (m_f y))) ++ imag_terms p''
                 else put (m_id x) false (cmul mihalf (m_f x)) ++ put (m_id x) true (cmul ihalf (cconj (m_f x))) ++ imag_terms p'
             | [] => put (m_id x) false (cmul mihalf (m_f x)) ++ put (m_id x) true (cmul ihalf (cconj (m_f x)))
             end
    end.
  Definition real_part (t : table) (srt : list mono -> list mono) (p : list mono) : list mono :=
    match p with [] => [] | _ => make_poly t srt (real_terms p) end.
  Definition imag_part (t : table) (srt : list mono -> list mono) (p : list mono) : list mono :=
    match p with [] => [] | _ => make_poly t srt (imag_terms p) end.

  (** PolynomialFactory::maximum_degree, polynomial_factory.cpp:197-209 *)
  Definition degree_of (t : table) (x : mono) : nat :=
    if Nat.ltb 1 (m_id x) then match sy_seq (sym_of t (m_id x)) with Some q => length (hs_ops q) | None => 0 end else 0.
  Definition maximum_degree (t : table) (p : list mono) : nat := fold_left (fun a x => Nat.max (degree_of t x) a) p 0.
  (** ByHashPolynomialFactory::maximum_degree, monomial_comparator_by_hash.cpp:37-55: rev_iter is never advanced.  [None] = the
      loop does not end. *)
  Definition maximum_degree_by_hash (t : table) (p : list mono) : option nat :=
    match rev p with
    | [] => Some 0
    | x :: _ => if Nat.leb (m_id x) 1 then Some 0
                else match sy_seq (sym_of t (m_id x)) with Some q => Some (length (hs_ops q)) | None => None end
    end.

  (** PolynomialFactory::presort_data, polynomial_factory.cpp:26-47: data and sort order; [srt] is std::stable_sort of indices.
      Out of range reads cannot happen: the indices are 0..size-1. *)
  Definition sortedb (l : list nat) : bool := forallb (fun x => Nat.leb (fst x) (snd x)) (combine l (tl l)).
  Definition presort_data (srt : (nat -> nat -> bool) -> list nat -> list nat) (lt : mono -> mono -> bool) (l : list mono)
    : list mono * list nat :=
    let d := mk_mono 0 false c0 in
    let order := srt (fun i j => lt (nth i l d) (nth j l d)) (seq 0 (length l)) in
    (if sortedb order then l else map (fun i => nth i l d) order, order).

  (** PolynomialOrderingBase::operator(), polynomial_ordering.h:45-73: compares from the last term down *)
  Fixpoint scan_less (cmp : mono -> mono -> Z) (p q : list mono) : bool :=
    match p, q with
    | x :: p', y :: q' => if Z.eqb (cmp x y) 1 then true else if Z.eqb (cmp x y) (-1) then false else scan_less cmp p' q'
    | [], _ :: _ => true
    | _, [] => false
    end.
  Definition poly_less (cmp : mono -> mono -> Z) (p q : list mono) : bool := scan_less cmp (rev p) (rev q).
  (** CompareMonomialWithoutCoefficients, polynomial_ordering.h:76-87 *)
  Definition cmp_terms (lt : mono -> mono -> bool) (x y : mono) : Z :=
    if lt x y then 1%Z else if lt y x then (-1)%Z else 0%Z.
  (** CompareMonomialWithCoefficients, polynomial_ordering.h:89-106.  [rcmp a b] is -1, 0, +1 for a < b, a = b, a > b
      (approximately_compare, float_utils.h:97-102) *)
  Definition cmp_coefs (rcmp : R -> R -> Z) (lt : mono -> mono -> bool) (x y : mono) : Z :=
    if lt x y then 1%Z else if lt y x then (-1)%Z
    else let r := rcmp (cre (m_f y)) (cre (m_f x)) in
         if Z.eqb r 0 then rcmp (cim (m_f y)) (cim (m_f x)) else r.

  (** * From operator polynomials *)
  (** make_storage_data_from_raw, polynomial_factory.cpp:50-63; [None] = unregistered_operator_sequence *)
  Fixpoint storage_from_raw (c : sctx) (t : table) (raw : list (hseq * cx R)) : option (list mono) :=
    match raw with
    | [] => Some []
    | (q, w) :: raw' =>
        match lk_symbol (where_ c t q) with
        | None => None
        | Some id => option_map (cons (mk_mono id (lk_conj (where_ c t q)) w)) (storage_from_raw c t raw')
        end
    end.
  Definition construct_raw (c : sctx) (t : table) (srt : list mono -> list mono) (raw : list (hseq * cx R)) : option (list mono) :=
    option_map (make_poly t srt) (storage_from_raw c t raw).
  (** register_and_make_storage_data_from_raw, polynomial_factory.cpp:65-83 *)
  Fixpoint register_from_raw (c : sctx) (t : table) (raw : list (hseq * cx R)) : outcome (list mono) :=
    match raw with
    | [] => Done t []
    | (q, w) :: raw' =>
        match lk_symbol (where_ c t q) with
        | Some id =>
            match register_from_raw c t raw' with
            | Done t' l => Done t' (mk_mono id (lk_conj (where_ c t q)) w :: l) | Throw t' => Throw t' | Undef => Undef
            end
        | None =>
            match merge_sequence c t q with
            | Done t1 _ =>
                match lk_symbol (where_ c t1 q) with
                | Some id =>
                    match register_from_raw c t1 raw' with
                    | Done t' l => Done t' (mk_mono id (lk_conj (where_ c t1 q)) w :: l) | Throw t' => Throw t' | Undef => Undef
                    end
                | None => Undef (* the iterator of a failed search is dereferenced *)
                end
            | Throw t' => Throw t'
            | Undef => Undef
            end
        end
    end.
  Definition register_construct (c : sctx) (t : table) (srt : list mono -> list mono) (raw : list (hseq * cx R)) : outcome (list mono) :=
    match register_from_raw c t raw with Done t' l => Done t' (make_poly t' srt l) | Throw t' => Throw t' | Undef => Undef end.
End Poly.

(** approximately_compare, float_utils.h:32-35, 97-102, in exact rational arithmetic with relative tolerance [eps] *)
From Coq Require Import QArith Qabs Qminmax Qcanon.
Definition approx_cmp (eps x y : Q) : Z :=
  if Qle_bool (Qabs (x - y)) (eps * Qmax (Qabs x) (Qabs y)) then 0%Z
  else match (x ?= y)%Q with Lt => (-1)%Z | _ => 1%Z end.
