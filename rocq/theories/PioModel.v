(** Polynomials given by, and returned to, MATLAB: mex_functions/import/read_polynomial.cpp, mex_functions/utilities/read_as_scalar.cpp,
    mex_functions/export/export_polynomial.cpp.

    Numbers are exact ([R] for double).  [scan] and [scanb] are operator>> of a stringstream for uint64_t and bool (None: it fails);
    [negb_r] is < 0 for doubles; [trunc] is static_cast<uint64_t> of a double that is not negative (None: undefined); [of_z] converts integers to doubles;
    [stod] is std::stod.  Texts are plain ASCII. *)
From Coq Require Import NArith ZArith Arith Bool Ascii String List.
From Verif Require Import TextModel FieldModel SymModel PolyModel MonModel.
Import ListNotations.
Local Open Scope list_scope.

(** matlab::data::Array, as far as visitor.h tells the types apart: cells, strings (each may be missing), integers of all widths, doubles and
    singles, complex numbers, logicals, anything else.  Only the sequence of elements matters here. *)
Inductive marray (R : rfield) :=
| MCell (l : list (marray R)) | MText (l : list (option text)) | MInts (l : list Z) | MReals (l : list R) | MCplx (l : list (cx R))
| MBools (l : list bool) | MOther.
Arguments MCell {R}. Arguments MText {R}. Arguments MInts {R}. Arguments MReals {R}. Arguments MCplx {R}. Arguments MBools {R}. Arguments MOther {R}.
(** Errors: not a cell or string array; an element named by its position (from 1); a number inside an element that cannot be read (the exception
    of read_as_scalar.cpp does not say where); an unknown symbol in an element named by its position; and undefined behaviour. *)
Inductive perr := NotPolynomial | BadElement (n : nat) | BadScalar | OutOfRange (n : nat) | UndefinedCast.
Inductive pout (A : Type) := POk (a : A) | PErr (e : perr).
Arguments POk {A}. Arguments PErr {A}.
Definition pbind {A B} (x : pout A) (f : A -> pout B) : pout B := match x with POk a => f a | PErr e => PErr e end.
(** raw_sc_data, import/read_polynomial.h *)
Record raw (R : rfield) := mk_raw { ra_id : N; ra_f : cx R; ra_cj : bool }.
Arguments mk_raw {R}. Arguments ra_id {R}. Arguments ra_f {R}. Arguments ra_cj {R}.

Section Pio.
  Context {R : rfield}.
  Variable scan : text -> option N.
  Variable scanb : text -> option bool.
  Variable negb_r : R -> bool.
  Variable trunc : R -> option N.
  Variable of_z : Z -> R.
  Variable stod : text -> option (R * nat).

  Definition or_bad {A} (x : option A) : pout A := match x with Some a => POk a | None => PErr BadScalar end.
  (** the first character is a minus, read_as_scalar.cpp:103-107 *)
  Definition leads_minus (t : text) : bool := match t with c :: _ => Ascii.eqb c "-" | [] => false end.
  (** IntReaderVisitor<uint64_t>, read_as_scalar.cpp:46-125: one element, not negative, then cast *)
  Definition scalar_id (a : marray R) : pout N :=
    match a with
    | MInts [z] => if (z <? 0)%Z then PErr BadScalar else POk (Z.to_N z)
    | MReals [x] => if negb_r x then PErr BadScalar else match trunc x with Some n => POk n | None => PErr UndefinedCast end
    | MBools [b] => POk (if b then 1 else 0)%N
    | MText [Some t] => if leads_minus t then PErr BadScalar else or_bad (scan t)
    | _ => PErr BadScalar
    end.
  (** IntReaderVisitor<bool>, the same with bool as the (unsigned) type *)
  Definition scalar_flag (a : marray R) : pout bool :=
    match a with
    | MInts [z] => if (z <? 0)%Z then PErr BadScalar else POk (negb (z =? 0)%Z)
    | MReals [x] => if negb_r x then PErr BadScalar else POk (negb (r_eqb R x (r0 R)))
    | MBools [b] => POk b
    | MText [Some t] => if leads_minus t then PErr BadScalar else or_bad (scanb t)
    | _ => PErr BadScalar
    end.
  (** ComplexReaderVisitor<double>, read_as_scalar.cpp:181-210 *)
  Definition scalar_factor (a : marray R) : pout (cx R) :=
    match a with
    | MInts [z] => POk (creal (of_z z))
    | MReals [x] => POk (creal x)
    | MCplx [c] => POk c
    | MBools [b] => POk (if b then c1 else c0)
    | _ => PErr BadScalar
    end.

  (** read_raw_monomial_cell, read_polynomial.cpp:21-46; [here] is the error for a wrong number of elements *)
  Definition read_monomial_cell (here : perr) (l : list (marray R)) : pout (raw R) :=
    match l with
    | [i] => pbind (scalar_id i) (fun n => POk (mk_raw n c1 false))
    | [i; f] => pbind (scalar_id i) (fun n => pbind (scalar_factor f) (fun x => POk (mk_raw n x false)))
    | [i; f; c] => pbind (scalar_id i) (fun n => pbind (scalar_factor f) (fun x => pbind (scalar_flag c) (fun b => POk (mk_raw n x b))))
    | _ => PErr here
    end.
  (** read_raw_monomial_string, read_polynomial.cpp:48-68 *)
  Definition read_monomial_string (here : perr) (t : option text) : pout (raw R) :=
    match t with
    | None => POk (mk_raw 0 c0 false)
    | Some t =>
      match parse (K:=R) (r0 R) (r1 R) (ropp R) stod t with
      | MRead m => POk (mk_raw (mo_id m) (mk_cx (mo_re m) (mo_im m)) (mo_conj m))
      | MBad => PErr here
      | MUndef => PErr UndefinedCast
      end
    end.
  (** read_raw_monomial, read_polynomial.cpp:70-97 *)
  Definition read_monomial (a : marray R) : pout (raw R) :=
    match a with
    | MCell l => read_monomial_cell NotPolynomial l
    | MText [] => POk (mk_raw 0 c0 false)
    | MText [t] => read_monomial_string NotPolynomial t
    | _ => PErr NotPolynomial
    end.
  (** one element of read_raw_polynomial_data_cell, read_polynomial.cpp:112-122 *)
  Definition read_element (index : nat) (a : marray R) : pout (raw R) :=
    match a with MCell l => read_monomial_cell (BadElement (index + 1)) l | _ => PErr (BadElement (index + 1)) end.
  (** the loops of read_polynomial.cpp:110-122 and 137-143 *)
  Fixpoint read_all {A} (rd : nat -> A -> pout (raw R)) (index : nat) (l : list A) : pout (list (raw R)) :=
    match l with
    | [] => POk []
    | a :: r => pbind (rd index a) (fun x => pbind (read_all rd (S index) r) (fun xs => POk (x :: xs)))
    end.
  (** read_raw_polynomial_data, read_polynomial.cpp:149-169 *)
  Definition read_raw (a : marray R) : pout (list (raw R)) :=
    match a with
    | MCell l => read_all read_element 0 l
    | MText l => read_all (fun index t => read_monomial_string (BadElement (index + 1)) t) 0 l
    | _ => PErr NotPolynomial
    end.
  (** check_raw_polynomial_data, read_polynomial.cpp:171-184: idx is incremented after the loop, not in it *)
  Fixpoint check_raw (size : nat) (idx : nat) (l : list (raw R)) : option perr :=
    match l with
    | [] => None
    | x :: r => if (N.of_nat size <=? ra_id x)%N then Some (OutOfRange (idx + 1)) else check_raw size idx r
    end.
  Definition of_raw (x : raw R) : PolyModel.mono R := PolyModel.mk_mono (N.to_nat (ra_id x)) (ra_cj x) (ra_f x).
  (** raw_data_to_polynomial, read_polynomial.cpp:186-196 *)
  Definition to_poly (t : table) (srt : list (PolyModel.mono R) -> list (PolyModel.mono R)) (l : list (raw R)) : pout (list (PolyModel.mono R)) :=
    match check_raw (List.length (t_syms t)) 0 l with Some e => PErr e | None => POk (make_poly t srt (map of_raw l)) end.
  (** a polynomial given by the user: as read_raw and to_poly are used together, e.g. read_polynomial callers in functions/ *)
  Definition import_poly (t : table) srt (a : marray R) : pout (list (PolyModel.mono R)) := pbind (read_raw a) (to_poly t srt).

  (** PolynomialExporter::symbol_cell, export_polynomial.cpp:61-101 (approximately_real is exact) *)
  Definition export_term (x : PolyModel.mono R) : marray R :=
    MCell ([MInts [Z.of_nat (m_id x)]; if r_eqb R (cim (m_f x)) (r0 R) then MReals [cre (m_f x)] else MCplx [m_f x]] ++
           (if m_cj x then [MBools [true]] else [])).
  Definition export_poly (p : list (PolyModel.mono R)) : marray R := MCell (map export_term p).
  Definition export_mono (x : PolyModel.mono R) : marray R := MCell [export_term x].
End Pio.
