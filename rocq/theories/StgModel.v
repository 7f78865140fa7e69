(** Polynomials given as cells of operator sequences: mex_functions/import/read_opseq_polynomial.cpp (StagingMonomial, StagingPolynomial) and
    the vectors of operator numbers in them (mex_functions/utilities/read_as_vector.cpp:41-120).

    Arrays and numbers are those of PioModel.  [trunc16] is static_cast<int16_t> of a double (None: undefined), [scan16] is operator>> of a stringstream
    for int16_t (None: it fails).  [resolve] is OperatorSequence's constructor in the context, [n_ops] the number of operators of the context. *)
From Coq Require Import NArith ZArith Arith Bool Ascii String List.
From Verif Require Import CoreModel TextModel FieldModel SymModel PolyModel RawModel PioModel.
Import ListNotations.
Local Open Scope list_scope.
Local Open Scope nat_scope.

(** Errors: not a cell array; a term that cannot be read, named by its position; an operator out of range, named by the position of its term and its position
    in the sequence; a sequence without a symbol, named by the position of its term; undefined behaviour. *)
Inductive serr := SNotCell | SBadTerm (n : nat) | SBadOperator (n k : nat) | SNoSymbol (n : nat) | SUndefined.
Inductive sout (A : Type) := SOk (a : A) | SErr (e : serr).
Arguments SOk {A}. Arguments SErr {A}.
Definition sbind {A B} (x : sout A) (f : A -> sout B) : sout B := match x with SOk a => f a | SErr e => SErr e end.

Section Stg.
  Context {R : rfield}.
  Variable scan16 : text -> option Z.
  Variable trunc16 : R -> option Z.
  Variable of_z : Z -> R.

  (** static_cast<int16_t> of an integer: modulo 2^16; integer_types.h:41 has oper_name_t = int16_t *)
  Definition wrap16 (z : Z) : Z := ((z + 2 ^ 15) mod 2 ^ 16 - 2 ^ 15)%Z.
  (** element by element, with an error if one cannot be read *)
  Fixpoint each {A B} (f : A -> sout B) (l : list A) : sout (list B) :=
    match l with [] => SOk [] | a :: r => sbind (f a) (fun b => sbind (each f r) (fun bs => SOk (b :: bs))) end.
  (** IntVectorReaderVisitor<oper_name_t>, read_as_vector.cpp:41-120; int16_t is signed, so negative numbers pass here *)
  Definition read_vector (bad : serr) (a : marray R) : sout (list Z) :=
    match a with
    | MInts l => SOk (map wrap16 l)
    | MReals l => each (fun x => match trunc16 x with Some z => SOk z | None => SErr SUndefined end) l
    | MBools l => SOk (map (fun b : bool => if b then 1 else 0)%Z l)
    | MText l => each (fun t => match t with None => SErr bad | Some t => match scan16 t with Some z => SOk z | None => SErr bad end end) l
    | _ => SErr bad
    end.
  (** operators from 1 to operators from 0, read_opseq_polynomial.cpp:162-173 *)
  Definition from_one (bad : serr) (z : Z) : sout nat := if (z <? 1)%Z then SErr bad else SOk (Z.to_nat (z - 1)).
  (** read_as_complex_scalar inside the try block, read_opseq_polynomial.cpp:175-185 *)
  Definition term_factor (bad : serr) (a : marray R) : sout (cx R) := match scalar_factor of_z a with POk c => SOk c | PErr _ => SErr bad end.
  (** one element of the constructor's loop, read_opseq_polynomial.cpp:136-186 *)
  Definition read_term (index : nat) (a : marray R) : sout (list nat * cx R) :=
    let bad := SBadTerm (index + 1) in
    match a with
    | MCell [v] => sbind (read_vector bad v) (fun zs => sbind (each (from_one bad) zs) (fun w => SOk (w, c1)))
    | MCell [v; f] => sbind (read_vector bad v) (fun zs => sbind (each (from_one bad) zs) (fun w => sbind (term_factor bad f) (fun x => SOk (w, x))))
    | _ => SErr bad
    end.
  Fixpoint with_index {A B} (f : nat -> A -> sout B) (index : nat) (l : list A) : sout (list B) :=
    match l with [] => SOk [] | a :: r => sbind (f index a) (fun b => sbind (with_index f (S index) r) (fun bs => SOk (b :: bs))) end.
  (** StagingPolynomial's constructor, read_opseq_polynomial.cpp:116-187 *)
  Definition read_staging (a : marray R) : sout (list (list nat * cx R)) :=
    match a with MCell l => with_index read_term 0 l | _ => SErr SNotCell end.

  (** StagingMonomial with its sequence resolved; [s_id] is None for -1.  is_aliased is only ever read by any_aliases(), which nothing calls; it is left out. *)
  Record sterm := mk_sterm { s_seq : hseq; s_f : cx R; s_id : option nat; s_cj : bool }.
  Variable n_ops : nat.
  Variable resolve : list nat -> hseq.
  (** the first operator that is out of range *)
  Fixpoint bad_operator (k : nat) (w : list nat) : option nat :=
    match w with [] => None | o :: w' => if n_ops <=? o then Some k else bad_operator (S k) w' end.
  (** raw_to_resolved, read_opseq_polynomial.cpp:53-65 *)
  Definition resolve_term (index : nat) (x : list nat * cx R) : sout sterm :=
    match bad_operator 0 (fst x) with
    | Some k => SErr (SBadOperator (index + 1) (k + 1))
    | None => SOk (mk_sterm (resolve (fst x)) (snd x) None false)
    end.
  (** supply_context, read_opseq_polynomial.cpp:193-200 *)
  Definition supply_context (l : list (list nat * cx R)) : sout (list sterm) := with_index resolve_term 0 l.
  (** to_raw_polynomial, read_opseq_polynomial.cpp:202-215; emplace_back makes RawPolynomialElements, which move the phase to the weight *)
  Definition to_raw (l : list sterm) : list (hseq * cx R) := map (fun x => raw_elem (s_seq x) (s_f x)) l.

  Variable c : sctx.
  (** look_up_symbol_or_fail_quietly, read_opseq_polynomial.cpp:84-98 *)
  Definition look_up (t : table) (x : sterm) : sterm := mk_sterm (s_seq x) (s_f x) (lk_symbol (where_ c t (s_seq x))) (lk_conj (where_ c t (s_seq x))).
  Definition known (x : sterm) : bool := match s_id x with Some _ => true | None => false end.
  (** find_symbols(symbols, true), read_opseq_polynomial.cpp:218-232: the terms, and whether all symbols were found *)
  Definition find_quietly (t : table) (l : list sterm) : list sterm * bool := (map (look_up t) l, forallb known (map (look_up t) l)).
  (** find_symbols(symbols, false), read_opseq_polynomial.cpp:67-82 and 233-245 *)
  Definition look_up_or_throw (t : table) (index : nat) (x : sterm) : sout sterm :=
    if known (look_up t x) then SOk (look_up t x) else SErr (SNoSymbol (index + 1)).
  Definition find_symbols (t : table) (l : list sterm) : sout (list sterm) := with_index (look_up_or_throw t) 0 l.
  (** look_up_or_make_symbol, read_opseq_polynomial.cpp:100-113 *)
  Definition look_up_or_make (t : table) (x : sterm) : outcome sterm :=
    let w := where_ c t (s_seq x) in
    match lk_symbol w with
    | Some id => Done t (mk_sterm (s_seq x) (s_f x) (Some id) (lk_conj w))
    | None =>
      match merge_sequence c t (s_seq x) with
      | Done t1 id => Done t1 (mk_sterm (s_seq x) (s_f x) (Some id) (lk_conj w))
      | Throw t1 => Throw t1
      | Undef => Undef
      end
    end.
  (** the loop of find_or_register_symbols, read_opseq_polynomial.cpp:254-263: terms with a symbol are left alone *)
  Fixpoint register_loop (t : table) (l : list sterm) : outcome (list sterm) :=
    match l with
    | [] => Done t []
    | x :: r =>
      match (if known x then Done t x else look_up_or_make t x) with
      | Done t1 y => match register_loop t1 r with Done t2 ys => Done t2 (y :: ys) | Throw t2 => Throw t2 | Undef => Undef end
      | Throw t1 => Throw t1
      | Undef => Undef
      end
    end.
  (** find_or_register_symbols, read_opseq_polynomial.cpp:247-265; [ready] is symbols_resolved *)
  Definition find_or_register (t : table) (l : list sterm) (ready : bool) : outcome (list sterm) := if ready then Done t l else register_loop t l.
  (** to_polynomial, read_opseq_polynomial.cpp:267-277; None if a symbol was not resolved (the assertion) *)
  Definition term_of (x : sterm) : option (PolyModel.mono R) := option_map (fun id => PolyModel.mk_mono id (s_cj x) (s_f x)) (s_id x).
  Fixpoint terms_of (l : list sterm) : option (list (PolyModel.mono R)) :=
    match l with [] => Some [] | x :: r => match term_of x, terms_of r with Some y, Some ys => Some (y :: ys) | _, _ => None end end.
  Definition to_polynomial (t : table) (srt : list (PolyModel.mono R) -> list (PolyModel.mono R)) (l : list sterm) : option (list (PolyModel.mono R)) :=
    option_map (make_poly t srt) (terms_of l).
End Stg.
Arguments mk_sterm {R}. Arguments s_seq {R}. Arguments s_f {R}. Arguments s_id {R}. Arguments s_cj {R}.
