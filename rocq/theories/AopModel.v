(** Algebra on arrays of polynomials: mex_functions/functions/algebraic/{binary_operation.cpp, binary_operation.h, binary_operation_impl.h, plus.cpp,
    multiply.cpp, commutator.cpp} and mex_functions/import/algebraic_operand.cpp.

    Operands are taken as read: how one polynomial is read is modelled in PioModel and StgModel.  Numbers are exact, tolerances zero.  Operations in which a matrix
    takes part end here with AMatrix; matrix arithmetic is AriModel. *)
From Coq Require Import List NArith Arith Bool.
From Verif Require Import CoreModel FieldModel SymModel PolyModel AlgModel PauliModel RawModel.
Import ListNotations.
Local Open Scope list_scope.
Local Open Scope nat_scope.

Section Aop.
  Context {R : rfield}.
  Notation raw := (list (hseq * cx R)).
  (** The variant [raw] of AlgebraicOperand, algebraic_operand.h: polynomials of symbols, of operator sequences, and numbers *)
  Inductive entries := ESymbols (l : list (list (mono R))) | EOps (l : list raw) | ENumbers (complex : bool) (l : list (cx R)).
  (** A MATLAB array given as operand: an integer, an empty cell, or a shape with entries; anything else *)
  Inductive given := GInteger (id : nat) | GEmpty | GArray (shape : list nat) (e : entries) | GOther.
  (** InputType, algebraic_operand.h *)
  Inductive kind := KUnknown | KEmpty | KMatrix | KMonomial | KMonomials | KPolynomial | KPolynomials | KReal | KReals | KComplex | KComplexes.
  (** Errors: a parameter is refused; an exception called internal; a symbol without a word; multiplication fails.  AMatrix: see above. *)
  Inductive aerr := ABad | AInternal | ANoWord | AFail.
  Inductive aout (A : Type) := AOk (a : A) | AErr (e : aerr) | AMatrix.
  Arguments AOk {A}. Arguments AErr {A}. Arguments AMatrix {A}.
  Definition abind {A B} (x : aout A) (f : A -> aout B) : aout B := match x with AOk a => f a | AErr e => AErr e | AMatrix => AMatrix end.
  Definition size (e : entries) : nat := match e with ESymbols l => length l | EOps l => length l | ENumbers _ l => length l end.
  Definition one_term {A} (p : list A) : bool := length p =? 1.
  (** parse_input, algebraic_operand.cpp:22-56, with infer_type_from_valid_cell, 184-211, and parse_as_numeric_data, 66-101 *)
  Definition kind_of (g : given) : aout kind :=
    match g with
    | GInteger _ => AOk KMatrix
    | GEmpty => AOk KEmpty
    | GOther => AErr ABad
    | GArray shape (ENumbers complex l) =>
        if negb (length shape =? 2) then AErr ABad
        else AOk (if length l =? 1 then if complex then KComplex else KReal else if complex then KComplexes else KReals)
    | GArray _ (ESymbols l) => AOk (if forallb one_term l then if length l =? 1 then KMonomial else KMonomials else if length l =? 1 then KPolynomial else KPolynomials)
    | GArray _ (EOps l) => AOk (if forallb one_term l then if length l =? 1 then KMonomial else KMonomials else if length l =? 1 then KPolynomial else KPolynomials)
    end.
  Definition shape_of (g : given) : list nat := match g with GArray s _ => s | _ => [0; 0] end.
  (** ProductType, binary_operation.h:33-52 *)
  Inductive product := PIncompatible | PMismatched | POneToOne | POneToMany | PManyToOne | PManyToMany | POneToMatrix | PMatrixToOne | PMatrixToMatrix.
  Fixpoint same_shape (a b : list nat) : bool := match a, b with [], [] => true | x :: a', y :: b' => (x =? y) && same_shape a' b' | _, _ => false end.
  (** determine_product_type, binary_operation.cpp:50-151 *)
  Definition product_type (lk : kind) (ls : list nat) (rk : kind) (rs : list nat) : product :=
    match lk with
    | KMatrix =>
        match rk with
        | KUnknown => PIncompatible
        | KEmpty | KMonomial | KPolynomial | KReal | KComplex => PMatrixToOne
        | KMatrix => PMatrixToMatrix
        | KMonomials | KPolynomials | KReals | KComplexes => PIncompatible
        end
    | KEmpty | KMonomial | KPolynomial | KReal | KComplex =>
        match rk with
        | KUnknown => PIncompatible
        | KEmpty | KMonomial | KPolynomial | KReal | KComplex => POneToOne
        | KMatrix => POneToMatrix
        | KMonomials | KPolynomials | KReals | KComplexes => POneToMany
        end
    | KMonomials | KPolynomials | KReals | KComplexes =>
        match rk with
        | KUnknown => PIncompatible
        | KEmpty | KMonomial | KPolynomial | KReal | KComplex => PManyToOne
        | KMatrix => PIncompatible
        | KMonomials | KPolynomials | KReals | KComplexes => if same_shape ls rs then PManyToMany else PMismatched
        end
    | KUnknown => PIncompatible
    end.

  (** the symbol table, make_poly's sort, the context's identity and multiplication *)
  Variable t : table.
  Variable srt : list (mono R) -> list (mono R).
  Variable unit : hseq.
  (** scalar_raw_poly, algebraic_operand.cpp:313-322 *)
  Definition scalar_raw (w : cx R) : raw := if is_zero w then [] else [(unit, w)].
  Definition lift_raw (x : option raw) : aout raw := match x with Some r => AOk r | None => AErr ANoWord end.
  Fixpoint aeach {A B} (f : A -> aout B) (l : list A) : aout (list B) :=
    match l with [] => AOk [] | a :: r => abind (f a) (fun b => abind (aeach f r) (fun bs => AOk (b :: bs))) end.
  (** to_raw_polynomial, algebraic_operand.cpp:472-541: the first entry *)
  Definition to_raw_one (g : given) : aout raw :=
    match g with
    | GArray _ (ESymbols (p :: _)) => lift_raw (raw_of_poly t (make_poly t srt p))
    | GArray _ (EOps (p :: _)) => AOk p
    | GArray _ (ENumbers _ (w :: _)) => AOk (scalar_raw w)
    | _ => AErr AInternal
    end.
  (** to_raw_polynomial_array, 543-604 *)
  Definition to_raw_many (g : given) : aout (list raw) :=
    match g with
    | GArray _ (ESymbols l) => aeach (fun p => lift_raw (raw_of_poly t (make_poly t srt p))) l
    | GArray _ (EOps l) => AOk l
    | GArray _ (ENumbers _ l) => AOk (map scalar_raw l)
    | _ => AErr AInternal
    end.

  (** the operation on two polynomials *)
  Variable f : raw -> raw -> aout raw.
  (** one_to_many, many_to_one, many_to_many, binary_operation.h:166-210 *)
  Definition one_to_many (p : raw) (l : list raw) : aout (list raw) := aeach (f p) l.
  Definition many_to_one (l : list raw) (q : raw) : aout (list raw) := aeach (fun p => f p q) l.
  Definition many_to_many (l r : list raw) : aout (list raw) := aeach (fun x => f (fst x) (snd x)) (List.combine l r).
  (** polynomial_by_polynomial, binary_operation_impl.h:69-131: shape, entries, and whether all are monomials *)
  Definition monomial_result (l : list raw) : bool := forallb (fun p : raw => length p <=? 1) l.
  Definition report (shape : list nat) (x : aout (list raw)) : aout (list nat * list raw * bool) := abind x (fun l => AOk (shape, l, monomial_result l)).
  (** operator(), binary_operation_impl.h:31-67.  [matrices] says whether the operation takes a matrix and a polynomial, [squares] two matrices:
      MultiplyParams, multiply.cpp:24-36, CommutatorParams, commutator.cpp:21-43; for sums nothing is refused here and the last case is an internal error *)
  Definition binary (refused : aerr) (matrices squares : bool) (lhs rhs : given) : aout (list nat * list raw * bool) :=
    abind (kind_of lhs) (fun lk => abind (kind_of rhs) (fun rk =>
    match product_type lk (shape_of lhs) rk (shape_of rhs) with
    | POneToOne => abind (to_raw_one lhs) (fun p => abind (to_raw_one rhs) (fun q => report [1; 1] (abind (f p q) (fun r => AOk [r]))))
    | POneToMany => abind (to_raw_one lhs) (fun p => abind (to_raw_many rhs) (fun l => report (shape_of rhs) (one_to_many p l)))
    | PManyToOne => abind (to_raw_many lhs) (fun l => abind (to_raw_one rhs) (fun q => report (shape_of lhs) (many_to_one l q)))
    | PManyToMany => abind (to_raw_many lhs) (fun l => abind (to_raw_many rhs) (fun r => report (shape_of lhs) (many_to_many l r)))
    | POneToMatrix | PMatrixToOne => if matrices then AMatrix else AErr refused
    | PMatrixToMatrix => if squares then AMatrix else AErr refused
    | PIncompatible | PMismatched => AErr refused
    end)).
End Aop.
Arguments AOk {A}. Arguments AErr {A}. Arguments AMatrix {A}.
Section Ops.
  Context {R : rfield}.
  Notation raw := (list (hseq * cx R)).
  Variable t : table.
  Variable srt : list (mono R) -> list (mono R).
  Variable unit : hseq.
  Variable mul : hseq -> hseq -> res hseq.
  Definition of_res {A} (x : res A) : aout A := match x with Ret a => AOk a | _ => AErr AFail end.
  (** Plus, plus.cpp:23-25 *)
  Definition plus_op (p q : raw) : aout raw := AOk (raw_add p q).
  Definition plus (lhs rhs : given) := binary t srt unit plus_op AInternal true true lhs rhs.
  (** Multiply, multiply.cpp:42-45 *)
  Definition multiply_op (p q : raw) : aout raw := of_res (raw_multiply mul p q).
  Definition times (lhs rhs : given) := binary t srt unit multiply_op ABad true false lhs rhs.
  (** Commutator, commutator.cpp:56-73, outside Pauli scenarios; [anti] for the anticommutator *)
  Definition bracket_op (anti : bool) (p q : raw) : aout raw :=
    abind (of_res (raw_multiply mul p q)) (fun lr => abind (of_res (raw_multiply mul q p)) (fun rl => AOk (if anti then raw_add lr rl else raw_subtract lr rl))).
  Definition bracket (anti : bool) (lhs rhs : given) := binary t srt unit (bracket_op anti) ABad false false lhs rhs.
  (** ... and in a Pauli scenario of [n] qubits *)
  Definition pauli_bracket_op (n : nat) (anti : bool) (p q : raw) : aout raw := of_res (if anti then raw_anticommutator n p q else raw_commutator n p q).
  Definition pauli_bracket (n : nat) (anti : bool) (lhs rhs : given) := binary t srt unit (pauli_bracket_op n anti) ABad false false lhs rhs.
End Ops.
