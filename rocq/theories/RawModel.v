(** Polynomials of operator sequences: dictionary/raw_polynomial.{h,cpp}, scenarios/context.cpp:52-57 and
    scenarios/pauli/pauli_context.cpp:336-352.  Coefficients are exact; the tolerances are zero. *)
From Coq Require Import List NArith ZArith Arith Bool.
From Verif Require Import CoreModel FieldModel SymModel PolyModel AlgModel PauliModel.
Import ListNotations.

Section Raw.
  Context {R : rfield}.
  Notation raw := (list (hseq * cx R)).
  (** RawPolynomialElement, raw_polynomial.h:32-53: the phase of the sequence moves to the weight *)
  Definition raw_elem (q : hseq) (w : cx R) : hseq * cx R :=
    match hs_sign q with
    | SPos => (q, w)
    | SIm => (SymModel.set_sign q SPos, cmul w ci)
    | SNeg => (SymModel.set_sign q SPos, copp w)
    | SNegIm => (SymModel.set_sign q SPos, cmul w (copp ci))
    end.
  (** RawPolynomial(Polynomial, SymbolTable), raw_polynomial.cpp:27-40; sequence() and sequence_conj(), symbol.h:80-92.
      [None] = unknown symbol or no sequence (exceptions), or no stored conjugate (undefined). *)
  Definition raw_term (t : table) (x : mono R) : option (hseq * cx R) :=
    match nth_error (t_syms t) (m_id x) with
    | None => None
    | Some s =>
        match sy_seq s with
        | None => None
        | Some q =>
            if m_cj x && negb (sy_herm s) then option_map (fun c => raw_elem c (m_f x)) (sy_conj s) else Some (raw_elem q (m_f x))
        end
    end.
  Fixpoint raw_of_poly (t : table) (p : list (mono R)) : option raw :=
    match p with
    | [] => Some []
    | x :: p' => match raw_term t x, raw_of_poly t p' with Some y, Some r => Some (y :: r) | _, _ => None end
    end.
  (** is_scalar, raw_polynomial.cpp:57-67 *)
  Definition raw_is_scalar (r : raw) : bool := forallb (fun x => match hs_ops (fst x) with [] => true | _ => false end) r.

  (** condense, raw_polynomial.cpp:98-131.  The map is a list sorted by hash. *)
  Fixpoint collect (x : hseq * cx R) (m : raw) : raw :=
    match m with
    | [] => [x]
    | y :: m' =>
        if N.ltb (hs_hash (fst x)) (hs_hash (fst y)) then x :: m
        else if N.eqb (hs_hash (fst x)) (hs_hash (fst y)) then (fst y, cadd (snd y) (snd x)) :: m'
        else y :: collect x m'
    end.
  Definition condense (r : raw) : raw :=
    let r1 := match r with [x] => if hs_zero (fst x) || is_zero (snd x) then [] else r | _ => r end in
    filter (fun x => negb (is_zero (snd x))) (fold_left (fun m x => if hs_zero (fst x) then m else collect x m) r1 []).
  (** add, subtract, raw_polynomial.cpp:78-96 *)
  Definition raw_add (p q : raw) : raw := condense (p ++ q).
  Definition raw_subtract (p q : raw) : raw := condense (p ++ map (fun x => (fst x, copp (snd x))) q).

  (** distributed_product, raw_polynomial.h:148-162.  [op] may throw. *)
  Fixpoint product_row (op : hseq -> hseq -> res hseq) (wt : cx R -> cx R -> cx R) (x : hseq * cx R) (q : raw) : res raw :=
    match q with
    | [] => Ret []
    | y :: q' => bind (op (fst x) (fst y)) (fun z => bind (product_row op wt x q') (fun r => Ret (raw_elem z (wt (snd x) (snd y)) :: r)))
    end.
  Fixpoint product_terms (op : hseq -> hseq -> res hseq) (wt : cx R -> cx R -> cx R) (p q : raw) : res raw :=
    match p with
    | [] => Ret []
    | x :: p' => bind (product_row op wt x q) (fun a => bind (product_terms op wt p' q) (fun b => Ret (a ++ b)))
    end.
  Definition distributed_product (op : hseq -> hseq -> res hseq) (wt : cx R -> cx R -> cx R) (p q : raw) : res raw :=
    bind (product_terms op wt p q) (fun r => Ret (condense r)).
  (** Context::multiply(RawPolynomial...), context.cpp:52-57 *)
  Definition raw_multiply (mul : hseq -> hseq -> res hseq) (p q : raw) : res raw := distributed_product mul cmul p q.
  (** PauliContext::commutator and anticommutator of polynomials, pauli_context.cpp:336-352 *)
  Definition twice_product (a b : cx R) : cx R := cmul (cmul a b) (cadd c1 c1).
  Definition raw_commutator (n : nat) (p q : raw) : res raw := distributed_product (fun a b => Ret (pauli_commutator n a b)) twice_product p q.
  Definition raw_anticommutator (n : nat) (p q : raw) : res raw := distributed_product (fun a b => Ret (pauli_anticommutator n a b)) twice_product p q.
End Raw.
