(** What turning an operator matrix into a matrix of symbols should achieve. *)
From Coq Require Import List NArith ZArith Arith Bool.
From Verif Require Import CoreModel CoreSpec FieldModel SymModel SymSpec PolyModel.
Import ListNotations.

(** a square matrix (stored by columns) of the context's sequences *)
Definition elements_ok (V : hseq -> Prop) (dim : nat) (m : list hseq) : Prop := length m = dim * dim /\ Forall V m.
(** it is Hermitian *)
Definition hermitian_matrix (c : sctx) (dim : nat) (m : list hseq) : Prop :=
  forall row col q q', row < dim -> col < dim -> nth_error m (col * dim + row) = Some q -> nth_error m (row * dim + col) = Some q' -> q' = cx_conj c q.
(** [q] can be looked up in [t] *)
Definition found (c : sctx) (t : table) (q : hseq) : Prop := exists id cj, answers c t q id cj.
(** [t'] is [t] with the words of the matrix added: afterwards exactly these can be looked up, besides what could before *)
Definition registered (c : sctx) (V : hseq -> Prop) (t t' : table) (m : list hseq) : Prop :=
  later c V t t' /\ forall q, V q -> (found c t' q <-> found c t q \/ exists a, In a m /\ (same_word a q \/ conj_words c a q)).
(** symbols flagged Hermitian have real expectations *)
Definition real_symbols {R : rfield} (E : hseq -> cx R) (t : table) : Prop :=
  forall id s w, nth_error (t_syms t) id = Some s -> sy_herm s = true -> sy_seq s = Some w -> cconj (E (pos w)) = E (pos w).
(** factor times symbol (conjugated if so marked) has the value of the sequence, times the prefactor *)
Definition stands_for {R : rfield} (E : hseq -> cx R) (t : table) (p : cx R) (q : hseq) (e : mono R) : Prop :=
  exists v, symbol_value E t (m_id e) (m_cj e) = Some v /\ cmul (m_f e) v = cmul p (E q).
Definition symbolic_of {R : rfield} (E : hseq -> cx R) (t : table) (p : cx R) (m : list hseq) (out : list (option (mono R))) : Prop :=
  length out = length m /\ forall o q, nth_error m o = Some q -> exists e, nth_error out o = Some (Some e) /\ stands_for E t p q e.
(** the words of the matrix that are their own conjugates, up to a phase, are so exactly *)
Definition plain_self_conjugates (c : sctx) (m : list hseq) : Prop :=
  forall q, In q m -> same_word (cx_conj c q) q -> cx_conj c (pos q) = pos q.
