(** What rows of words and coefficients mean. *)
From Coq Require Import NArith ZArith Arith Bool List.
From Verif Require Import CoreModel FieldModel SymModel SymSpec PolyModel PolySpec RowModel.
Import ListNotations.
Local Open Scope list_scope.
Local Open Scope nat_scope.

Section Spec.
  Context {R : rfield}.
  Notation row := (row (R:=R)).
  (** the word in a row, operators counted from 0 again *)
  Definition row_word (r : row) : hseq := mk_hseq (r_hash r) (map pred (r_ops r)) SPos.
  (** operators in a row count from 1 *)
  Definition from_1 (r : row) : Prop := Forall (fun o => 1 <= o) (r_ops r).
  (** the value of a row, and of a list of rows, under an expectation functional *)
  Definition row_value (E : hseq -> cx R) (r : row) : cx R := cmul (r_coef r) (E (row_word r)).
  Definition rows_value (E : hseq -> cx R) (l : list row) : cx R := fold_right (fun r s => cadd (row_value E r) s) c0 l.
  (** the row holds the word of [q] *)
  Definition holds (q : hseq) (r : row) : Prop := from_1 r /\ row_word r = pos q.
  (** numbers of basis elements: the k-th real part belongs to the symbol, or 0 if it has none *)
  Definition in_basis (l : list nat) (id k : nat) : Prop := (k = 0 /\ ~ In id l) \/ (exists j, k = S j /\ nth_error l j = Some id).
  Definition describes (t : table) (id : nat) (cj : bool) (i : info) : Prop :=
    i_id i = id /\ i_cj i = cj /\ in_basis (t_real t) id (i_re i) /\ in_basis (t_imag t) id (i_im i).
  (** the row speaks of the symbol [id], conjugated or not *)
  Definition tells (t : table) (id : nat) (cj : bool) (r : row) : Prop := exists i, r_info r = Some i /\ describes t id cj i.
  (** the columns about symbols and those about words say the same: the symbol times the coefficient has the row's value *)
  Definition consistent (E : hseq -> cx R) (v : nat -> cx R) (r : row) : Prop := forall i, r_info r = Some i -> term_value v (mk_mono (i_id i) (i_cj i) (r_coef r)) = row_value E r.
  (** tables in which words have no phase, and conjugates of words that are not their own conjugates up to sign have none *)
  Definition clean_words (c : sctx) (t : table) : Prop := plain_words t /\ forall id s w, nth_error (t_syms t) (S id) = Some s -> sy_seq s = Some w -> sy_herm s = false -> sy_anti s = false ->
    hs_sign (cx_conj c w) = SPos.
  (** a term as polynomials hold it: conjugation is marked on neither Hermitian, anti-Hermitian nor zero symbols *)
  Definition good_term (t : table) (x : mono R) : Prop := (herm t (m_id x) = true \/ anti t (m_id x) = true -> m_cj x = false) /\ (m_id x = 0 -> m_cj x = false).
  (** the row of a term: its coefficient, its symbol if asked for, and its value *)
  Definition row_of (E : hseq -> cx R) (t : table) (symbols : bool) (x : mono R) (r : row) : Prop :=
    from_1 r /\ r_coef r = m_f x /\ (if symbols then tells t (m_id x) (m_cj x) r else r_info r = None) /\ forall v, agrees E t v -> row_value E r = term_value v x.
End Spec.
