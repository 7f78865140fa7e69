(** Property C86: tables of words and terms handed to MATLAB. *)
From Coq Require Import NArith ZArith Arith Bool List.
From Verif Require Import CoreModel FieldModel FieldProofs SymModel SymSpec SymProofs PolyModel PolySpec RawSpec RowModel RowSpec RowProofs RowWitnessProofs.
From Verif Require Import ChshProofs ChshWitnessProofs PolyWitnessProofs PolyTableProofs StgWitnessProofs.
Import ListNotations.
Local Open Scope list_scope.
Local Open Scope nat_scope.

(** A list of words: each row has the word, operators counted from 1, with a coefficient that makes up for its phase. *)
Theorem C86_word_list : forall c V, lawful c V -> forall (R : rfield) (E : hseq -> cx R), expectation c V R E -> forall l, Forall V l ->
  Forall2 (fun q r => holds q r /\ row_value E r = E q /\ r_info r = None) l (word_rows l).
Proof. intros c V LW R E EX l F. exact (word_rows_spec c V R E EX l F). Qed.
Print Assumptions C86_word_list.
Example C86_word_list_nonvacuous : lawful chsh_sctx chsh_words /\ expectation chsh_sctx chsh_words Qc_rfield flat_E /\ Forall chsh_words chsh_list.
Proof. exact (conj chsh_lawful (conj chsh_expectation chsh_list_ok)). Qed.

(** ... with their symbols: made exactly if every word has one; each row has the word and its symbol, and these agree in value.
    Partial: the coefficient makes up for the phase of a word only if that is plus or minus one. *)
Theorem C86_word_symbols_partial : forall c V, lawful c V -> forall (R : rfield) (E : hseq -> cx R), expectation c V R E -> unsigned_conj c V -> forall t l, reachable c V t -> numbered t -> Forall V l ->
  ((exists rs, word_rows_full (R:=R) c t l = ROk rs) <-> Forall (fun q => exists id, lk_symbol (where_ c t q) = Some id) l) /\
  (forall e, word_rows_full (R:=R) c t l = RErr e -> e = RNoSymbol) /\
  forall rs, word_rows_full c t l = ROk rs -> Forall2 (fun q r => holds q r /\ (exists id, lk_symbol (where_ c t q) = Some id /\ tells t id (lk_conj (where_ c t q)) r) /\ (forall v, agrees E t v -> consistent E v r) /\
    (hs_sign q = SPos \/ hs_sign q = SNeg -> row_value E r = E q)) l rs.
Proof. exact word_list_full. Qed.
Print Assumptions C86_word_symbols_partial.
Example C86_word_symbols_nonvacuous : lawful chsh_sctx chsh_words /\ expectation chsh_sctx chsh_words Qc_rfield flat_E /\ unsigned_conj chsh_sctx chsh_words /\ reachable chsh_sctx chsh_words chsh_table /\ numbered chsh_table /\
  Forall chsh_words chsh_list /\ (exists rs, word_rows_full (R:=Qc_rfield) chsh_sctx chsh_table chsh_list = ROk rs) /\ agrees flat_E chsh_table chsh_v.
Proof. exact (conj chsh_lawful (conj chsh_expectation (conj chsh_unsigned (conj chsh_reach (conj chsh_numbered (conj chsh_list_ok (conj chsh_known chsh_agrees))))))). Qed.

(** ... and loses an imaginary phase (F113). *)
Theorem C86_imaginary_refuted : exists c V (E : hseq -> cx Qc_rfield) t q r, lawful c V /\ unsigned_conj c V /\ expectation c V Qc_rfield E /\ reachable c V t /\ numbered t /\ V q /\
  seq_row_full c t q = ROk r /\ row_value E r <> E q.
Proof. exact imaginary_lost. Qed.
Print Assumptions C86_imaginary_refuted.

(** Words are told apart by their hashes: rows with the same hash have the same operators. *)
Theorem C86_hash : forall (R : rfield) c V a b (r r' : row (R:=R)), lawful c V -> V a -> V b -> holds a r -> holds b r' -> r_hash r = r_hash r' -> r_ops r = r_ops r'.
Proof. intros R c V a b r r'. exact (same_ops c V a b r r'). Qed.
Print Assumptions C86_hash.
Example C86_hash_nonvacuous : lawful chsh_sctx chsh_words /\ Forall chsh_words chsh_list /\ forall q, In q chsh_list -> holds q (seq_row (R:=Qc_rfield) q c1).
Proof. exact (conj chsh_lawful (conj chsh_list_ok (fun q _ => row_holds q _ None None))). Qed.

(** A polynomial: made exactly if every symbol in it has a word; each row has the coefficient, the symbol if asked for, and the value of its term, so together they have the value of the polynomial. *)
Theorem C86_polynomial : forall c V, lawful c V -> forall (R : rfield) (E : hseq -> cx R), expectation c V R E -> forall t symbols (p : list (mono R)), reachable c V t -> numbered t -> clean_words c t -> Forall (good_term t) p ->
  ((exists rs, poly_rows c symbols t p = ROk rs) <-> forall x, In x p -> symbol_word t (m_id x) <> None) /\
  forall rs, poly_rows c symbols t p = ROk rs ->
    Forall2 (fun x r => row_of E t symbols x r /\ r_alias r = (if symbols && cx_alias c then Some false else None)) p rs /\ forall v, agrees E t v -> rows_value E rs = value v p.
Proof. intros c V LW R E EX t symbols p RT NB CW G. exact (conj (poly_rows_ok c V LW R E EX t symbols p RT NB CW G) (fun rs => poly_rows_spec c V LW R E EX t symbols p rs RT NB CW G)). Qed.
Print Assumptions C86_polynomial.
Example C86_polynomial_nonvacuous : lawful chsh_sctx chsh_words /\ expectation chsh_sctx chsh_words Qc_rfield flat_E /\ reachable chsh_sctx chsh_words chsh_table /\ numbered chsh_table /\ clean_words chsh_sctx chsh_table /\
  Forall (good_term chsh_table) chsh_poly /\ (exists rs, poly_rows chsh_sctx true chsh_table chsh_poly = ROk rs) /\ agrees flat_E chsh_table chsh_v.
Proof. exact (conj chsh_lawful (conj chsh_expectation (conj chsh_reach (conj chsh_numbered (conj chsh_clean (conj (canonical_good _ _ _ _ chsh_canonical) (conj chsh_rows chsh_agrees))))))). Qed.
(** canonical polynomials are of this kind, and tables are clean if their flags are those of their words *)
Theorem C86_good : forall (R : rfield) t (lt : mono R -> mono R -> bool) p, PolySpec.canonical t lt p -> Forall (good_term t) p.
Proof. exact canonical_good. Qed.
Print Assumptions C86_good.
Example C86_good_nonvacuous : PolySpec.canonical chsh_table id_less chsh_poly.
Proof. exact chsh_canonical. Qed.
Theorem C86_clean : forall c V, lawful c V -> forall t, unsigned_conj c V -> real_phases c t -> reachable c V t -> plain_words t -> flagged c t -> clean_words c t.
Proof. exact clean_of. Qed.
Print Assumptions C86_clean.
Example C86_clean_nonvacuous : lawful chsh_sctx chsh_words /\ unsigned_conj chsh_sctx chsh_words /\ real_phases chsh_sctx chsh_table /\ reachable chsh_sctx chsh_words chsh_table /\ plain_words chsh_table /\ flagged chsh_sctx chsh_table.
Proof. exact (conj chsh_lawful (conj chsh_unsigned (conj chsh_real (conj chsh_reach (conj chsh_plain chsh_flagged))))). Qed.

(** If it is refused, some symbol has no word, and the error tells which of the two reasons it is.  Partial: the position in the error is always 1. *)
Theorem C86_error_partial : forall c V, lawful c V -> forall (R : rfield) (E : hseq -> cx R), expectation c V R E -> forall t symbols (p : list (mono R)) e, reachable c V t -> numbered t -> clean_words c t -> Forall (good_term t) p ->
  poly_rows c symbols t p = RErr e ->
  exists j x, nth_error p j = Some x /\ symbol_word t (m_id x) = None /\ e = (if m_id x <? length (t_syms t) then RNoWordAt 1 else RUnknownAt 1) /\ forall i y, i < j -> nth_error p i = Some y -> symbol_word t (m_id y) <> None.
Proof. exact poly_rows_err. Qed.
Print Assumptions C86_error_partial.
Example C86_error_nonvacuous : lawful chsh_sctx chsh_words /\ expectation chsh_sctx chsh_words Qc_rfield flat_E /\ reachable chsh_sctx chsh_words made_table /\ numbered made_table /\ clean_words chsh_sctx made_table /\
  Forall (good_term made_table) made_poly /\ forall symbols, poly_rows chsh_sctx symbols made_table made_poly = RErr (RNoWordAt 1).
Proof. exact (conj chsh_lawful (conj chsh_expectation (conj made_reach (conj made_numbered (conj made_clean (conj (canonical_good _ _ _ _ made_canonical) made_error)))))). Qed.
Theorem C86_position_refuted : exists c V (lt : mono Qc_rfield -> mono Qc_rfield -> bool) t p x y, lawful c V /\ reachable c V t /\ numbered t /\ clean_words c t /\ PolySpec.canonical t lt p /\ p = [x; y] /\
  symbol_word t (m_id x) <> None /\ symbol_word t (m_id y) = None /\ poly_rows c true t p = RErr (RNoWordAt 1).
Proof. exact position_lost. Qed.
Print Assumptions C86_position_refuted.

(** A raw polynomial: its words and coefficients as they are. *)
Theorem C86_raw : forall (R : rfield) (E : hseq -> cx R) (p : list (hseq * cx R)), Forall2 (fun x r => holds (fst x) r /\ r_coef r = snd x) p (raw_rows p) /\ rows_value E (raw_rows p) = raw_value E p.
Proof. intros R E p. exact (raw_rows_spec E p). Qed.
Print Assumptions C86_raw.
Example C86_raw_case : length (raw_rows chsh_raw) = 2.
Proof. reflexivity. Qed.

(** Polynomials of at most one term: one row each, of the same value, zero for none. *)
Theorem C86_single : forall c V, lawful c V -> forall (R : rfield) (E : hseq -> cx R), expectation c V R E -> forall t full l, reachable c V t -> numbered t -> clean_words c t ->
  Forall (fun p => Forall (good_term (R:=R) t) p /\ length p <= 1 /\ forall x, In x p -> symbol_word t (m_id x) <> None) l ->
  exists rs, single_rows full t l = ROk rs /\ Forall2 (fun p r => from_1 r /\ (r_info r = None <-> full = false) /\ forall v, agrees E t v -> row_value E r = value v p /\ consistent E v r) l rs.
Proof. exact singles. Qed.
Print Assumptions C86_single.
Example C86_single_nonvacuous : lawful chsh_sctx chsh_words /\ expectation chsh_sctx chsh_words Qc_rfield flat_E /\ reachable chsh_sctx chsh_words chsh_table /\ numbered chsh_table /\ clean_words chsh_sctx chsh_table /\
  Forall (fun p => Forall (good_term chsh_table) p /\ length p <= 1 /\ forall x, In x p -> symbol_word chsh_table (m_id x) <> None) chsh_singles /\ agrees flat_E chsh_table chsh_v.
Proof. exact (conj chsh_lawful (conj chsh_expectation (conj chsh_reach (conj chsh_numbered (conj chsh_clean (conj chsh_singles_ok chsh_agrees)))))). Qed.

(** A matrix, as words and symbols: made if the symbols exist; each row has the word and the value of its cell. *)
Theorem C86_matrix : forall c V, lawful c V -> forall (R : rfield) (E : hseq -> cx R), expectation c V R E -> unsigned_conj c V -> forall t v (cells : list (mono R)) words, reachable c V t -> numbered t -> agrees E t v ->
  Forall2 (fun x q => V q /\ answers c t q (m_id x) (m_cj x)) cells words ->
  exists rs, matrix_rows t cells words = ROk rs /\ Forall2 (fun q r => holds q r) words rs /\ Forall2 (fun x r => r_coef r = m_f x /\ tells t (m_id x) (m_cj x) r /\ row_value E r = term_value v x) cells rs.
Proof. exact matrix_list. Qed.
Print Assumptions C86_matrix.
Example C86_matrix_nonvacuous : lawful chsh_sctx chsh_words /\ expectation chsh_sctx chsh_words Qc_rfield flat_E /\ unsigned_conj chsh_sctx chsh_words /\ reachable chsh_sctx chsh_words chsh_table /\ numbered chsh_table /\
  agrees flat_E chsh_table chsh_v /\ Forall2 (fun x q => chsh_words q /\ answers chsh_sctx chsh_table q (m_id x) (m_cj x)) chsh_cells chsh_cell_words.
Proof. exact (conj chsh_lawful (conj chsh_expectation (conj chsh_unsigned (conj chsh_reach (conj chsh_numbered (conj chsh_agrees chsh_cells_ok)))))). Qed.

(** The symbol table from a position on: a row for each symbol, in order. *)
Theorem C86_table : forall c V, lawful c V -> forall t from, reachable c V t -> numbered t -> length (table_rows t from) = length (t_syms t) - from /\
  forall j w, nth_error (table_rows t from) j = Some w -> exists s, nth_error (t_syms t) (from + j) = Some s /\ w_symbol w = Some (from + j) /\ w_cj w = None /\ w_alias w = None /\ w_herm w = sy_herm s /\
    in_basis (t_real t) (from + j) (w_re w) /\ in_basis (t_imag t) (from + j) (w_im w).
Proof. exact table_rows_spec. Qed.
Print Assumptions C86_table.
Example C86_table_nonvacuous : lawful chsh_sctx chsh_words /\ reachable chsh_sctx chsh_words chsh_table /\ numbered chsh_table /\ length (table_rows chsh_table 1) = 3.
Proof. exact (conj chsh_lawful (conj chsh_reach (conj chsh_numbered eq_refl))). Qed.

(** A word looked up: the row has the word's symbol and flags, or says that there is none. *)
Theorem C86_lookup : forall c V, lawful c V -> forall (R : rfield) (E : hseq -> cx R), expectation c V R E -> unsigned_conj c V -> forall t q, reachable c V t -> numbered t -> V q ->
  exists w, lookup_row c t q = ROk w /\ w_symbol w = lk_symbol (where_ c t q) /\ w_alias w = (if cx_alias c then Some (match w_symbol w with Some _ => lk_alias (where_ c t q) | None => false end) else None) /\
    (w_symbol w = None -> w_re w = 0 /\ w_im w = 0 /\ w_cj w = Some false) /\
    forall id, w_symbol w = Some id -> exists cj, w_cj w = Some cj /\ w_herm w = herm t id /\ in_basis (t_real t) id (w_re w) /\ in_basis (t_imag t) id (w_im w) /\ symbol_value E t id cj = Some (E (pos q)).
Proof. exact lookup_row_spec. Qed.
Print Assumptions C86_lookup.
Example C86_lookup_nonvacuous : lawful chsh_sctx chsh_words /\ expectation chsh_sctx chsh_words Qc_rfield flat_E /\ unsigned_conj chsh_sctx chsh_words /\ reachable chsh_sctx chsh_words chsh_table /\ numbered chsh_table /\
  Forall chsh_words chsh_list /\ Forall (fun q => lk_symbol (where_ chsh_sctx chsh_table q) <> None) chsh_list.
Proof. exact (conj chsh_lawful (conj chsh_expectation (conj chsh_unsigned (conj chsh_reach (conj chsh_numbered (conj chsh_list_ok chsh_list_known)))))). Qed.

(** A Hermitian symbol is its own conjugate: read conjugated or not, the row has the word of the symbol and the same factor. *)
Theorem C86_hermitian : forall (R : rfield) c t full id (f : cx R) s w, nth_error (t_syms t) id = Some s -> sy_herm s = true -> sy_seq s = Some w ->
  forall cj, (exists r, mono_row full t (mk_mono id cj f) = ROk r /\ holds w r /\ r_coef r = f) /\ exists r, poly_row c full t (mk_mono id cj f) = ROk r /\ holds w r /\ r_coef r = f.
Proof. exact hermitian_rows. Qed.
Print Assumptions C86_hermitian.
Example C86_hermitian_nonvacuous : exists s w, nth_error (t_syms chsh_table) 3 = Some s /\ sy_herm s = true /\ sy_seq s = Some w.
Proof. exact chsh_hermitian. Qed.
