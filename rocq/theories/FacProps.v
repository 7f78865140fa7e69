(** C45: matrices of symbols. *)
From Coq Require Import List NArith ZArith Arith Bool Lia.
From Verif Require Import CoreModel CoreSpec FieldModel FieldProofs SymModel SymSpec PolyModel ChshProofs ParModel FacModel FacSpec FacRunProofs FacThmProofs FacWitnessProofs.
Import ListNotations.

(** Single-threaded: every entry's word is registered and nothing else, Hermiticity flags stay right, every entry of the result has its value. *)
Theorem C45_single_threaded : forall c V (R : rfield) dim m hermitian (p : cx R) only t,
  lawful c V -> elements_ok V dim m -> (hermitian = true -> hermitian_matrix c dim m) -> reachable c V t ->
  (only = true -> Forall (fun q => same_word (cx_conj c q) q) m) ->
  exists t' out, st_run c dim m hermitian p only t = Done t' out /\ registered c V t t' m /\
    (plain_self_conjugates c m -> flagged c t -> flagged c t') /\
    forall E, expectation c V R E -> unsigned_conj c V -> (hermitian = true -> real_symbols E t') -> symbolic_of E t' p m out.
Proof. exact (fun c V R dim m hermitian p only t LW EO HM => st_correct c V LW R dim m p EO hermitian HM only t). Qed.
Print Assumptions C45_single_threaded.
Example C45_single_threaded_case : lawful chsh_sctx chsh_words /\ elements_ok chsh_words 2 two_matrix /\ hermitian_matrix chsh_sctx 2 two_matrix /\ reachable chsh_sctx chsh_words chsh_table /\
  plain_self_conjugates chsh_sctx two_matrix /\ flagged chsh_sctx chsh_table /\ expectation chsh_sctx chsh_words Qc_rfield flat_E /\ unsigned_conj chsh_sctx chsh_words /\ (forall t, real_symbols flat_E t) /\
  exists t' out, st_run (R := Qc_rfield) chsh_sctx 2 two_matrix true c1 false chsh_table = Done t' out /\
    map (option_map (fun e => (m_id e, m_cj e))) out = [Some (4, false); Some (2, true); Some (2, false); Some (5, false)].
Proof.
  exact (conj chsh_lawful (conj two_ok (conj two_hermitian (conj chsh_reach (conj two_plain (conj chsh_flagged (conj chsh_expectation (conj chsh_unsigned (conj flat_real two_st))))))))).
Qed.

(** Parallel: whatever the number of workers, an execution is never stuck, and cannot go on for ever. *)
Theorem C45_parallel_finishes : forall c (R : rfield) dim m hermitian (p : cx R) N t l s, 0 < N ->
  exec (start (fprograms c dim m hermitian p N no_throw) (ffresh dim N t)) l s ->
  length l <= list_sum (map (@length _) (fprograms c dim m hermitian p N no_throw)) /\ (finished s \/ exists w s', step s w s').
Proof. exact parallel_progress. Qed.
Print Assumptions C45_parallel_finishes.
(** Parallel: all finished executions leave the same table, with the words of the matrix registered, and return a matrix with the right
    values; if the matrix is not Hermitian, always the same matrix. *)
Theorem C45_parallel_result : forall c V (R : rfield) dim m hermitian (p : cx R) N t,
  lawful c V -> elements_ok V dim m -> (hermitian = true -> hermitian_matrix c dim m) -> 0 < N -> reachable c V t ->
  exists t', registered c V t t' m /\ (plain_self_conjugates c m -> flagged c t -> flagged c t') /\
    forall l s, exec (start (fprograms c dim m hermitian p N no_throw) (ffresh dim N t)) l s -> finished s ->
      f_table (c_mem s) = t' /\ f_bad (c_mem s) = false /\
      exists out, f_ret (c_mem s) = Some out /\ (hermitian = false -> out = map (direct p t') m) /\
        forall E, expectation c V R E -> unsigned_conj c V -> (hermitian = true -> real_symbols E t') -> symbolic_of E t' p m out.
Proof. exact parallel_result. Qed.
Print Assumptions C45_parallel_result.
Example C45_parallel_case : lawful chsh_sctx chsh_words /\ elements_ok chsh_words 2 two_matrix /\ hermitian_matrix chsh_sctx 2 two_matrix /\ reachable chsh_sctx chsh_words chsh_table /\
  plain_self_conjugates chsh_sctx two_matrix /\ flagged chsh_sctx chsh_table /\ expectation chsh_sctx chsh_words Qc_rfield flat_E /\ unsigned_conj chsh_sctx chsh_words /\ (forall t, real_symbols flat_E t) /\
  exists l s, exec (start (fprograms (R := Qc_rfield) chsh_sctx 2 two_matrix true c1 2 no_throw) (ffresh 2 2 chsh_table)) l s /\ finished s /\
    show s = Some [Some (4, false); Some (2, true); Some (2, false); Some (5, false)].
Proof.
  exact (conj chsh_lawful (conj two_ok (conj two_hermitian (conj chsh_reach (conj two_plain (conj chsh_flagged (conj chsh_expectation (conj chsh_unsigned (conj flat_real two_run))))))))).
Qed.

(** The last condition of both theorems holds if the table's flags are right. *)
Theorem C45_flags_make_real : forall c V t t' m (R : rfield) (E : hseq -> cx R), lawful c V -> reachable c V t -> registered c V t t' m -> expectation c V R E -> flagged c t' -> real_symbols E t'.
Proof. exact marked_real. Qed.
Print Assumptions C45_flags_make_real.

(** Not true: that the parallel version always returns the same matrix (of a Hermitian matrix two workers write the same entries, unordered). *)
Theorem C45_schedule_independent_refuted : exists c V (R : rfield) dim m p N t l s l' s', lawful c V /\ unsigned_conj c V /\ elements_ok V dim m /\ hermitian_matrix c dim m /\ 0 < N /\ reachable c V t /\
  exec (start (fprograms (R := R) c dim m true p N no_throw) (ffresh dim N t)) l s /\ finished s /\
  exec (start (fprograms (R := R) c dim m true p N no_throw) (ffresh dim N t)) l' s' /\ finished s' /\ f_ret (c_mem s) <> f_ret (c_mem s').
Proof. exact schedule_refuted. Qed.
Print Assumptions C45_schedule_independent_refuted.
Theorem C45_race_free_refuted : exists c V (R : rfield) dim m p N, lawful c V /\ elements_ok V dim m /\ hermitian_matrix c dim m /\ 0 < N /\
  ~ ordered_conflicts (fprograms (R := R) c dim m true p N no_throw).
Proof. exact race_refuted. Qed.
Print Assumptions C45_race_free_refuted.
(** Not true: that entries have the right value also if a symbol is marked Hermitian although its word (without its phase) is not. *)
Theorem C45_any_hermitian_matrix_refuted : exists c V (R : rfield) dim m p t E t' out, lawful c V /\ unsigned_conj c V /\ elements_ok V dim m /\ hermitian_matrix c dim m /\ reachable c V t /\ expectation c V R E /\
  st_run c dim m true p false t = Done t' out /\ ~ symbolic_of E t' p m out.
Proof. exact mirrored_refuted. Qed.
Print Assumptions C45_any_hermitian_matrix_refuted.
(** Not true: that the parallel version also finishes if a worker throws while it collects symbols. *)
Theorem C45_exceptions_reported_refuted : exists c V (R : rfield) dim m p N throws t, lawful c V /\ elements_ok V dim m /\ hermitian_matrix c dim m /\ 0 < N /\ reachable c V t /\
  (exists w, w < N /\ throws w = true) /\
  forall l s, exec (start (fprograms (R := R) c dim m true p N throws) (ffresh dim N t)) l s -> ~ finished s.
Proof. exact hang_refuted. Qed.
Print Assumptions C45_exceptions_reported_refuted.
