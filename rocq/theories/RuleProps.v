(** Moment rulebooks: what a user relies on (C30, C31). *)
From Coq Require Import List NArith Arith Bool Permutation.
From Verif Require Import CoreModel FieldModel FieldProofs SymModel SymSpec PolyModel PolySpec PolyWitnessProofs RuleModel RuleSpec
  RuleThmProofs RuleWitnessProofs RuleRealProofs.
Import ListNotations.

(** C30: after any history of adding, completing, combining and using, the rules and the polynomials still waiting together hold
    exactly where the polynomials given so far vanish. *)
Theorem C30_equations : forall (R : rfield) (F : factory R), factory_ok F -> forall psrt, (forall l, Permutation l (psrt l)) ->
  forall b eqs, session F psrt b eqs -> forall v, assignment (fa_table F) v -> (solves v eqs <-> obeys v (rb_rules b) /\ solves v (rb_raw b)).
Proof. exact t_equations. Qed.
Print Assumptions C30_equations.
Example C30_equations_holds : factory_ok F8 /\ (forall l, Permutation l (keep l)) /\ session F8 keep book8 eqs8 /\ session F8 keep raw8 eqs8.
Proof. exact (conj F8_ok (conj keep_ok (conj book8_session (raw8_session keep)))). Qed.

(** C30: a successful completion leaves nothing waiting: an assignment satisfies the rules iff all given polynomials vanish on it; the
    number returned is the number of rules added. *)
Theorem C30_complete : forall (R : rfield) (F : factory R), factory_ok F -> forall psrt, (forall l, Permutation l (psrt l)) ->
  forall b eqs fuel b' n, session F psrt b eqs -> complete F psrt fuel b = RDone b' n ->
  rb_raw b' = [] /\ (forall v, assignment (fa_table F) v -> (obeys v (rb_rules b') <-> solves v eqs)) /\ length (rb_rules b') = n + length (rb_rules b).
Proof. exact t_complete. Qed.
Print Assumptions C30_complete.
Example C30_complete_holds : session F8 keep raw8 eqs8 /\ complete F8 keep 6 raw8 = RDone book8 3 /\
  map (fun r => (ru_lhs r, ru_partial r, length (ru_rhs r))) (rb_rules book8) = [(4, false, 1); (5, false, 2); (6, true, 4)].
Proof. exact (conj (raw8_session keep) (conj run8_keep (proj2 (proj2 book8_shape)))). Qed.

(** C30: if completion throws, then the rulebook was in use (and is as before), or no assignment satisfies the polynomials. *)
Theorem C30_contradiction : forall (R : rfield) (F : factory R), factory_ok F -> forall psrt, (forall l, Permutation l (psrt l)) ->
  forall b eqs fuel b', session F psrt b eqs -> complete F psrt fuel b = RThrow b' ->
  (locked b = true /\ b' = b) \/ (locked b = false /\ forall v, assignment (fa_table F) v -> ~ solves v eqs).
Proof. exact t_throw. Qed.
Print Assumptions C30_contradiction.
Example C30_contradiction_holds : exists b', complete F8 keep 6 (set_raw book8 eqs10) = RThrow b' /\ session F8 keep (set_raw book8 eqs10) (eqs8 ++ eqs10).
Proof. exact contradicts. Qed.

(** C30: completion stops after at most two rounds for each polynomial, and never leaves the number system unless that lacks a
    square root of a number of norm one. *)
Theorem C30_terminates : forall (R : rfield) (F : factory R), factory_ok F -> forall psrt, (forall l, Permutation l (psrt l)) ->
  forall b eqs fuel, session F psrt b eqs -> 2 * length (rb_raw b) <= fuel ->
  complete F psrt fuel b <> RFuel /\ (complete F psrt fuel b = RStuck -> exists z, cnorm z = r1 R /\ fa_sqrt F z = None).
Proof. exact t_stops. Qed.
Print Assumptions C30_terminates.
Example C30_terminates_holds : session F8 keep raw8 eqs8 /\ 2 * length (rb_raw raw8) = 6.
Proof. exact (conj (raw8_session keep) (proj2 raw8_open)). Qed.

(** C30: with numbers that have square roots, completion of a rulebook that is not in use decides whether the polynomials have a
    common zero. *)
Theorem C30_decides : forall (R : rfield) (F : factory R), factory_ok F -> forall psrt, (forall l, Permutation l (psrt l)) ->
  forall b eqs fuel, has_roots F -> session F psrt b eqs -> locked b = false -> 2 * length (rb_raw b) <= fuel ->
  (exists b' n, complete F psrt fuel b = RDone b' n /\ exists v, assignment (fa_table F) v /\ solves v eqs) \/
  (exists b', complete F psrt fuel b = RThrow b' /\ forall v, assignment (fa_table F) v -> ~ solves v eqs).
Proof. exact t_decides. Qed.
Print Assumptions C30_decides.
Example C30_decides_holds : factory_ok FR /\ has_roots FR /\ session FR (fun l => l) (set_raw (new_rulebook false) [eqR]) [eqR] /\
  locked (set_raw (new_rulebook false) [eqR]) = false.
Proof. exact (conj FR_ok (conj FR_roots eqR_session)). Qed.

(** C30: at every moment the rules are in solved form: one rule for a symbol, never for 0 or 1, with canonical right hand sides made
    of earlier symbols that no rule determines. *)
Theorem C30_form : forall (R : rfield) (F : factory R), factory_ok F -> forall psrt, (forall l, Permutation l (psrt l)) ->
  forall b eqs, session F psrt b eqs -> tidy_rules F (rb_rules b).
Proof. exact t_form. Qed.
Print Assumptions C30_form.
Example C30_form_holds : session F8 keep book8 eqs8 /\ length (rb_rules book8) = 3.
Proof. exact (conj book8_session (eq_trans (eq_sym (map_length _ _)) (f_equal (@length _) (proj2 (proj2 book8_shape))))). Qed.

(** C30: the rules can always be satisfied, whatever values the symbols without a rule have. *)
Theorem C30_consistent : forall (R : rfield) (F : factory R), factory_ok F -> forall psrt, (forall l, Permutation l (psrt l)) ->
  forall b eqs, session F psrt b eqs -> forall u, assignment (fa_table F) u ->
  exists v, assignment (fa_table F) v /\ obeys v (rb_rules b) /\ forall i, (forall r, In r (rb_rules b) -> ru_lhs r <> i) -> v i = u i.
Proof. exact t_consistent. Qed.
Print Assumptions C30_consistent.
Example C30_consistent_holds : session F8 keep book8 eqs8 /\ assignment t8 v8.
Proof. exact (conj book8_session v8_assignment). Qed.

(** C30: the completed rules depend only on the solutions of the polynomials: not on the order in which they were given, nor on the
    number of calls, nor on the sorting of polynomials. *)
Theorem C30_unique : forall (R : rfield) (F : factory R), factory_ok F ->
  forall psrt psrt', (forall l, Permutation l (psrt l)) -> (forall l, Permutation l (psrt' l)) ->
  forall b eqs b' eqs', session F psrt b eqs -> session F psrt' b' eqs' -> rb_raw b = [] -> rb_raw b' = [] ->
  (forall v, assignment (fa_table F) v -> (solves v eqs <-> solves v eqs')) ->
  map (fun r => (ru_lhs r, ru_rhs r, ru_partial r)) (rb_rules b) = map (fun r => (ru_lhs r, ru_rhs r, ru_partial r)) (rb_rules b').
Proof. exact t_unique. Qed.
Print Assumptions C30_unique.
Example C30_unique_holds : session F8 keep book8 eqs8 /\ session F8 flip book8' eqs8 /\ rb_raw book8 = [] /\ rb_raw book8' = [].
Proof. exact (conj book8_session (conj book8'_session (conj (proj1 book8_shape) (proj1 (proj2 book8_shape))))). Qed.

(** C30: the flags: "all rules are monomial" is exact, and "rules keep Hermitian symbols Hermitian" is always true and right. *)
Theorem C30_flags : forall (R : rfield) (F : factory R), factory_ok F -> forall psrt, (forall l, Permutation l (psrt l)) ->
  forall b eqs, session F psrt b eqs ->
  (rb_mono b = true <-> forall r, In r (rb_rules b) -> length (ru_rhs r) <= 1) /\
  rb_herm b = true /\
  (forall r v, In r (rb_rules b) -> herm (fa_table F) (ru_lhs r) = true -> assignment (fa_table F) v -> cim (value v (ru_rhs r)) = r0 R).
Proof. exact t_flags. Qed.
Print Assumptions C30_flags.
Example C30_flags_holds : session F8 keep book8 eqs8.
Proof. exact book8_session. Qed.

(** C30: combining two completed rulebooks gives the rules for both lists of polynomials. *)
Theorem C30_combine : forall (R : rfield) (F : factory R), factory_ok F -> forall psrt, (forall l, Permutation l (psrt l)) ->
  forall b eqs other eqs' fuel b' n, session F psrt b eqs -> session F psrt other eqs' -> combine_and_complete F psrt fuel b other = RDone b' n ->
  rb_raw b' = [] /\ (forall v, assignment (fa_table F) v -> (obeys v (rb_rules b') <-> solves v eqs /\ solves v eqs')) /\
  length (rb_rules b') = n + length (rb_rules b).
Proof. exact t_combine. Qed.
Print Assumptions C30_combine.
Example C30_combine_holds : session F8 keep book8 eqs8 /\ session F8 keep book9 eqs9 /\
  exists b', combine_and_complete F8 keep 2 book8 book9 = RDone b' 1 /\ length (rb_rules b') = 4.
Proof. exact (conj book8_session (conj book9_session combine_done)). Qed.

(** C30: if combining throws, then the rulebook is as before, and: it or the other one was in use, or not completed, or no assignment
    satisfies both lists. *)
Theorem C30_combine_exception : forall (R : rfield) (F : factory R), factory_ok F -> forall psrt, (forall l, Permutation l (psrt l)) ->
  forall b eqs other eqs' fuel b', session F psrt b eqs -> session F psrt other eqs' -> combine_and_complete F psrt fuel b other = RThrow b' ->
  b' = b /\ (locked b = true \/ 0 < rb_uses other \/ rb_raw b <> [] \/ rb_raw other <> [] \/
             forall v, assignment (fa_table F) v -> ~ (solves v eqs /\ solves v eqs')).
Proof. exact t_combine_throw. Qed.
Print Assumptions C30_combine_exception.
Example C30_combine_exception_holds : session F8 keep book8 eqs8 /\ session F8 keep book10 eqs10 /\
  exists b', combine_and_complete F8 keep 4 book8 book10 = RThrow b'.
Proof. exact (conj book8_session (conj book10_session combine_threw)). Qed.

(** C30: rules given as maps from symbols to real values are those equations. *)
Theorem C30_real_map : forall (R : rfield) (F : factory R), factory_ok F ->
  forall l : list (nat * R), (forall x, In x l -> 1 < fst x < length (t_syms (fa_table F))) ->
  Forall (canonical (fa_table F) (fa_lt F)) (map (real_equation F) l) /\
  forall v, assignment (fa_table F) v -> (solves v (map (real_equation F) l) <-> forall i x, In (i, x) l -> v i = creal x).
Proof. exact t_map_real. Qed.
Print Assumptions C30_real_map.
Example C30_real_map_holds : factory_ok F8 /\ forall x, In x [(4, q2); (3, q3)] -> 1 < fst x < length (t_syms (fa_table F8)).
Proof. exact (conj F8_ok map_ids). Qed.

(** C30: and so for maps to complex values. *)
Theorem C30_complex_map : forall (R : rfield) (F : factory R), factory_ok F ->
  forall l : list (nat * cx R), (forall x, In x l -> 1 < fst x < length (t_syms (fa_table F))) ->
  Forall (canonical (fa_table F) (fa_lt F)) (map (complex_equation F) l) /\
  forall v, assignment (fa_table F) v -> (solves v (map (complex_equation F) l) <-> forall i x, In (i, x) l -> v i = x).
Proof. exact t_map_complex. Qed.
Print Assumptions C30_complex_map.
Example C30_complex_map_holds : factory_ok F8 /\ forall x, In x [(4, creal q2); (6, ci)] -> 1 < fst x < length (t_syms (fa_table F8)).
Proof. exact (conj F8_ok cmap_ids). Qed.

(** C30: a rulebook in use that does not allow safe updates can no longer change: every operation on it throws and leaves it as it is,
    and it cannot be combined into another one. *)
Theorem C30_lock : forall (R : rfield) (F : factory R) psrt b eqs, session F psrt b eqs -> rb_safe b = false -> 0 < rb_uses b ->
  (forall ps, add_raw_rules b ps = RThrow b) /\ (forall fuel, complete F psrt fuel b = RThrow b) /\ (forall n, inject F b n = RThrow b) /\
  (forall fuel other, combine_and_complete F psrt fuel b other = RThrow b /\ combine_and_complete F psrt fuel other b = RThrow other) /\
  enable_expansion b = b /\ disable_expansion b = b.
Proof. exact t_lock. Qed.
Print Assumptions C30_lock.
Example C30_lock_holds : session F8 keep (use book8) eqs8 /\ rb_safe (use book8) = false /\ 0 < rb_uses (use book8).
Proof. exact used_case. Qed.

(** C30: one in use that allows them is open exactly between enabling and disabling expansion. *)
Theorem C30_expansion : forall (R : rfield) (F : factory R) psrt b eqs, session F psrt b eqs -> 0 < rb_uses b ->
  (rb_expand b = false -> locked b = true) /\ (rb_safe b = true -> locked (enable_expansion b) = false) /\ locked (disable_expansion b) = true.
Proof. exact t_expansion. Qed.
Print Assumptions C30_expansion.
Example C30_expansion_holds : session F8 keep (use (new_rulebook true)) [] /\ 0 < rb_uses (use (new_rulebook (R := Qc_rfield) true)) /\
  rb_safe (use (new_rulebook (R := Qc_rfield) true)) = true.
Proof. exact safe_case. Qed.

(** C30, refuted: completing again after an exception.  The call that throws has moved from the waiting polynomials; a second call
    succeeds and returns rules, although the polynomials contradict each other. *)
Theorem C30_retry_refuted : exists b eqs b' b'' n, session F8 keep b eqs /\ complete F8 keep (2 * length eqs) b = RThrow b' /\
  complete F8 keep (2 * length eqs) b' = RDone b'' n /\ rb_raw b'' = [] /\ forall v, assignment (fa_table F8) v -> ~ solves v eqs.
Proof. exact retry. Qed.
Print Assumptions C30_retry_refuted.

(** C31: reducing a polynomial gives a canonical polynomial with the same value wherever the rules hold, without symbols determined by
    a rule; reducing again changes nothing. *)
Theorem C31_reduce : forall (R : rfield) (F : factory R), factory_ok F -> forall psrt, (forall l, Permutation l (psrt l)) ->
  forall b eqs p, session F psrt b eqs -> canonical (fa_table F) (fa_lt F) p ->
  canonical (fa_table F) (fa_lt F) (reduce F (rb_rules b) p) /\
  (forall v, assignment (fa_table F) v -> obeys v (rb_rules b) -> value v (reduce F (rb_rules b) p) = value v p) /\
  (forall x, In x (reduce F (rb_rules b) p) -> ~ determined (rb_rules b) (m_id x)) /\
  reduce F (rb_rules b) (reduce F (rb_rules b) p) = reduce F (rb_rules b) p.
Proof. exact t_reduce. Qed.
Print Assumptions C31_reduce.
Example C31_reduce_holds : session F8 keep book8 eqs8 /\ canonical t8 id_less long8 /\
  map (fun x => (m_id x, m_cj x)) (reduce F8 (rb_rules book8) long8) = [(1, false); (3, false); (6, false); (6, true)].
Proof. exact (conj book8_session (conj long_canonical p8_reduced)). Qed.

(** C31: with a completed rulebook two polynomials have the same reduced form iff the equations imply that they are equal. *)
Theorem C31_decides : forall (R : rfield) (F : factory R), factory_ok F -> forall psrt, (forall l, Permutation l (psrt l)) ->
  forall b eqs p q, session F psrt b eqs -> rb_raw b = [] -> canonical (fa_table F) (fa_lt F) p -> canonical (fa_table F) (fa_lt F) q ->
  (reduce F (rb_rules b) p = reduce F (rb_rules b) q <-> forall v, assignment (fa_table F) v -> solves v eqs -> value v p = value v q).
Proof. exact t_decides_reduce. Qed.
Print Assumptions C31_decides.
Example C31_decides_holds : session F8 keep book8 eqs8 /\ rb_raw book8 = [] /\ canonical t8 id_less long8.
Proof. exact (conj book8_session (conj (proj1 book8_shape) long_canonical)). Qed.

(** C31: reducing a single term: as a polynomial it is the same as above; as a term it is the same or, if there is a rule with several
    terms for the symbol, an exception; never if the rulebook says that its rules are monomial. *)
Theorem C31_monomial : forall (R : rfield) (F : factory R), factory_ok F -> forall psrt, (forall l, Permutation l (psrt l)) ->
  forall b eqs x, session F psrt b eqs -> canonical (fa_table F) (fa_lt F) [x] ->
  reduce_mono F (rb_rules b) x = reduce F (rb_rules b) [x] /\
  (forall y, reduce_monomial F (rb_rules b) x = Some y -> poly_of_mono y = reduce F (rb_rules b) [x]) /\
  (rb_mono b = true -> reduce_monomial F (rb_rules b) x <> None) /\
  (reduce_monomial F (rb_rules b) x = None -> exists r, In r (rb_rules b) /\ ru_lhs r = m_id x /\ 1 < length (ru_rhs r)).
Proof. exact t_monomial. Qed.
Print Assumptions C31_monomial.
Example C31_monomial_holds : session F8 keep book8 eqs8 /\ canonical t8 id_less [x4] /\
  option_map (fun x => (m_id x, m_cj x)) (reduce_monomial F8 (rb_rules book8) x4) = Some (3, false) /\
  reduce_monomial F8 (rb_rules book8) x5 = None.
Proof. exact (conj book8_session (conj mono_canonical mono_reduced)). Qed.

(** C31: comparing rulebooks: the verdict says which set of rules implies which, and the rules returned with it are rules of the one
    that the other does not imply. *)
Theorem C31_compare : forall (R : rfield) (F : factory R), factory_ok F -> forall psrt, (forall l, Permutation l (psrt l)) ->
  forall a ea b eb, session F psrt a ea -> session F psrt b eb ->
  let implied rules r := forall v, assignment (fa_table F) v -> obeys v rules -> v (ru_lhs r) = value v (ru_rhs r) in
  let implies rules rules' := forall v, assignment (fa_table F) v -> obeys v rules -> obeys v rules' in
  match compare_rulebooks F (rb_rules a) (rb_rules b) with
  | AEqualsB => implies (rb_rules a) (rb_rules b) /\ implies (rb_rules b) (rb_rules a)
  | BContainsA y => implies (rb_rules b) (rb_rules a) /\ In y (rb_rules b) /\ ~ implied (rb_rules a) y
  | AContainsB x => implies (rb_rules a) (rb_rules b) /\ In x (rb_rules a) /\ ~ implied (rb_rules b) x
  | Disjoint x y => In x (rb_rules a) /\ ~ implied (rb_rules b) x /\ In y (rb_rules b) /\ ~ implied (rb_rules a) y
  end.
Proof. exact t_compare. Qed.
Print Assumptions C31_compare.
Example C31_compare_holds : session F8 keep book8 eqs8 /\ session F8 keep book9 eqs9 /\
  map (fun x => match x with AEqualsB => 0 | BContainsA _ => 1 | AContainsB _ => 2 | Disjoint _ _ => 3 end)
    [compare_rulebooks F8 (rb_rules book8) (rb_rules book8'); compare_rulebooks F8 [] (rb_rules book8); compare_rulebooks F8 (rb_rules book8) (rb_rules book9)] = [0; 1; 3].
Proof. exact (conj book8_session (conj book9_session rulebooks_compare)). Qed.
