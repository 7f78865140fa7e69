(** C80: exporting moment rules as a matrix. *)
From Coq Require Import List NArith Arith Bool Permutation.
From Verif Require Import CoreModel FieldModel SymModel SymSpec SymWitnessProofs PolyModel PolySpec PolyWitnessProofs RuleModel RuleSpec RuleWitnessProofs RbmModel RbmSpec RbmFinalProofs RbmWitnessProofs.
Import ListNotations.

(** The export always succeeds, and all entries lie inside of the square matrix over the real and imaginary basis. *)
Theorem C80_exports : forall (R : rfield) (F : factory R), factory_ok F -> forall c V, lawful c V -> reachable_clean c V (fa_table F) ->
  forall psrt, (forall l, Permutation l (psrt l)) -> forall b eqs, session F psrt b eqs -> forall mostly mode,
  exists M, rulebook_matrix (fa_table F) mostly mode (rb_rules b) = Some M /\ fits_in (dimension (fa_table F)) M.
Proof. exact t_matrix. Qed.
Print Assumptions C80_exports.
Example C80_exports_holds : factory_ok F8 /\ lawful anti3_sctx anti3_words /\ reachable_clean anti3_sctx anti3_words (fa_table F8) /\ session F8 keep book8 eqs8 /\
  option_map (@length _) (rulebook_matrix t8 qmostly Rewrite (rb_rules book8)) = Some 10 /\ dimension t8 = 8.
Proof. exact (conj F8_ok (conj anti3_lawful (conj t8_clean (conj book8_session (conj (proj1 book8_matrices) (proj2 (proj2 book8_matrices))))))). Qed.

(** The rewriting matrix applies every rule once to the values of the symbols ... *)
Theorem C80_rewrite : forall (R : rfield) (F : factory R), factory_ok F -> forall c V, lawful c V -> reachable_clean c V (fa_table F) ->
  forall psrt, (forall l, Permutation l (psrt l)) -> forall b eqs, session F psrt b eqs -> forall mostly M, rulebook_matrix (fa_table F) mostly Rewrite (rb_rules b) = Some M ->
  forall v, assignment (fa_table F) v -> exists w, assignment (fa_table F) w /\ applied (rb_rules b) v w /\
    product (dimension (fa_table F)) M (both_elem (fa_table F) v) (both_elem (fa_table F) w).
Proof. exact t_rewrite. Qed.
Print Assumptions C80_rewrite.
Example C80_rewrite_holds : session F8m keep bookm eqsm /\ assignment (fa_table F8m) v8 /\
  map (fun r => (ru_lhs r, ru_partial r, length (ru_rhs r))) (rb_rules bookm) = [(6, true, 2); (7, false, 2)].
Proof. exact (conj bookm_session (conj F8m_v (proj2 bookm_shape))). Qed.

(** ... and keeps exactly the values that obey the rules. *)
Theorem C80_fixed : forall (R : rfield) (F : factory R), factory_ok F -> forall c V, lawful c V -> reachable_clean c V (fa_table F) ->
  forall psrt, (forall l, Permutation l (psrt l)) -> forall b eqs, session F psrt b eqs -> forall mostly M, rulebook_matrix (fa_table F) mostly Rewrite (rb_rules b) = Some M ->
  forall v, assignment (fa_table F) v ->
  (product (dimension (fa_table F)) M (both_elem (fa_table F) v) (both_elem (fa_table F) v) <-> obeys v (rb_rules b)).
Proof. exact t_fixed. Qed.
Print Assumptions C80_fixed.
Example C80_fixed_holds : session F8m keep bookm eqsm /\ assignment (fa_table F8m) v8. Proof. exact (conj bookm_session F8m_v). Qed.

(** The homogeneous matrix gives zero exactly for the values that obey the rules. *)
Theorem C80_homogeneous : forall (R : rfield) (F : factory R), factory_ok F -> forall c V, lawful c V -> reachable_clean c V (fa_table F) ->
  forall psrt, (forall l, Permutation l (psrt l)) -> forall b eqs, session F psrt b eqs -> forall mostly M, rulebook_matrix (fa_table F) mostly Homogeneous (rb_rules b) = Some M ->
  forall v, assignment (fa_table F) v ->
  (product (dimension (fa_table F)) M (both_elem (fa_table F) v) (fun _ => r0 R) <-> obeys v (rb_rules b)).
Proof. exact t_homogeneous. Qed.
Print Assumptions C80_homogeneous.
Example C80_homogeneous_holds : session F8 keep book8 eqs8 /\ option_map (@length _) (rulebook_matrix t8 qmostly Homogeneous (rb_rules book8)) = Some 8.
Proof. exact (conj book8_session (proj1 (proj2 book8_matrices))). Qed.

(** For a completed rulebook both matrices describe the solutions of the equations that it was given. *)
Theorem C80_equations : forall (R : rfield) (F : factory R), factory_ok F -> forall c V, lawful c V -> reachable_clean c V (fa_table F) ->
  forall psrt, (forall l, Permutation l (psrt l)) -> forall b eqs, session F psrt b eqs -> forall mostly M N, rb_raw b = [] ->
  rulebook_matrix (fa_table F) mostly Rewrite (rb_rules b) = Some M -> rulebook_matrix (fa_table F) mostly Homogeneous (rb_rules b) = Some N ->
  forall v, assignment (fa_table F) v ->
  (product (dimension (fa_table F)) M (both_elem (fa_table F) v) (both_elem (fa_table F) v) <-> solves v eqs) /\
  (product (dimension (fa_table F)) N (both_elem (fa_table F) v) (fun _ => r0 R) <-> solves v eqs).
Proof. exact t_equations_matrix. Qed.
Print Assumptions C80_equations.
Example C80_equations_holds : session F8 keep book8 eqs8 /\ rb_raw book8 = [] /\ assignment t8 v8. Proof. exact (conj book8_session (conj (proj1 book8_shape) v8_assignment)). Qed.

(** If every partial rule fixes a real part or an imaginary part, then rewriting any values gives values that obey the rules, and
    rewriting them again changes nothing ... *)
Theorem C80_solution_partial : forall (R : rfield) (F : factory R), factory_ok F -> forall c V, lawful c V -> reachable_clean c V (fa_table F) ->
  forall psrt, (forall l, Permutation l (psrt l)) -> forall b eqs, session F psrt b eqs -> forall mostly M, rulebook_matrix (fa_table F) mostly Rewrite (rb_rules b) = Some M ->
  straight (rb_rules b) -> forall v, assignment (fa_table F) v ->
  exists w, assignment (fa_table F) w /\ obeys w (rb_rules b) /\ applied (rb_rules b) v w /\
    product (dimension (fa_table F)) M (both_elem (fa_table F) v) (both_elem (fa_table F) w) /\
    product (dimension (fa_table F)) M (both_elem (fa_table F) w) (both_elem (fa_table F) w).
Proof. exact t_straight. Qed.
Print Assumptions C80_solution_partial.
Example C80_solution_partial_holds : session F8 keep book8 eqs8 /\ straight (rb_rules book8) /\ assignment t8 v8. Proof. exact (conj book8_session (conj book8_straight v8_assignment)). Qed.

(** ... but not for rules that fix a mixture of both: the result of rewriting need not obey the rules. *)
Theorem C80_solution_refuted : exists (R : rfield) (F : factory R) c V psrt b eqs mostly M v, factory_ok F /\ lawful c V /\ reachable_clean c V (fa_table F) /\
  (forall l, Permutation l (psrt l)) /\ session F psrt b eqs /\ rb_raw b = [] /\ rulebook_matrix (fa_table F) mostly Rewrite (rb_rules b) = Some M /\ assignment (fa_table F) v /\
  ~ exists w, assignment (fa_table F) w /\ obeys w (rb_rules b) /\ product (dimension (fa_table F)) M (both_elem (fa_table F) v) (both_elem (fa_table F) w).
Proof. exact rewrite_once_refuted. Qed.
Print Assumptions C80_solution_refuted.
