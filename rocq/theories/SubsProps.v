(** C75: matrices with the rules of a rulebook substituted into them. *)
From Coq Require Import List Arith Bool Permutation.
From Verif Require Import FieldModel SymModel PolyModel PolySpec PolyWitnessProofs RuleModel RuleSpec BasModel BasSpec BasWitnessProofs RuleWitnessProofs SubsModel SubsSpec SubsProofs SubsWitnessProofs.
Import ListNotations.

(** The matrix can always be made, whatever the rules are, with as many rows and columns; the rulebook counts as used. *)
Theorem C75_made : forall R (F : factory R), factory_ok F -> forall psrt, (forall l, Permutation l (psrt l)) -> forall nonneg b eqs d s, session F psrt b eqs -> proper F d s ->
  exists m, create_substituted F nonneg d b s = (Some m, use b) /\ sm_dim m = d /\ length (sm_cells m) = d * d.
Proof. exact made. Qed.
Print Assumptions C75_made.
Example C75_made_holds : factory_ok F8 /\ (forall l, Permutation l (keep l)) /\ session F8 keep book8 eqs8 /\ session F8 keep book9 eqs9 /\ proper F8 2 mono8 /\ proper F8 2 poly8 /\ proper F8 2 mono9.
Proof. exact (conj F8_ok (conj keep_ok (conj book8_session (conj book9_session (conj mono8_proper (conj poly8_proper mono9_proper)))))). Qed.
Example C75_made_runs : shown (made_of 2 book8 poly8) = Some ([[(1, false)]; [(2, false); (3, false)]; [(2, false); (3, false)]; [(3, false)]], true) /\
  shown (made_of 2 book8 mono8) = Some ([[(1, false)]; [(1, false); (3, false); (6, false); (6, true)]; [(1, false); (3, false); (6, false); (6, true)]; [(3, false)]], true).
Proof. exact (conj poly8_made mono8_made). Qed.

(** Every element has the value it had, wherever the rules hold. *)
Theorem C75_values : forall R (F : factory R), factory_ok F -> forall psrt, (forall l, Permutation l (psrt l)) -> forall nonneg b eqs d s, session F psrt b eqs -> proper F d s ->
  forall m, fst (create_substituted F nonneg d b s) = Some m -> forall v, assignment (fa_table F) v -> obeys v (rb_rules b) ->
  forall r c, r < d -> c < d -> value v (result_entry m r c) = value v (source_entry d s r c).
Proof. exact values. Qed.
Print Assumptions C75_values.
Example C75_values_holds : session F8 keep book8 eqs8 /\ proper F8 2 mono8 /\ (exists m, fst (create_substituted F8 pos8 2 book8 mono8) = Some m) /\ assignment t8 w8 /\ obeys w8 (rb_rules book8).
Proof. exact (conj book8_session (conj mono8_proper (conj mono8_some (conj w8_assignment w8_obeys)))). Qed.

(** No symbol that the rules determine is left. *)
Theorem C75_reduced : forall R (F : factory R), factory_ok F -> forall psrt, (forall l, Permutation l (psrt l)) -> forall nonneg b eqs d s, session F psrt b eqs -> proper F d s ->
  forall m, fst (create_substituted F nonneg d b s) = Some m -> forall p x, In p (sm_cells m) -> In x p -> ~ determined (rb_rules b) (m_id x).
Proof. exact reduced. Qed.
Print Assumptions C75_reduced.
Example C75_reduced_holds : session F8 keep book8 eqs8 /\ proper F8 2 alike8 /\ (exists m, fst (create_substituted F8 pos8 2 book8 alike8) = Some m) /\
  shown (made_of 2 book8 alike8) = Some ([[(3, false)]; [(3, false)]; [(1, false); (3, false)]; [(1, false)]], false).
Proof. exact (conj book8_session (conj alike8_proper (conj alike8_some alike8_made))). Qed.

(** A Hermitian matrix stays Hermitian, ... *)
Theorem C75_hermitian : forall R (F : factory R), factory_ok F -> forall psrt, (forall l, Permutation l (psrt l)) -> forall nonneg b eqs d s, session F psrt b eqs -> proper F d s ->
  forall m, fst (create_substituted F nonneg d b s) = Some m -> truly_hermitian (fa_table F) d (source_entry d s) -> truly_hermitian (fa_table F) d (result_entry m).
Proof. exact result_hermitian. Qed.
Print Assumptions C75_hermitian.
(** ... and is known to be. *)
Theorem C75_known_hermitian : forall R (F : factory R), factory_ok F -> forall psrt, (forall l, Permutation l (psrt l)) -> forall nonneg b eqs d s, session F psrt b eqs -> proper F d s ->
  forall m, fst (create_substituted F nonneg d b s) = Some m -> (forall h l, s = SMono h l -> h = true) -> truly_hermitian (fa_table F) d (source_entry d s) -> sm_herm m = true.
Proof. exact flagged. Qed.
Print Assumptions C75_known_hermitian.
Example C75_hermitian_holds : session F8 keep book8 eqs8 /\ proper F8 2 mono8 /\ (exists m, fst (create_substituted F8 pos8 2 book8 mono8) = Some m) /\ truly_hermitian t8 2 (source_entry 2 mono8) /\
  proper F8 2 poly8 /\ (exists m, fst (create_substituted F8 pos8 2 book8 poly8) = Some m) /\ truly_hermitian t8 2 (source_entry 2 poly8).
Proof. exact (conj book8_session (conj mono8_proper (conj mono8_some (conj cells8_hermitian (conj poly8_proper (conj poly8_some polys8_hermitian)))))). Qed.

(** Monomial rules keep a matrix of monomials one, and it is Hermitian if it says so. *)
Theorem C75_monomial : forall R (F : factory R), factory_ok F -> forall psrt, (forall l, Permutation l (psrt l)) -> forall nonneg b eqs d s, session F psrt b eqs -> proper F d s ->
  forall m, fst (create_substituted F nonneg d b s) = Some m -> of_monomials b s = true ->
  Forall (fun p => length p <= 1) (sm_cells m) /\ (sm_herm m = true -> truly_hermitian (fa_table F) d (result_entry m)).
Proof. exact mono_flag. Qed.
Print Assumptions C75_monomial.
Example C75_monomial_holds : session F8 keep book9 eqs9 /\ proper F8 2 mono9 /\ (exists m, fst (create_substituted F8 pos8 2 book9 mono9) = Some m) /\ of_monomials book9 mono9 = true /\
  shown (made_of 2 book9 mono9) = Some ([[(1, false)]; [(2, false)]; [(2, false)]; [(0, false)]], true).
Proof. exact (conj book9_session (conj mono9_proper (conj mono9_some (conj eq_refl mono9_made)))). Qed.

(** With a completed rulebook, two elements of the result are the same exactly if the equations make the originals equal. *)
Theorem C75_decides : forall R (F : factory R), factory_ok F -> forall psrt, (forall l, Permutation l (psrt l)) -> forall nonneg b eqs d s, session F psrt b eqs -> proper F d s ->
  forall m, fst (create_substituted F nonneg d b s) = Some m -> rb_raw b = [] -> forall r c r' c', r < d -> c < d -> r' < d -> c' < d ->
  (same_value (fa_table F) (result_entry m r c) (result_entry m r' c') <->
   forall v, assignment (fa_table F) v -> solves v eqs -> value v (source_entry d s r c) = value v (source_entry d s r' c')).
Proof. exact decides. Qed.
Print Assumptions C75_decides.
Example C75_decides_holds : session F8 keep book8 eqs8 /\ proper F8 2 alike8 /\ (exists m, fst (create_substituted F8 pos8 2 book8 alike8) = Some m) /\ rb_raw book8 = [] /\
  shown (made_of 2 book8 alike8) = Some ([[(3, false)]; [(3, false)]; [(1, false); (3, false)]; [(1, false)]], false) /\ assignment t8 w8 /\ solves w8 eqs8.
Proof. exact (conj book8_session (conj alike8_proper (conj alike8_some (conj (proj1 book8_shape) (conj alike8_made (conj w8_assignment w8_solves)))))). Qed.

(** Substituting once more can be done, and alters nothing. *)
Theorem C75_again : forall R (F : factory R), factory_ok F -> forall psrt, (forall l, Permutation l (psrt l)) -> forall nonneg b eqs d s, session F psrt b eqs -> proper F d s ->
  forall m, fst (create_substituted F nonneg d b s) = Some m -> exists m', fst (create_substituted F nonneg d b (again b s m)) = Some m' /\
  forall r c, r < d -> c < d -> same_value (fa_table F) (result_entry m' r c) (result_entry m r c).
Proof. exact twice. Qed.
Print Assumptions C75_again.
Example C75_again_holds : session F8 keep book8 eqs8 /\ proper F8 2 poly8 /\ (exists m, fst (create_substituted F8 pos8 2 book8 poly8) = Some m) /\
  session F8 keep book9 eqs9 /\ proper F8 2 mono9 /\ exists m, fst (create_substituted F8 pos8 2 book9 mono9) = Some m.
Proof. exact (conj book8_session (conj poly8_proper (conj poly8_some (conj book9_session (conj mono9_proper mono9_some))))). Qed.
