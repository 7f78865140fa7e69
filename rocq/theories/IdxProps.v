(** C79: every index of a matrix finds the matrix stored for it. *)
From Coq Require Import List NArith ZArith Arith Bool.
From Verif Require Import CoreModel CoreSpec FieldModel PolyModel SymModel SymSpec PolySpec PolyWitnessProofs PauliModel IdxModel IdxSpec IdxProofs IdxFinalProofs IdxWitnessProofs.
Import ListNotations.
Local Open Scope nat_scope.

(** Moment matrices by level (and transformed matrices by offset): vectors. *)
Theorem C79_levels : faithful any eq vector_storage.
Proof. exact vector_faithful. Qed.
Print Assumptions C79_levels.
Example C79_levels_holds : valid any level_hist /\ stored eq level_hist 1 1%Z /\ missing eq level_hist 2. Proof. exact level_stored. Qed.

(** Moment matrices of Pauli scenarios by level and neighbours, substituted matrices by matrix and rulebook: maps. *)
Theorem C79_neighbours : faithful any eq (map_storage nn_less).
Proof. exact nn_faithful. Qed.
Print Assumptions C79_neighbours.
Theorem C79_substituted : faithful any eq (map_storage sub_less).
Proof. exact sub_faithful. Qed.
Print Assumptions C79_substituted.
Example C79_pairs_hold : valid any (two_hist Z.of_nat) /\ stored eq (two_hist Z.of_nat) (2, 1)%Z 1%Z /\ missing eq (two_hist Z.of_nat) (2, 2)%Z. Proof. exact (two_stored Z.of_nat ltac:(discriminate)). Qed.

(** Extended matrices by level and symbols: a tree. *)
Theorem C79_extended : faithful level_fits eq extended_storage.
Proof. exact extended_faithful. Qed.
Print Assumptions C79_extended.
Example C79_extended_holds : valid level_fits ext_hist /\ stored eq ext_hist (1, [4; 7])%Z 1%Z /\ missing eq ext_hist (1, [4])%Z. Proof. exact (conj ext_valid ext_stored). Qed.

(** Polynomial localizing matrices, if coefficients are compared exactly (with a tolerance the order is none: C46). *)
Theorem C79_polynomial : forall (R : rfield) t (lt : mono R -> mono R -> bool) rcmp, term_order t lt -> exact_compare rcmp ->
  faithful (poly_ok t) eq (polynomial_storage (poly_index_less rcmp lt)).
Proof. exact poly_faithful. Qed.
Print Assumptions C79_polynomial.
Theorem C79_polynomial_neighbours : forall (R : rfield) t (lt : mono R -> mono R -> bool) rcmp, term_order t lt -> exact_compare rcmp ->
  faithful (poly_ok t) eq (polynomial_storage (nn_poly_less rcmp lt)).
Proof. exact nn_poly_faithful. Qed.
Print Assumptions C79_polynomial_neighbours.
Example C79_polynomial_holds : term_order t8 (@id_less Q') /\ exact_compare qcmp /\ valid (poly_ok t8) poly_hist /\ stored eq poly_hist (1, []) 1%Z /\ missing eq poly_hist (2, []). Proof. exact poly_stored. Qed.

(** Localizing matrices: an index may find the matrix of another word, ... *)
Theorem C79_localizing_refuted : exists r L (k k' : loc_index) o, (count_words (N.of_nat r) L < two64)%N /\ hashed r L (snd k) /\ hashed r L (snd k') /\ (0 <= o)%Z /\ k <> k' /\
  st_find (map_storage loc_less) (after (map_storage loc_less) [(k, o)]) k' = o.
Proof. exact loc_refuted. Qed.
Print Assumptions C79_localizing_refuted.
(** ... such as that of Z for X times Y; *)
Theorem C79_pauli_refuted : exists n (k k' : pauli_index) o, snd k = pauli_sequence n [2] SPos /\ snd k' = pauli_sequence n [0; 1] SPos /\ (0 <= o)%Z /\ k <> k' /\
  st_find (map_storage pauli_less) (after (map_storage pauli_less) [(k, o)]) k' = o.
Proof. exact pauli_refuted. Qed.
Print Assumptions C79_pauli_refuted.
(** it finds the first one stored for the same word, whatever its sign; so words without signs find their own. *)
Theorem C79_localizing_sign : forall r L, (count_words (N.of_nat r) L < two64)%N ->
  faithful (fun k => hashed r L (snd k)) (fun a b => fst a = fst b /\ same_up_to_sign (snd a) (snd b)) (map_storage loc_less).
Proof. exact loc_up_to_sign. Qed.
Print Assumptions C79_localizing_sign.
Theorem C79_pauli_sign : forall r L, (count_words (N.of_nat r) L < two64)%N ->
  faithful (fun k => hashed r L (snd k)) (fun a b => fst a = fst b /\ same_up_to_sign (snd a) (snd b)) (map_storage pauli_less).
Proof. exact pauli_up_to_sign. Qed.
Print Assumptions C79_pauli_sign.
Theorem C79_localizing_partial : forall r L, (count_words (N.of_nat r) L < two64)%N -> faithful (fun k => unsigned r L (snd k)) eq (map_storage loc_less).
Proof. exact loc_unsigned. Qed.
Print Assumptions C79_localizing_partial.
Theorem C79_pauli_partial : forall r L, (count_words (N.of_nat r) L < two64)%N -> faithful (fun k => unsigned r L (snd k)) eq (map_storage pauli_less).
Proof. exact pauli_unsigned. Qed.
Print Assumptions C79_pauli_partial.
Example C79_localizing_holds : (count_words (N.of_nat 3) 4 < two64)%N /\ valid (fun k => unsigned 3 4 (snd k)) loc_hist /\ stored eq loc_hist (2, hseq_make 3 [1; 0] SPos) 5%Z /\ missing eq loc_hist (1, hseq_make 3 [1; 0] SPos).
Proof. exact (conj three_words (conj loc_valid (conj loc_stored loc_missing))). Qed.
