(** C88: algebra on arrays of polynomials acts entry by entry. *)
From Coq Require Import List NArith ZArith Arith Bool.
From Verif Require Import CoreModel FieldModel FieldProofs SymModel PolyModel AlgModel PauliModel PauliSpec RawModel RawSpec RawFinalProofs AopModel AopSpec AopProofs AopFinalProofs AopWitnessProofs.
Import ListNotations.
Local Open Scope list_scope.
Local Open Scope nat_scope.

(** Sums: each entry of the result is the sum of the two entries at its place, in every representation; a single operand counts at every place. *)
Theorem C88_sum_partial : forall (R : rfield) t srt unit (A : cspace R) V (rep : hseq -> A) lhs rhs o, hash_exact V -> represents V rep -> array_ok lhs -> array_ok rhs ->
  operand_in t srt unit V lhs -> operand_in t srt unit V rhs -> plus t srt unit lhs rhs = AOk o ->
  pointwise t srt unit (fun p q r => condensed V r /\ poly_in rep r = v_add (poly_in rep p) (poly_in rep q)) lhs rhs o.
Proof. exact @plus_spec. Qed.
Print Assumptions C88_sum_partial.
(** Products: likewise, the left operand on the left. *)
Theorem C88_product_partial : forall (R : rfield) t srt unit (A : cspace R) V W (rep : hseq -> A) tm mul lhs rhs o, multiplies A V W rep tm mul -> array_ok lhs -> array_ok rhs ->
  operand_in t srt unit V lhs -> operand_in t srt unit V rhs -> times t srt unit mul lhs rhs = AOk o ->
  pointwise t srt unit (fun p q r => condensed W r /\ poly_in rep r = tm (poly_in rep p) (poly_in rep q)) lhs rhs o.
Proof. exact @times_spec. Qed.
Print Assumptions C88_product_partial.
(** Commutators and anticommutators: PQ - QP and PQ + QP. *)
Theorem C88_bracket_partial : forall (R : rfield) t srt unit (A : cspace R) V W (rep : hseq -> A) tm mul lhs rhs o (anti : bool), hash_exact W -> represents W rep -> multiplies A V W rep tm mul -> array_ok lhs -> array_ok rhs ->
  operand_in t srt unit V lhs -> operand_in t srt unit V rhs -> bracket t srt unit mul anti lhs rhs = AOk o ->
  pointwise t srt unit (fun p q r => condensed W r /\ poly_in rep r = v_add (tm (poly_in rep p) (poly_in rep q)) (v_scale (if anti then c1 else copp c1) (tm (poly_in rep q) (poly_in rep p)))) lhs rhs o.
Proof. exact @bracket_spec. Qed.
Print Assumptions C88_bracket_partial.
Theorem C88_pauli_bracket_partial : forall (R : rfield) t srt unit (A : cspace R) n l (rep : hseq -> A) tm lhs rhs o (anti : bool), pauli_safe n (l + l) -> represents (pauli_wf n (l + l)) rep -> bilinear tm ->
  (forall a b, pauli_wf n (l + l) a /\ hs_hash a <> 0%N -> pauli_wf n (l + l) b /\ hs_hash b <> 0%N -> rep (pauli_multiply n a b) = tm (rep a) (rep b)) -> array_ok lhs -> array_ok rhs ->
  operand_in t srt unit (fun q => pauli_wf n l q /\ hs_hash q <> 0%N) lhs -> operand_in t srt unit (fun q => pauli_wf n l q /\ hs_hash q <> 0%N) rhs -> pauli_bracket t srt unit n anti lhs rhs = AOk o ->
  pointwise t srt unit (fun p q r => condensed (pauli_wf n (l + l)) r /\ poly_in rep r = v_add (tm (poly_in rep p) (poly_in rep q)) (v_scale (if anti then c1 else copp c1) (tm (poly_in rep q) (poly_in rep p)))) lhs rhs o.
Proof. exact @pauli_bracket_spec. Qed.
Print Assumptions C88_pauli_bracket_partial.
Example C88_values_nonvacuous : hash_exact (qubit_word 1) /\ hash_exact (qubit_word 2) /\ (forall V, represents V (m2_rep Qc_rfield)) /\ multiplies (m2_space Qc_rfield) (qubit_word 1) (qubit_word 2) (m2_rep Qc_rfield) (m2_mul Qc_rfield) qubit_mul /\
  (operand_in table_start qsort qubit_unit (qubit_word 1) qubit_ops /\ operand_in table_start qsort qubit_unit (qubit_word 1) qubit_op /\ operand_in table_start qsort qubit_unit (qubit_word 1) qubit_numbers) /\
  (array_ok qubit_ops /\ array_ok qubit_op /\ array_ok qubit_numbers /\ inhabited_array qubit_ops /\ inhabited_array qubit_op /\ inhabited_array qubit_numbers) /\
  ((exists o, plus table_start qsort qubit_unit qubit_ops qubit_op = AOk o) /\ (exists o, plus table_start qsort qubit_unit qubit_numbers qubit_ops = AOk o) /\
   (exists o, times table_start qsort qubit_unit qubit_mul qubit_ops qubit_op = AOk o) /\ (forall anti, exists o, bracket table_start qsort qubit_unit qubit_mul anti qubit_ops qubit_op = AOk o)).
Proof. exact (conj (qubit_exact 1 (le_S _ _ (le_n _))) (conj (qubit_exact 2 (le_n _)) (conj qubit_represents (conj qubit_multiplies (conj qubit_inside (conj qubit_arrays qubit_results)))))). Qed.
Example C88_pauli_nonvacuous : pauli_safe 1 (1 + 1) /\ represents (pauli_wf 1 2) (m2_rep Qc_rfield) /\ bilinear (m2_mul Qc_rfield) /\
  (forall a b, pauli_wf 1 2 a /\ hs_hash a <> 0%N -> pauli_wf 1 2 b /\ hs_hash b <> 0%N -> m2_rep Qc_rfield (pauli_multiply 1 a b) = m2_mul Qc_rfield (m2_rep Qc_rfield a) (m2_rep Qc_rfield b)) /\ forall anti, exists o, pauli_bracket table_start qsort qubit_unit 1 anti qubit_ops qubit_op = AOk o.
Proof. exact (conj qubit_safe (conj (qubit_represents _) (conj (m2_bilinear _) (conj (fun a b A B => m2_multiplicative _ 2 a b A B) qubit_pauli_result)))). Qed.

(** What is computed: exactly arrays that fit, one of them single or both of one shape, all of whose entries have words. *)
Theorem C88_accepted_partial : forall (R : rfield) t (srt : list (mono R) -> list (mono R)) unit lhs rhs, array_ok (R:=R) lhs -> array_ok rhs -> inhabited_array lhs -> inhabited_array rhs ->
  ((exists o, plus t srt unit lhs rhs = AOk o) <-> acceptable t srt unit lhs rhs).
Proof. exact @plus_accepted. Qed.
Print Assumptions C88_accepted_partial.
Theorem C88_products_accepted_partial : forall (R : rfield) t (srt : list (mono R) -> list (mono R)) unit (A : cspace R) V W (rep : hseq -> A) tm mul lhs rhs, multiplies A V W rep tm mul -> array_ok lhs -> array_ok rhs -> inhabited_array lhs -> inhabited_array rhs ->
  operand_in t srt unit V lhs -> operand_in t srt unit V rhs ->
  ((exists o, times t srt unit mul lhs rhs = AOk o) <-> acceptable t srt unit lhs rhs) /\ forall anti, (exists o, bracket t srt unit mul anti lhs rhs = AOk o) <-> acceptable t srt unit lhs rhs.
Proof. exact @times_accepted. Qed.
Print Assumptions C88_products_accepted_partial.
Example C88_accepted_nonvacuous : acceptable table_start qsort qubit_unit qubit_ops qubit_op /\ acceptable table_start qsort qubit_unit qubit_numbers qubit_ops.
Proof. exact qubit_readable. Qed.

(** Arrays of different shapes, and an array with a matrix, are never computed; sums report this as an internal error. *)
Theorem C88_unfit_partial : forall (R : rfield) t (srt : list (mono R) -> list (mono R)) unit mul (lhs rhs : given (R:=R)) anti n, unfit lhs rhs \/ matrix_and_array lhs rhs ->
  plus t srt unit lhs rhs = AErr AInternal /\ times t srt unit mul lhs rhs = AErr ABad /\ bracket t srt unit mul anti lhs rhs = AErr ABad /\ pauli_bracket t srt unit n anti lhs rhs = AErr ABad.
Proof. exact refusals. Qed.
Print Assumptions C88_unfit_partial.
Example C88_unfit_nonvacuous : unfit qubit_ops (GArray [3; 1] (ENumbers false [c1; c1; c1])) /\ matrix_and_array (R:=Qc_rfield) (GInteger 0) qubit_ops.
Proof. exact refusal_example. Qed.

(** A matrix and a single polynomial: sums and products go to the matrix code, commutators are refused; two matrices can only be added. *)
Theorem C88_matrices : forall (R : rfield) t (srt : list (mono R) -> list (mono R)) unit mul anti n,
  (forall lhs rhs, matrix_and_single lhs rhs -> plus t srt unit lhs rhs = AMatrix /\ times t srt unit mul lhs rhs = AMatrix /\ bracket t srt unit mul anti lhs rhs = AErr ABad /\ pauli_bracket t srt unit n anti lhs rhs = AErr ABad) /\
  forall i j, plus t srt unit (GInteger i) (GInteger j) = AMatrix /\ times t srt unit mul (GInteger i) (GInteger j) = AErr ABad /\ bracket t srt unit mul anti (GInteger i) (GInteger j) = AErr ABad.
Proof. exact matrices. Qed.
Print Assumptions C88_matrices.
Example C88_matrices_nonvacuous : matrix_and_single (R:=Qc_rfield) (GInteger 0) qubit_op.
Proof. exact matrices_example. Qed.

(** The full claim, that the zero written as an empty cell is a polynomial like others, is false: it is classed as one, and then every operation fails as internal. *)
Theorem C88_empty_refuted : forall (R : rfield) t (srt : list (mono R) -> list (mono R)) unit, exists lhs rhs k1 k2, kind_of (R:=R) lhs = AOk k1 /\ kind_of (R:=R) rhs = AOk k2 /\ product_type k1 (shape_of lhs) k2 (shape_of rhs) = POneToOne /\
  plus t srt unit lhs rhs = AErr AInternal /\ forall mul, times t srt unit mul lhs rhs = AErr AInternal.
Proof. exact empty_refuted. Qed.
Print Assumptions C88_empty_refuted.
(** The full claim, that operands of different shapes are refused as bad parameters, is false of sums. *)
Theorem C88_mismatch_refuted : forall (R : rfield) t (srt : list (mono R) -> list (mono R)) unit, exists lhs rhs : given (R:=R), unfit lhs rhs /\ array_ok lhs /\ array_ok rhs /\ plus t srt unit lhs rhs = AErr AInternal /\
  forall mul, times t srt unit mul lhs rhs = AErr ABad.
Proof. exact mismatch_refuted. Qed.
Print Assumptions C88_mismatch_refuted.
