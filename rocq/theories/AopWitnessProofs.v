(** Witnesses for algebra on arrays of polynomials: operators of one qubit. *)
From Coq Require Import List NArith ZArith QArith Qcanon Arith Bool Lia.
From Verif Require Import CoreModel FieldModel FieldProofs SymModel SymWitnessProofs PolyModel PolyProofs PolyTableProofs PolyWitnessProofs AlgModel PauliModel PauliSpec PauliFinalProofs RawModel RawSpec RawProofs RawInstProofs RawFinalProofs AopModel AopSpec AopProofs AopFinalProofs.
Import ListNotations.
Local Open Scope list_scope.
Local Open Scope nat_scope.

Definition qubit_word (l : nat) (q : hseq) : Prop := pauli_wf 1 l q /\ hs_hash q <> 0%N.
Definition qubit_mul (a b : hseq) : res hseq := Ret (pauli_multiply 1 a b).
Definition qubit_unit : hseq := hseq_const false.
Definition qubit_ops : given (R := Q') :=
  GArray [2; 1] (EOps [[(hseq_const false, cq 2 0); (pauli_sequence 1 [0] SPos, cq 1 0)]; [(pauli_sequence 1 [1] SPos, cq 0 1); (pauli_sequence 1 [0] SPos, cq 3 0)]]).
Definition qubit_op : given (R := Q') := GArray [1; 1] (EOps [[(pauli_sequence 1 [1] SPos, cq 1 0)]]).
Definition qubit_numbers : given (R := Q') := GArray [2; 1] (ENumbers true [cq 0 0; cq 0 2]).
Definition qsort := isort (@id_less Q').

Lemma qubit_words : qubit_word 1 (hseq_const false) /\ qubit_word 1 (pauli_sequence 1 [0] SPos) /\ qubit_word 1 (pauli_sequence 1 [1] SPos).
Proof.
  destruct arithmetic_example as (_ & _ & _ & F & _). rewrite Forall_forall in F. repeat split; apply F; cbn; auto.
Qed.
Lemma qubit_safe : pauli_safe 1 2. Proof. vm_compute. reflexivity. Qed.
Lemma qubit_exact l : l <= 2 -> hash_exact (qubit_word l).
Proof. intro H. destruct l as [|[|[|l]]]; [| | |lia]; apply pauli_word_exact; vm_compute; reflexivity. Qed.
Lemma qubit_represents V : represents V (m2_rep Q'). Proof. apply m2_represents. Qed.
Lemma qubit_multiplies : multiplies (m2_space Q') (qubit_word 1) (qubit_word 2) (m2_rep Q') (m2_mul Q') qubit_mul.
Proof.
  intros p q P Q. apply (pauli_product Q' (m2_space Q') 1 1 1); [exact qubit_safe|apply m2_represents|apply m2_bilinear| |now apply wf_words|now apply wf_words].
  intros a b A B. now apply (m2_multiplicative Q' 1).
Qed.
Lemma qubit_inside : operand_in table_start qsort qubit_unit (qubit_word 1) qubit_ops /\ operand_in table_start qsort qubit_unit (qubit_word 1) qubit_op /\ operand_in table_start qsort qubit_unit (qubit_word 1) qubit_numbers.
Proof.
  destruct qubit_words as (E & X & Y). split; [|split].
  - intros [|[|i]] p H; cbn in H; [injection H as <-|injection H as <-|destruct i; discriminate]; repeat (constructor; [split; [assumption|reflexivity]|]); constructor.
  - intros [|i] p H; cbn in H; [injection H as <-|destruct i; discriminate]; repeat (constructor; [split; [assumption|reflexivity]|]); constructor.
  - intros i p (w & _ & [[_ ->]|[_ ->]]); [constructor|]. constructor; [split; [exact E|reflexivity]|constructor].
Qed.
Lemma qubit_arrays : array_ok qubit_ops /\ array_ok qubit_op /\ array_ok qubit_numbers /\ inhabited_array qubit_ops /\ inhabited_array qubit_op /\ inhabited_array qubit_numbers.
Proof. cbn. repeat split; lia. Qed.
Lemma qubit_readable : acceptable table_start qsort qubit_unit qubit_ops qubit_op /\ acceptable table_start qsort qubit_unit qubit_numbers qubit_ops.
Proof.
  assert (O : forall s l, readable table_start qsort qubit_unit (R:=Q') (EOps l) /\ (s = s :> nat)).
  { intros s l. split; [|reflexivity]. intros i I. cbn in I |- *. destruct (nth_error l i) as [p|] eqn:N; [now exists p|apply nth_error_None in N; lia]. }
  assert (M : forall l, readable table_start qsort qubit_unit (R:=Q') (ENumbers true l)).
  { intros l i I. cbn in I |- *. destruct (nth_error l i) as [w|] eqn:N; [|apply nth_error_None in N; lia]. exists (scalar_raw qubit_unit w), w. split; [reflexivity|]. now apply scalar_stands. }
  split; (do 4 eexists; split; [reflexivity|split; [reflexivity|split; [|split]]]); try apply (O 0); try apply M; (split; [cbn; auto|split; [cbn; auto|]]); [right; left; reflexivity|right; right; reflexivity].
Qed.
Lemma qubit_results : (exists o, plus table_start qsort qubit_unit qubit_ops qubit_op = AOk o) /\ (exists o, plus table_start qsort qubit_unit qubit_numbers qubit_ops = AOk o) /\
  (exists o, times table_start qsort qubit_unit qubit_mul qubit_ops qubit_op = AOk o) /\ (forall anti, exists o, bracket table_start qsort qubit_unit qubit_mul anti qubit_ops qubit_op = AOk o).
Proof.
  destruct qubit_arrays as (A1 & A2 & A3 & B1 & B2 & B3). destruct qubit_inside as (I1 & I2 & I3). destruct qubit_readable as (C1 & C2).
  destruct (times_accepted table_start qsort qubit_unit _ _ _ _ _ _ qubit_ops qubit_op qubit_multiplies A1 A2 B1 B2 I1 I2) as [T T'].
  repeat split; [now apply plus_accepted|now apply plus_accepted|now apply T|intro anti; now apply T'].
Qed.
Lemma qubit_pauli_result anti : exists o, pauli_bracket table_start qsort qubit_unit 1 anti qubit_ops qubit_op = AOk o.
Proof. destruct anti; eexists; cbv [pauli_bracket binary qubit_ops qubit_op kind_of]; reflexivity. Qed.
(** an empty cell *)
Lemma empty_refuted (R : rfield) t (srt : list (mono R) -> list (mono R)) unit : exists lhs rhs k1 k2, kind_of (R:=R) lhs = AOk k1 /\ kind_of (R:=R) rhs = AOk k2 /\ product_type k1 (shape_of lhs) k2 (shape_of rhs) = POneToOne /\
  plus t srt unit lhs rhs = AErr AInternal /\ forall mul, times t srt unit mul lhs rhs = AErr AInternal.
Proof. exists GEmpty, (GArray [1; 1] (ENumbers false [c1])), KEmpty, KReal. repeat split. Qed.
(** shapes that differ *)
Lemma mismatch_refuted (R : rfield) t (srt : list (mono R) -> list (mono R)) unit : exists lhs rhs : given (R:=R), unfit lhs rhs /\ array_ok lhs /\ array_ok rhs /\ plus t srt unit lhs rhs = AErr AInternal /\
  forall mul, times t srt unit mul lhs rhs = AErr ABad.
Proof.
  exists (GArray [2; 1] (ENumbers false [c1; c1])), (GArray [1; 2] (ENumbers false [c1; c1])). split; [|repeat split].
  exists [2; 1], (ENumbers false [c1; c1]), [1; 2], (ENumbers false [c1; c1]). repeat split; discriminate.
Qed.
Lemma refusals : forall (R : rfield) t (srt : list (mono R) -> list (mono R)) unit mul lhs rhs anti n, unfit lhs rhs \/ matrix_and_array lhs rhs ->
  plus t srt unit lhs rhs = AErr AInternal /\ times t srt unit mul lhs rhs = AErr ABad /\ bracket t srt unit mul anti lhs rhs = AErr ABad /\ pauli_bracket t srt unit n anti lhs rhs = AErr ABad.
Proof. intros R t srt unit mul lhs rhs anti n [H|H]; repeat split; (apply refuses_unfit + apply refuses_array); exact H. Qed.
Lemma refusal_example : unfit qubit_ops (GArray [3; 1] (ENumbers false [c1; c1; c1])) /\ matrix_and_array (R:=Q') (GInteger 0) qubit_ops.
Proof.
  split; [exists [2; 1]; do 3 eexists; split; [reflexivity|split; [reflexivity|]]; repeat split; discriminate|].
  do 3 eexists. split; [|split; [|left; split; reflexivity]]; [exact I|discriminate].
Qed.
Lemma matrices : forall (R : rfield) t (srt : list (mono R) -> list (mono R)) unit mul anti n,
  (forall lhs rhs, matrix_and_single lhs rhs -> plus t srt unit lhs rhs = AMatrix /\ times t srt unit mul lhs rhs = AMatrix /\ bracket t srt unit mul anti lhs rhs = AErr ABad /\ pauli_bracket t srt unit n anti lhs rhs = AErr ABad) /\
  forall i j, plus t srt unit (GInteger i) (GInteger j) = AMatrix /\ times t srt unit mul (GInteger i) (GInteger j) = AErr ABad /\ bracket t srt unit mul anti (GInteger i) (GInteger j) = AErr ABad.
Proof. intros R t srt unit mul anti n. split; [|intros i j; repeat split]. intros lhs rhs H. repeat split; (apply (matrix_single t srt unit _ _ true) + apply (matrix_single t srt unit _ _ false)); exact H. Qed.
Lemma matrices_example : matrix_and_single (R:=Q') (GInteger 0) qubit_op.
Proof. do 3 eexists. split; [|split; [|left; split; reflexivity]]; [exact I|reflexivity]. Qed.
