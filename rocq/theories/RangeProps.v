(** Ranges of measurements and elements for outcomes: what a user relies on (C72). *)
From Coq Require Import List NArith Arith Bool Permutation.
From Verif Require Import FieldModel FieldProofs PolyModel PolySpec AlgModel TensorModel TensorSpec ProbModel ProbSpec ProbWitnessProofs
  RangeModel RangeSpec RangeRunProofs RangeWitnessProofs.
Import ListNotations.

(** C72: in the tensor of probabilities, the range for measurements (some with a given outcome) has exactly the places of the joint
    reports that answer the request. *)
Theorem C72_probability_range : forall (sc : list party) qs, sound_requests fst sc qs ->
  exists lo hi, measurement_to_range (gm_table num_outcomes sc) (length sc) qs = Value (lo, hi) /\ range_of (joint sc) full_place full_dim sc qs lo hi.
Proof. exact outcomes_range. Qed.
Print Assumptions C72_probability_range.
Example C72_probability_range_holds : sound_requests fst sc2 [(3, None); (1, Some 1)] /\
  measurement_to_range (gm_table num_outcomes sc2) 2 [(3, None); (1, Some 1)] = Value ([4; 3], [5; 5]).
Proof. exact (Logic.conj sc2_sound eq_refl). Qed.

(** C72: in the Collins-Gisin tensor, with the outcomes that have an operator. *)
Theorem C72_operator_range : forall (sc : list party) qs, sound_requests operators sc qs ->
  exists lo hi, measurement_to_range (gm_table num_operators sc) (length sc) qs = Value (lo, hi) /\ range_of (joint_operator sc) cg_place cg_dim sc qs lo hi.
Proof. exact operators_range. Qed.
Print Assumptions C72_operator_range.
Example C72_operator_range_holds : sound_requests operators sc2 [(3, None); (1, Some 1)] /\
  measurement_to_range (gm_table num_operators sc2) 2 [(3, None); (1, Some 1)] = Value ([3; 2], [4; 4]).
Proof. exact (Logic.conj sc2_sound_operators eq_refl). Qed.

(** C72: inflation scenarios, where each variant of an observable is a dimension. *)
Theorem C72_variant_range : forall vs qs, sound_requests fst (map single vs) qs ->
  exists lo hi, variant_to_range (variant_dims vs) qs = Value (lo, hi) /\ range_of (joint (map single vs)) full_place full_dim (map single vs) qs lo hi.
Proof. exact variants_range. Qed.
Print Assumptions C72_variant_range.
Example C72_variant_range_holds : sound_requests fst (map single vs3) [(2, None); (1, Some 2)] /\
  variant_to_range (variant_dims vs3) [(2, None); (1, Some 2)] = Value ([0; 3; 1], [1; 4; 2]).
Proof. exact (Logic.conj vs3_sound eq_refl). Qed.

(** C72: asking for outcomes gives the element of the one joint report that answers. *)
Theorem C72_element : forall (sc : list party) qs, sound_requests fst sc (fixed qs) ->
  exists es, joint sc es /\ answers_requests sc (fixed qs) es /\ (forall es', answers_requests sc (fixed qs) es' -> es' = es) /\
    outcome_to_element (gm_table num_outcomes sc) (length sc) qs = Value (places full_place sc es).
Proof. exact outcomes_element_all. Qed.
Print Assumptions C72_element.
Example C72_element_holds : sound_requests fst sc2 (fixed [(3, 0); (1, 2)]) /\
  outcome_to_element (gm_table num_outcomes sc2) 2 [(3, 0); (1, 2)] = Value [5; 3].
Proof. exact (Logic.conj sc2_sound_fixed eq_refl). Qed.

(** C72: and the value of that element is the probability of these outcomes. *)
Theorem C72_element_value : forall (R : rfield) (sc : list party) (sym : N -> option nat),
  Forall (Forall (fun m => 0 < fst m)) sc -> small (map cg_dim sc) ->
  forall psort factory : list (mono R) -> list (mono R), (forall l, Permutation l (psort l)) ->
  forall P, consistent sc P -> forall fuel v, entries sc P v -> 2 ^ length sc + volume (map cg_dim sc) <= fuel ->
  forall qs, sound_requests fst sc (fixed qs) ->
  exists axes index e es, make_axes (map (@length _) sc) (concat sc) = Value axes /\
    outcome_to_element (gm_table num_outcomes sc) (length sc) qs = Value index /\
    make_probability (map cg_dim sc) sym psort factory fuel axes index = Ret (Value e) /\
    answers_requests sc (fixed qs) es /\ value v (el_cg e) = P es.
Proof. exact element_value. Qed.
Print Assumptions C72_element_value.
Example C72_element_value_holds : Forall (Forall (fun m => 0 < fst m)) sc3 /\ small (map cg_dim sc3) /\ consistent sc3 (detP Qc_rfield)
  /\ entries sc3 (detP Qc_rfield) (fun n => bit Qc_rfield (value_bits sc3 n)) /\ sound_requests fst sc3 (fixed [(2, 2); (1, 2)]).
Proof. exact (sc3_value_case Qc_rfield). Qed.

(** C72: for measurements there are, a request is refused exactly if it asks for two of one party. *)
Theorem C72_clash_refused : forall (len : nat * bool -> nat) (sc : list party) qs, (forall g o, In (g, o) qs -> g < measurements sc) ->
  (measurement_to_range (gm_table len sc) (length sc) qs = Throws <-> clash sc qs).
Proof. exact clash_throws. Qed.
Print Assumptions C72_clash_refused.
Theorem C72_element_refused : forall (sc : list party) qs, (forall g a, In (g, a) qs -> g < measurements sc) -> clash sc (fixed qs) ->
  outcome_to_element (gm_table num_outcomes sc) (length sc) qs = Throws.
Proof. exact element_refused. Qed.
Print Assumptions C72_element_refused.
Example C72_clash_refused_holds : clash sc2 [(1, None); (2, None); (0, Some 1)] /\ measurements sc2 = 4.
Proof. exact (Logic.conj sc2_clash eq_refl). Qed.

(** C72: numbers beyond the number of measurements are refused ... *)
Theorem C72_beyond_refused : forall (len : nat * bool -> nat) (sc : list party) qs, (forall g o, In (g, o) qs -> g <> measurements sc) ->
  (exists g o, In (g, o) qs /\ measurements sc < g) -> measurement_to_range (gm_table len sc) (length sc) qs = Throws.
Proof. exact beyond_throws. Qed.
Print Assumptions C72_beyond_refused.
Example C72_beyond_refused_holds : measurement_to_range (gm_table num_outcomes sc2) 2 [(3, None); (5, Some 0)] = Throws.
Proof. exact eq_refl. Qed.
(** ... but not the number itself: the table is read one place beyond its end. *)
Theorem C72_number_refused_refuted : exists (sc : list party) g, (forall p m x, ~ numbered sc g p m x) /\
  measurement_to_range (gm_table num_outcomes sc) (length sc) [(g, None)] = Undefined /\
  measurement_to_range (gm_table num_operators sc) (length sc) [(g, None)] = Undefined /\
  outcome_to_element (gm_table num_outcomes sc) (length sc) [(g, 0)] = Undefined.
Proof. exact bound_case. Qed.
Print Assumptions C72_number_refused_refuted.

(** C72: outcomes are not checked: the last outcome of a measurement, which has no operator, selects the first outcome of the party's next
    measurement in the Collins-Gisin tensor. *)
Theorem C72_outcome_refused_refuted : exists (sc : list party) g p m x a lo hi es m', numbered sc g p m x /\ a < fst x /\
  measurement_to_range (gm_table num_operators sc) (length sc) [(g, Some a)] = Value (lo, hi) /\
  joint_operator sc es /\ between lo hi (places cg_place sc es) /\ nth_error es p = Some (Some (m', 0)) /\ m' <> m.
Proof. exact outcome_case. Qed.
Print Assumptions C72_outcome_refused_refuted.

(** C72: a choice of measurements gives the element of their correlator; other requests are refused. *)
Theorem C72_correlator_element : forall counts qs, NoDup (map fst qs) -> (forall p m, In (p, m) qs -> exists c, nth_error counts p = Some c /\ m < c) ->
  exists index, mmt_to_element counts qs = Value index /\ length index = length counts /\
    (forall p m, In (p, m) qs -> nth p index 0 = S m) /\ (forall p, ~ In p (map fst qs) -> nth p index 0 = 0).
Proof. exact correlator_element. Qed.
Print Assumptions C72_correlator_element.
Example C72_correlator_element_holds : mmt_to_element [2; 3; 1] [(1, 2); (0, 0)] = Value [1; 3; 0].
Proof. exact eq_refl. Qed.
Theorem C72_correlator_refused : forall counts qs,
  ~ NoDup (map fst qs) \/ (exists p m, In (p, m) qs /\ forall c, nth_error counts p = Some c -> c <= m) -> mmt_to_element counts qs = Throws.
Proof. exact correlator_refused. Qed.
Print Assumptions C72_correlator_refused.
Example C72_correlator_refused_holds : mmt_to_element [2; 3; 1] [(1, 2); (1, 2)] = Throws /\ mmt_to_element [2; 3; 1] [(2, 1)] = Throws.
Proof. exact (Logic.conj eq_refl eq_refl). Qed.
