(** C13-C15 and the locality part of C09: operator numbering and simplification in locality scenarios. *)
From Coq Require Import List NArith Arith Bool Lia Sorted.
From Verif Require Import CoreModel CoreSpec AlgModel AlgSpec LocModel LocSpec LocNumberProofs LocProofs.
Import ListNotations.

(** CHSH: two parties with two binary measurements each; and a scenario with three-outcome measurements. *)
Definition chsh : scenario := [[2;2];[2;2]].
Definition trits : scenario := [[3;2];[];[1;4]].

(* ------------------------------------------------------------------------------------------------ C13 *)
(** The simplified word (or zero) equals the word in every algebra satisfying the relations. *)
Theorem C13_simplification_sound : forall sc (A : algebra) (v : nat -> A) (w : word) t, loc_model sc A v ->
  loc_simplify sc w = Ret t -> aeq A (den_word A v w) (den_opt A v t).
Proof. exact loc_simplify_sound. Qed.
Print Assumptions C13_simplification_sound.

(** Simplification gives an answer exactly for words whose operators all exist; otherwise it is an error. *)
Theorem C13_simplify_in_range : forall sc w, over (total_opers sc) w -> exists t, loc_simplify sc w = Ret t /\ loc_equal sc (Some w) t.
Proof. intros sc w O. exists (LocSortProofs.gnf (party_of_op sc) (loc_exclusive sc) (Some w)). exact (conj (loc_simplify_nf sc w O) (loc_simplify_equal sc w _ (loc_simplify_nf sc w O))). Qed.
Print Assumptions C13_simplify_in_range.

Theorem C13_simplify_out_of_range : forall sc w, ~ over (total_opers sc) w -> loc_simplify sc w = Err.
Proof. exact loc_simplify_error. Qed.
Print Assumptions C13_simplify_out_of_range.

(** Operator sequences (with sign and hash) and their products denote the right elements. *)
Theorem C13_sequence_sound : forall sc L (A : algebra) (v : nat -> A) w s q, loc_safe sc L -> length w <= L -> loc_model sc A v ->
  loc_sequence sc w s = Ret q -> aeq A (den A v q) (den_signed A v s w).
Proof. exact loc_sequence_sound. Qed.
Print Assumptions C13_sequence_sound.

Theorem C13_sequence_wf : forall sc L w s q, length w <= L -> loc_sequence sc w s = Ret q -> loc_wf sc L q.
Proof. exact loc_sequence_wf. Qed.
Print Assumptions C13_sequence_wf.

Theorem C13_product_sound : forall sc La Lb (A : algebra) (v : nat -> A) a b q, loc_safe sc (La + Lb) -> loc_wf sc La a -> loc_wf sc Lb b ->
  loc_model sc A v -> loc_multiply sc a b = Ret q -> aeq A (den A v q) (amul A (den A v a) (den A v b)).
Proof. exact loc_multiply_sound. Qed.
Print Assumptions C13_product_sound.

Theorem C13_product_total : forall sc L a b, loc_safe sc L -> loc_wf sc L a -> loc_wf sc L b -> exists q, loc_multiply sc a b = Ret q.
Proof. exact loc_multiply_total. Qed.
Print Assumptions C13_product_total.

Theorem C13_product_associative : forall sc La Lb Lc a b c, loc_safe sc (La + Lb + Lc) -> loc_wf sc La a -> loc_wf sc Lb b -> loc_wf sc Lc c ->
  bind (loc_multiply sc a b) (fun ab => loc_multiply sc ab c) = bind (loc_multiply sc b c) (fun bc => loc_multiply sc a bc).
Proof. exact loc_multiply_assoc. Qed.
Print Assumptions C13_product_associative.

(** The relations are satisfiable without collapsing: there is a model in which no canonical word is zero (see also
    [C14_equal_in_every_algebra]).  Concrete words: *)
Example C13_nonvacuous :
  loc_simplify chsh [2;0;3;0] = Ret (Some [0;2;3]) /\ loc_simplify chsh [0;1;0] = Ret (Some [0;1;0]) /\
  loc_simplify trits [4;1;0] = Ret None /\ loc_simplify trits [0;4;2;3] = Ret None /\ loc_simplify chsh [0;4] = Err /\
  loc_safe chsh 20 /\ (exists (A : algebra) (v : nat -> A), loc_model chsh A v /\ ~ aeq A (den_word A v [0;2;1;3]) (azero A)).
Proof.
  repeat split.
  exists (loc_algebra chsh), (loc_val chsh). split; [exact (loc_algebra_model chsh)|]. vm_compute. discriminate.
Qed.

(* ------------------------------------------------------------------------------------------------ C14 *)
(** Two words are consequences of each other exactly if they have the same simplified form; a word simplifies to zero
    exactly if the relations make it zero. *)
Theorem C14_unique_forms : forall sc u w, over (total_opers sc) u -> over (total_opers sc) w ->
  (loc_equal sc (Some u) (Some w) <-> loc_simplify sc u = loc_simplify sc w).
Proof. exact loc_simplify_unique. Qed.
Print Assumptions C14_unique_forms.

Theorem C14_zero_exactly : forall sc w, over (total_opers sc) w -> (loc_equal sc (Some w) None <-> loc_simplify sc w = Ret None).
Proof. exact loc_simplify_zero. Qed.
Print Assumptions C14_zero_exactly.

(** Semantically: words equal in every algebra satisfying the relations get the same form. *)
Theorem C14_equal_in_every_algebra : forall sc u w, over (total_opers sc) u -> over (total_opers sc) w ->
  (forall (A : algebra) v, loc_model sc A v -> aeq A (den_word A v u) (den_word A v w)) -> loc_simplify sc u = loc_simplify sc w.
Proof. exact loc_complete. Qed.
Print Assumptions C14_equal_in_every_algebra.

Theorem C14_zero_in_every_algebra : forall sc u, over (total_opers sc) u ->
  (forall (A : algebra) v, loc_model sc A v -> aeq A (den_word A v u) (azero A)) -> loc_simplify sc u = Ret None.
Proof. exact loc_complete_zero. Qed.
Print Assumptions C14_zero_in_every_algebra.

(** Canonical words are exactly the fixed points; results are canonical and never longer. *)
Theorem C14_canonical_iff_fixed : forall sc w, loc_canonical sc w <-> loc_simplify sc w = Ret (Some w).
Proof. exact loc_canonical_iff. Qed.
Print Assumptions C14_canonical_iff_fixed.

Theorem C14_result_canonical : forall sc w u, loc_simplify sc w = Ret (Some u) -> loc_canonical sc u /\ length u <= length w.
Proof. exact loc_simplify_canonical. Qed.
Print Assumptions C14_result_canonical.

(** == on sequences decides equality of the operators they stand for. *)
Theorem C14_sequence_equality : forall sc L u w s t a b, loc_safe sc L -> length u <= L -> length w <= L ->
  loc_sequence sc u s = Ret a -> loc_sequence sc w t = Ret b ->
  (hs_eqb a b = true <-> (loc_equal sc (Some u) None /\ loc_equal sc (Some w) None) \/ (loc_equal sc (Some u) (Some w) /\ s = t)).
Proof. exact loc_sequence_decides. Qed.
Print Assumptions C14_sequence_equality.

(** The test used when enumerating canonical words. *)
Theorem C14_canonical_test : forall sc L w, loc_safe sc L -> length w <= L -> over (total_opers sc) w ->
  exists r, loc_get_if_canonical sc w = Ret r /\
    (forall q, r = Some q -> loc_canonical sc w /\ q = hseq_make (N.of_nat (total_opers sc)) w SPos) /\
    (r = None -> ~ loc_canonical sc w).
Proof. exact loc_get_if_canonical_spec. Qed.
Print Assumptions C14_canonical_test.

Example C14_nonvacuous :
  loc_simplify chsh [3;1;3;1;0] = loc_simplify chsh [1;1;0;3] /\ loc_simplify chsh [1;0;3] <> loc_simplify chsh [0;1;3] /\
  loc_get_if_canonical chsh [0;1;3] = Ret (Some (hseq_make 4 [0;1;3] SPos)) /\ loc_get_if_canonical chsh [3;0] = Ret None.
Proof. repeat split; vm_compute; try reflexivity. discriminate. Qed.

(* ------------------------------------------------------------------------------------------------ C15 *)
(** Every triple (party, measurement, outcome but the last) has a number below the operator count, ... *)
Theorem C15_numbers_in_range : forall sc x, valid_oper sc x -> op_number sc x < operator_count sc.
Proof. intros sc x H. rewrite operator_count_spec. exact (op_number_lt sc x H). Qed.
Print Assumptions C15_numbers_in_range.

(** ... different triples have different numbers, ... *)
Theorem C15_numbers_injective : forall sc x y, valid_oper sc x -> valid_oper sc y -> op_number sc x = op_number sc y -> x = y.
Proof. exact op_number_inj. Qed.
Print Assumptions C15_numbers_injective.

(** ... every number is used, ... *)
Theorem C15_numbers_surjective : forall sc k, k < operator_count sc -> exists x, valid_oper sc x /\ op_number sc x = k.
Proof. intros sc k. rewrite operator_count_spec. exact (op_number_surj sc k). Qed.
Print Assumptions C15_numbers_surjective.

(** ... and the count is the sum over measurements of (outcomes - 1). *)
Theorem C15_operator_count : forall sc, operator_count sc = list_sum (map (fun p => list_sum (map (fun m => m - 1) p)) sc).
Proof. exact operator_count_spec. Qed.
Print Assumptions C15_operator_count.

(** The context's tables and accessors implement this numbering: *)
Theorem C15_triple_of_number : forall sc x, valid_oper sc x -> nth_error (local_table 0 sc) (op_number sc x) = Some x.
Proof. exact op_number_table. Qed.
Print Assumptions C15_triple_of_number.

Theorem C15_table_size : forall sc, length (local_table 0 sc) = operator_count sc.
Proof. intro sc. rewrite operator_count_spec. exact (local_table_length sc 0). Qed.
Print Assumptions C15_table_size.

Theorem C15_party_of_number : forall sc x, valid_oper sc x -> party_of_op sc (op_number sc x) = op_party x.
Proof. exact party_of_number. Qed.
Print Assumptions C15_party_of_number.

Theorem C15_measurement_of_number : forall sc x, valid_oper sc x -> measurement_of sc (op_party x) (op_number sc x) = Ret (op_mmt x).
Proof. exact measurement_of_spec. Qed.
Print Assumptions C15_measurement_of_number.

Theorem C15_number_of_outcome : forall sc p m o, p < length sc ->
  measurement_outcome sc p m o =
  if Nat.ltb m (length (nth p sc [])) && Nat.ltb (S o) (nth m (nth p sc []) 0) then Ret (op_number sc (p, m, o)) else Err.
Proof. exact measurement_outcome_spec. Qed.
Print Assumptions C15_number_of_outcome.

(** Local numbers of a party: the i-th operator of party p, in range exactly for i below its operator count, comes after
    all operators of earlier parties. *)
Theorem C15_party_operator : forall sc p i, p < length sc ->
  party_op sc p i = if Nat.ltb i (count_opers (nth p sc [])) then Ret (list_sum (map count_opers (firstn p sc)) + i) else Err.
Proof. exact party_op_spec. Qed.
Print Assumptions C15_party_operator.

Theorem C15_party_operator_of_triple : forall sc x, valid_oper sc x ->
  party_op sc (op_party x) (count_opers (firstn (op_mmt x) (nth (op_party x) sc [])) + op_outcome x) = Ret (op_number sc x).
Proof. exact party_op_number. Qed.
Print Assumptions C15_party_operator_of_triple.

Theorem C15_mutually_exclusive : forall sc x y, valid_oper sc x -> valid_oper sc y -> op_party x = op_party y ->
  (mutually_exclusive sc (op_party x) (op_number sc x) (op_number sc y) = true <-> op_mmt x = op_mmt y /\ op_outcome x <> op_outcome y).
Proof. exact mutually_exclusive_spec. Qed.
Print Assumptions C15_mutually_exclusive.

(** Measurements: (party, measurement) pairs and global measurement numbers are in bijection. *)
Theorem C15_measurement_round_trip : forall sc p m, p < length sc -> m < length (nth p sc []) ->
  exists g, PM_to_global_index sc p m = Ret g /\ global_index_to_PM sc g = (p, m) /\ g < list_sum (map (@length nat) sc).
Proof. exact global_mmt_roundtrip. Qed.
Print Assumptions C15_measurement_round_trip.

Theorem C15_measurement_inverse : forall sc g, g < list_sum (map (@length nat) sc) ->
  exists p m, global_index_to_PM sc g = (p, m) /\ p < length sc /\ m < length (nth p sc []) /\ PM_to_global_index sc p m = Ret g.
Proof. exact global_mmt_inverse. Qed.
Print Assumptions C15_measurement_inverse.

Example C15_nonvacuous : operator_count trits = 6 /\ valid_oper trits (2, 1, 2) /\ op_number trits (2, 1, 2) = 5 /\
  measurement_outcome trits 2 1 2 = Ret 5 /\ nth_error (local_table 0 trits) 5 = Some (2, 1, 2) /\
  measurement_outcome trits 2 1 3 = Err /\ global_index_to_PM trits 3 = (2, 1).
Proof. repeat split; cbn; lia. Qed.

(* ------------------------------------------------------------------------------------------------ C09 *)
Theorem C09_locality_involutive : forall sc L q, loc_safe sc L -> loc_wf sc L q -> bind (loc_conjugate sc q) (loc_conjugate sc) = Ret q.
Proof. exact loc_conjugate_involutive. Qed.
Print Assumptions C09_locality_involutive.

Theorem C09_locality_antimultiplicative : forall sc La Lb a b, loc_safe sc (La + Lb) -> loc_wf sc La a -> loc_wf sc Lb b ->
  bind (loc_multiply sc a b) (loc_conjugate sc) =
  bind (loc_conjugate sc a) (fun ca => bind (loc_conjugate sc b) (fun cb => loc_multiply sc cb ca)).
Proof. exact loc_conjugate_mul. Qed.
Print Assumptions C09_locality_antimultiplicative.

(** The conjugate is the adjoint, measurement operators being self-adjoint. *)
Theorem C09_locality_adjoint : forall sc L (A : star_algebra) (v : nat -> A) q c, loc_safe sc L -> loc_wf sc L q -> loc_model sc A v ->
  (forall x, valid_oper sc x -> aeq A (v (op_number sc x)) (astar A (v (op_number sc x)))) ->
  loc_conjugate sc q = Ret c -> aeq A (den A v c) (astar A (den A v q)).
Proof. exact loc_conjugate_sound. Qed.
Print Assumptions C09_locality_adjoint.

Theorem C09_locality_phase : forall sc L w s k q, loc_safe sc L -> length w <= L -> loc_sequence sc w s = Ret q -> hs_zero q = false ->
  exists c ck, loc_conjugate sc q = Ret c /\ loc_conjugate sc (mk_hseq (hs_hash q) (hs_ops q) (smul k (hs_sign q))) = Ret ck /\
    hs_hash ck = hs_hash c /\ hs_ops ck = hs_ops c /\ (hs_zero c = false -> hs_sign ck = smul (sconj k) (hs_sign c)).
Proof. exact loc_conjugate_phase. Qed.
Print Assumptions C09_locality_phase.

Example C09_locality_nonvacuous : loc_wf chsh 3 (hseq_make 4 [0;1;2] SIm) /\
  loc_conjugate chsh (hseq_make 4 [0;1;2] SIm) = Ret (hseq_make 4 [1;0;2] SNegIm).
Proof.
  split; [|reflexivity]. right. cbn. split; [reflexivity|]. split; [|lia]. apply C14_canonical_iff_fixed. reflexivity.
Qed.
