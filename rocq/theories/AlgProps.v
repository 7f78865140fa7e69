(** C04-C09: rewriting of operator words in algebraic scenarios. *)
From Coq Require Import List ZArith NArith Arith Bool Sorted Lia.
From Verif Require Import CoreModel CoreSpec CoreProofs AlgModel AlgSpec AlgProofs AlgTheoryProofs AlgCompleteProofs
  AlgConfluenceProofs AlgNormalProofs AlgContextProofs AlgFinalProofs AlgWitnessProofs.
Import ListNotations.

(* ------------------------------------------------------------------------------------------------ C04 *)
(** Applying a rule at a match replaces exactly that occurrence, and the word becomes strictly smaller in shortlex order;
    a rule whose right side is zero is flagged as mapping to zero. *)
Theorem C04_application : forall r L rl a b, hash_safe r L -> wf_rule r L rl ->
  (hs_hash (rl_rhs rl) <> 0%N ->
     apply_match rl (a ++ hs_ops (rl_lhs rl) ++ b) (length a) = Ret (a ++ hs_ops (rl_rhs rl) ++ b) /\
     shortlex_lt (a ++ hs_ops (rl_rhs rl) ++ b) (a ++ hs_ops (rl_lhs rl) ++ b)) /\
  (hs_hash (rl_rhs rl) = 0%N -> rl_zero rl = true).
Proof. exact application_exact. Qed.
Print Assumptions C04_application.

(** From two different words the constructor makes a rule exactly when the left one is the larger; the rule is then
    properly oriented and says that the two sides are equal. *)
Theorem C04_constructor : forall r L q1 q2, hash_safe r L -> wf_seq r L q1 -> wf_seq r L q2 -> hs_hash q1 <> hs_hash q2 ->
  match make_rule q1 q2 with
  | Ret rl => wf_rule r L rl /\ forall A v, holds A v rl <-> aeq A (den A v q1) (den A v q2)
  | Err => (hs_hash q1 < hs_hash q2)%N
  | NoFuel => False
  end.
Proof. exact make_rule_oriented. Qed.
Print Assumptions C04_constructor.

(** There is no infinite chain of rule applications, whatever the (possibly very long) starting word. *)
Theorem C04_chains_finite : forall r L m, hash_safe r L -> wf_map r L m ->
  forall t, Acc (fun u t => rewrites m t u) t.
Proof. exact rewrites_wf. Qed.
Print Assumptions C04_chains_finite.

(** But: X -> -X is accepted as a non-trivial rule, and then simplifying X never ends. *)
Theorem C04_same_word_refuted : exists rl ctx, make_rule (hX SPos) (hX SNeg) = Ret rl /\ rl_trivial rl = false /\
  make_acontext 5 pcX false false [rl] = Ret ctx /\ (forall fuel, canonical_form fuel ctx [0] SPos = NoFuel).
Proof. exact minus_rule_accepted. Qed.
Print Assumptions C04_same_word_refuted.

(** And: X -> iX is taken for a tautology and dropped, although it is not one (it says X = 0). *)
Theorem C04_imaginary_rule_refuted : exists rl, make_rule (hX SPos) (hX SIm) = Ret rl /\ rl_trivial rl = true /\
  (exists A v, ~ holds A v rl) /\
  make_acontext 5 pcX false false [rl] = Ret (mk_actx false (mk_rb pcX [] 0)).
Proof. exact imaginary_rule_dropped. Qed.
Print Assumptions C04_imaginary_rule_refuted.

Example C04_nonvacuous : hash_safe 2 8 /\ wf_map 2 8 (rb_rules projectors) /\
  (exists k rl, In (k, rl) (rb_rules projectors) /\ hs_ops (rl_lhs rl) = [0;1;0] /\
   apply_match rl [1;1;0;1;0;0] 2 = Ret [1;1;0;0]).
Proof.
  split; [reflexivity|]. split; [apply projectors_ok|].
  exists (fst (mk3 2 [0;1;0] (Some (SPos, [0])))), (snd (mk3 2 [0;1;0] (Some (SPos, [0])))).
  split; [cbn; tauto|]. split; reflexivity.
Qed.

(* ------------------------------------------------------------------------------------------------ C05 *)
(** Reduction by iterating over rules does not change the operator denoted, in any algebra where the rules hold. *)
Theorem C05_iteration_sound : forall r L rb fuel w s x, pc_num (rb_pc rb) = r -> hash_safe r L -> wf_map r L (rb_rules rb) ->
  over r w -> length w <= L -> reduce_via_iteration fuel rb w s = Ret x ->
  forall A v, all_hold A v (rb_rules rb) -> aeq A (den_term A v (red_term x)) (den_signed A v s w).
Proof. exact (fun r L rb fuel w s x => strategies_sound _ r L rb fuel w s x iteration_ok). Qed.
Print Assumptions C05_iteration_sound.

(** ... nor does reduction by looking up substring hashes. *)
Theorem C05_search_sound : forall r L rb fuel w s x, pc_num (rb_pc rb) = r -> hash_safe r L -> wf_map r L (rb_rules rb) ->
  over r w -> length w <= L -> reduce_via_search fuel rb w s = Ret x ->
  forall A v, all_hold A v (rb_rules rb) -> aeq A (den_term A v (red_term x)) (den_signed A v s w).
Proof. exact (fun r L rb fuel w s x => strategies_sound _ r L rb fuel w s x search_ok). Qed.
Print Assumptions C05_search_sound.

(** The canonical form of a word (with sorting in commutative contexts) denotes the same operator. *)
Theorem C05_canonical_form_sound : forall L ctx fuel w s q, context_ok L ctx ->
  over (pc_num (rb_pc (ac_rules ctx))) w -> length w <= L -> canonical_form fuel ctx w s = Ret q ->
  forall A v, context_model A v ctx -> aeq A (den A v q) (den_signed A v s w).
Proof. exact canonical_form_sound. Qed.
Print Assumptions C05_canonical_form_sound.

(** The context's product denotes the product. *)
Theorem C05_multiply_sound : forall L ctx fuel a b q, context_ok L ctx ->
  wf_seq (pc_num (rb_pc (ac_rules ctx))) L a -> wf_seq (pc_num (rb_pc (ac_rules ctx))) L b -> length (hs_ops a ++ hs_ops b) <= L ->
  multiply fuel ctx a b = Ret q ->
  forall A v, context_model A v ctx -> aeq A (den A v q) (amul A (den A v a) (den A v b)).
Proof. exact multiply_sound. Qed.
Print Assumptions C05_multiply_sound.

(** Reduction of a hashed sequence is sound except for a signed identity ... *)
Theorem C05_reduce_sequence_sound : forall r L rb q fuel q', pc_num (rb_pc rb) = r -> hash_safe r L -> wf_map r L (rb_rules rb) ->
  wf_seq r L q -> (hs_hash q <> 0%N -> hs_ops q = [] -> hs_sign q = SPos) -> reduce_hs fuel rb q = Ret q' ->
  forall A v, all_hold A v (rb_rules rb) -> aeq A (den A v q') (den A v q).
Proof. exact reduce_hs_sound. Qed.
Print Assumptions C05_reduce_sequence_sound.

(** ... whose sign is lost, even by a rulebook without rules. *)
Theorem C05_signed_identity_refuted : exists rb q q', wf_map 1 1 (rb_rules rb) /\ reduce_hs 0 rb q = Ret q' /\
  exists A v, all_hold A v (rb_rules rb) /\ ~ aeq A (den A v q') (den A v q).
Proof. exact minus_identity_lost. Qed.
Print Assumptions C05_signed_identity_refuted.

(** In-place reduction of a negative sequence to zero leaves a "minus zero" that does not compare equal to zero. *)
Theorem C05_minus_zero_refuted : exists rb q q', wf_map 1 1 (rb_rules rb) /\ reduce_in_place_hs 0 rb q = Ret (SetToZero, q') /\
  hs_eqb q' (hseq_const true) = false.
Proof. exact minus_zero_kept. Qed.
Print Assumptions C05_minus_zero_refuted.

Example C05_nonvacuous : context_ok 8 (mk_actx false anticommuting) /\
  canonical_form 20 (mk_actx false anticommuting) [1;1;0] SIm = Ret (hseq_make 2 [0;1;1] SIm) /\
  canonical_form 20 (mk_actx false anticommuting) [1;0;1;0] SPos = Ret (hseq_make 2 [0;0;1;1] SNeg) /\
  reduce_via_search 20 projectors [0;0;1;0;1;1] SNeg = Ret (Match, [0;1], SNeg).
Proof.
  split; [exact (proj1 (decidable_ok _ _ _ _ anticommuting_decidable))|]. split; [reflexivity|]. split; reflexivity.
Qed.

(* ------------------------------------------------------------------------------------------------ C06 *)
Theorem C06_iteration_terminates : forall r L rb w, (pc_num (rb_pc rb) = r /\ hash_safe r L /\ wf_map r L (rb_rules rb)) ->
  over r w -> length w <= L ->
  exists n, forall fuel, n <= fuel -> forall s, exists x, reduce_via_iteration fuel rb w s = Ret x.
Proof. exact iteration_terminates. Qed.
Print Assumptions C06_iteration_terminates.

Theorem C06_search_terminates : forall r L rb w, (pc_num (rb_pc rb) = r /\ hash_safe r L /\ wf_map r L (rb_rules rb)) ->
  over r w -> length w <= L ->
  exists n, forall fuel, n <= fuel -> forall s, exists x, reduce_via_search fuel rb w s = Ret x.
Proof. exact search_terminates. Qed.
Print Assumptions C06_search_terminates.

(** The result contains no left side of any rule (unless it is zero). *)
Theorem C06_iteration_irreducible : forall r L rb fuel w s x, pc_num (rb_pc rb) = r -> hash_safe r L -> wf_map r L (rb_rules rb) ->
  over r w -> length w <= L -> reduce_via_iteration fuel rb w s = Ret x ->
  match x with (SetToZero, _, _) => True | (_, w', _) => irreducible (rb_rules rb) w' end.
Proof. exact (fun r L rb fuel w s x => strategies_irreducible _ r L rb fuel w s x iteration_ok). Qed.
Print Assumptions C06_iteration_irreducible.

Theorem C06_search_irreducible : forall r L rb fuel w s x, pc_num (rb_pc rb) = r -> hash_safe r L -> wf_map r L (rb_rules rb) ->
  over r w -> length w <= L -> reduce_via_search fuel rb w s = Ret x ->
  match x with (SetToZero, _, _) => True | (_, w', _) => irreducible (rb_rules rb) w' end.
Proof. exact (fun r L rb fuel w s x => strategies_irreducible _ r L rb fuel w s x search_ok). Qed.
Print Assumptions C06_search_irreducible.

(** Making a sequence canonical terminates ... *)
Theorem C06_canonical_form_terminates : forall L ctx w s, context_ok L ctx ->
  over (pc_num (rb_pc (ac_rules ctx))) w -> length w <= L ->
  exists n q, forall fuel, n <= fuel -> canonical_form fuel ctx w s = Ret q.
Proof. exact canonical_form_terminates. Qed.
Print Assumptions C06_canonical_form_terminates.

(** ... in a canonical sequence ... *)
Theorem C06_canonical_form_irreducible : forall L ctx fuel w s q, context_ok L ctx ->
  over (pc_num (rb_pc (ac_rules ctx))) w -> length w <= L -> canonical_form fuel ctx w s = Ret q -> canonical L ctx q.
Proof. exact canonical_form_canonical. Qed.
Print Assumptions C06_canonical_form_irreducible.

(** ... and doing it again changes nothing. *)
Theorem C06_canonical_form_idempotent : forall L ctx fuel fuel' w s q, context_ok L ctx ->
  over (pc_num (rb_pc (ac_rules ctx))) w -> length w <= L ->
  (forall k rl, In (k, rl) (rb_rules (ac_rules ctx)) -> hs_ops (rl_lhs rl) <> []) -> sorts_pairs ctx ->
  canonical_form fuel ctx w s = Ret q -> hs_hash q <> 0%N ->
  canonical_form fuel' ctx (hs_ops q) (hs_sign q) = Ret q.
Proof. exact canonical_form_idempotent. Qed.
Print Assumptions C06_canonical_form_idempotent.

(** The irreducibility test, whichever strategy it uses, is exact. *)
Theorem C06_can_reduce_exact : forall r L rb w, (pc_num (rb_pc rb) = r /\ hash_safe r L /\ wf_map r L (rb_rules rb)) ->
  over r w -> length w <= L -> (forall k rl, In (k, rl) (rb_rules rb) -> hs_ops (rl_lhs rl) <> []) ->
  (can_reduce rb w = false <-> irreducible (rb_rules rb) w).
Proof. exact can_reduce_spec. Qed.
Print Assumptions C06_can_reduce_exact.

Theorem C06_get_if_canonical_exact : forall L ctx w, context_ok L ctx -> over (pc_num (rb_pc (ac_rules ctx))) w -> length w <= L ->
  (forall k rl, In (k, rl) (rb_rules (ac_rules ctx)) -> hs_ops (rl_lhs rl) <> []) ->
  (irreducible (rb_rules (ac_rules ctx)) w -> get_if_canonical ctx w = Some (hseq_make (pc_radix (rb_pc (ac_rules ctx))) w SPos)) /\
  (~ irreducible (rb_rules (ac_rules ctx)) w -> get_if_canonical ctx w = None).
Proof. exact get_if_canonical_spec. Qed.
Print Assumptions C06_get_if_canonical_exact.

Example C06_nonvacuous : context_ok 8 (mk_actx false projectors) /\
  (forall k rl, In (k, rl) (rb_rules projectors) -> hs_ops (rl_lhs rl) <> []) /\
  canonical_form 20 (mk_actx false projectors) [0;1;1;0;1;0;0;1] SPos = Ret (hseq_make 2 [0;1] SPos) /\
  get_if_canonical (mk_actx false projectors) [0;1] = Some (hseq_make 2 [0;1] SPos) /\
  get_if_canonical (mk_actx false projectors) [0;1;1] = None.
Proof.
  split; [exact projectors_ok|]. split; [exact (proj1 (interreducedb_ok (rb_rules projectors) eq_refl))|].
  split; [reflexivity|]. split; reflexivity.
Qed.

(* ------------------------------------------------------------------------------------------------ C07 *)
(** Adding any list of rules: the book then holds in an algebra iff the old book and all added rules do. *)
Theorem C07_add_rules : forall r L rules fuel rb rb', hash_safe r L -> wf_map r L (rb_rules rb) -> Forall (usable_rule r L) rules ->
  add_rules fuel rb rules = Ret rb' ->
  rb_pc rb' = rb_pc rb /\ wf_map r L (rb_rules rb') /\
  (forall A v, all_hold A v (rb_rules rb') <-> all_hold A v (rb_rules rb) /\ Forall (holds A v) rules).
Proof. exact add_rules_sound. Qed.
Print Assumptions C07_add_rules.

Theorem C07_add_rules_terminates : forall r L rb rules, hash_safe r L -> wf_map r L (rb_rules rb) -> Forall (usable_rule r L) rules ->
  exists n rb', forall fuel, n <= fuel -> add_rules fuel rb rules = Ret rb'.
Proof. exact add_rules_terminates. Qed.
Print Assumptions C07_add_rules_terminates.

(** A context imposes exactly the supplied rules, commutativity if asked for, and normality if asked for. *)
Theorem C07_context_construction : forall fuel pc L commute normal rules ctx, hash_safe (pc_num pc) L -> 2 <= L ->
  Forall (usable_rule (pc_num pc) L) rules -> make_acontext fuel pc commute normal rules = Ret ctx ->
  rb_pc (ac_rules ctx) = pc /\ context_ok L ctx /\
  (forall A v, context_model A v ctx <->
     Forall (holds A v) rules /\ (commute = true -> letters_commute A v (pc_num pc)) /\ (normal = true -> letters_normal A v pc)) /\
  (forall A v, all_hold A v (rb_rules (ac_rules ctx)) -> context_model A v ctx).
Proof. exact make_acontext_sound. Qed.
Print Assumptions C07_context_construction.

(** Reducing the rules of a book by one another keeps the theory (for books in one of the two phase classes). *)
Theorem C07_reduce_ruleset : forall r L M rb c fuel x, pc_num (rb_pc rb) = r -> hash_safe r L -> M <= L ->
  wf_map r M (rb_rules rb) -> tame_map c (rb_rules rb) -> reduce_ruleset fuel rb = Ret x ->
  rb_pc (fst x) = rb_pc rb /\ wf_map r M (rb_rules (fst x)) /\ tame_map c (rb_rules (fst x)) /\
  (forall A v, all_hold A v (rb_rules rb) <-> all_hold A v (rb_rules (fst x))).
Proof. exact reduce_ruleset_sound. Qed.
Print Assumptions C07_reduce_ruleset.

Theorem C07_reduce_ruleset_terminates : forall r L M c rb, pc_num (rb_pc rb) = r -> hash_safe r L -> M <= L ->
  wf_map r M (rb_rules rb) -> tame_map c (rb_rules rb) -> exists n x, forall fuel, n <= fuel -> reduce_ruleset fuel rb = Ret x.
Proof. exact reduce_ruleset_terminates. Qed.
Print Assumptions C07_reduce_ruleset_terminates.

(** One Knuth-Bendix step keeps the theory. *)
Theorem C07_completion_step : forall r L M c rb fuel y, pc_num (rb_pc rb) = r -> hash_safe r L -> 2 * M <= L ->
  wf_map r M (rb_rules rb) -> tame_map c (rb_rules rb) -> try_new_combination fuel rb = Ret y ->
  rb_pc (fst y) = rb_pc rb /\ tame_map c (rb_rules (fst y)) /\
  (forall A v, all_hold A v (rb_rules rb) <-> all_hold A v (rb_rules (fst y))) /\
  wf_map r (if snd y then 2 * M else M) (rb_rules (fst y)).
Proof. exact try_new_combination_sound. Qed.
Print Assumptions C07_completion_step.

Theorem C07_completion_step_terminates : forall r L M c rb, pc_num (rb_pc rb) = r -> hash_safe r L -> 2 * M <= L ->
  wf_map r M (rb_rules rb) -> tame_map c (rb_rules rb) ->
  exists n x, forall fuel, n <= fuel -> try_new_combination fuel rb = Ret x.
Proof. exact try_new_combination_terminates. Qed.
Print Assumptions C07_completion_step_terminates.

(** The whole completion (adding conjugate rules, then any number of Knuth-Bendix steps) keeps the theory in *-algebras,
    as long as no left side grows beyond M, half the exactly hashable length. *)
Theorem C07_completion : forall r L M c turns fuel rb max_it y, hash_safe r L -> 2 * M <= L ->
  pc_num (rb_pc rb) = r -> wf_map r M (rb_rules rb) -> tame_map c (rb_rules rb) ->
  (forall rb1 k, conjugate_ruleset_loop turns fuel rb 0 0 = Ret (rb1, k) ->
     forall j rb' b, j <= max_it -> kb_loop j fuel rb1 = Ret (rb', b) -> max_lhs M (rb_rules rb')) ->
  complete turns fuel rb max_it = Ret y ->
  rb_pc (fst y) = rb_pc rb /\ wf_map r M (rb_rules (fst y)) /\ tame_map c (rb_rules (fst y)) /\
  (forall (A : star_algebra) v, star_model A (rb_pc rb) v -> (all_hold A v (rb_rules rb) <-> all_hold A v (rb_rules (fst y)))).
Proof. exact complete_sound. Qed.
Print Assumptions C07_completion.

(** Outside the phase classes the theory is not kept: X X -> -1 turns into X X -> +1. *)
Theorem C07_negative_identity_refuted : exists rb' n, reduce_ruleset 20 minus_one_book = Ret (rb', n) /\ wf_map 1 2 (rb_rules minus_one_book) /\
  exists A v, all_hold A v (rb_rules minus_one_book) /\ ~ all_hold A v (rb_rules rb').
Proof. exact minus_one_refuted. Qed.
Print Assumptions C07_negative_identity_refuted.

(** Completion at work: {XY -> X, YX -> Y} for self-adjoint X, Y becomes {Y -> X, XX -> X}. *)
Example C07_nonvacuous :
  let rb := recalculate (mk_rb (mk_pc 2 SelfAdjoint) [mk3 2 [0;1] (Some (SPos, [0])); mk3 2 [1;0] (Some (SPos, [1]))] 0) in
  wf_map 2 2 (rb_rules rb) /\ tame_map true (rb_rules rb) /\ hash_safe 2 4 /\
  (exists rb', complete 20 20 rb 10 = Ret (rb', true) /\ length (rb_rules rb') = 2 /\
     canonical_form 20 (mk_actx false rb') [1;1;0;1] SPos = Ret (hseq_make 2 [0] SPos)) /\
  (forall rb1 k, conjugate_ruleset_loop 20 20 rb 0 0 = Ret (rb1, k) ->
     forall j rb' b, j <= 10 -> kb_loop j 20 rb1 = Ret (rb', b) -> max_lhs 2 (rb_rules rb')).
Proof.
  cbv zeta. split; [apply wf_mapb_ok; reflexivity|]. split; [apply tame_mapb_ok; reflexivity|]. split; [reflexivity|].
  split; [eexists; split; [vm_compute; reflexivity|]; split; reflexivity|].
  intros rb1 k E j rb' b Hj E'. vm_compute in E. injection E as <- <-.
  do 11 (destruct j as [|j]; [vm_compute in E'; injection E' as <- <-; intros k0 rl Hin;
    repeat (destruct Hin as [Hin|Hin]; [injection Hin as <- <-; cbn; lia|]); destruct Hin|]).
  lia.
Qed.

(* ------------------------------------------------------------------------------------------------ C08 *)
(** In a context whose book reports itself complete, two words have the same canonical form exactly when they are equal in
    every algebra satisfying the rules (so equal words always get the same form). *)
Theorem C08_complete_decides_equality : forall L M c ctx fuel cc fu fw u s w s' p q, decidable_context L M c ctx ->
  is_complete fuel (ac_rules ctx) cc = Ret true ->
  over (pc_num (rb_pc (ac_rules ctx))) u -> length u <= L -> over (pc_num (rb_pc (ac_rules ctx))) w -> length w <= L ->
  canonical_form fu ctx u s = Ret p -> canonical_form fw ctx w s' = Ret q ->
  (provably_equal (rb_rules (ac_rules ctx)) (Some (s, u)) (Some (s', w)) <-> p = q).
Proof. exact complete_decides. Qed.
Print Assumptions C08_complete_decides_equality.

(** The same for a book for which the completion procedure reported success. *)
Theorem C08_completion_decides_equality : forall L M c comm turns n fuel rb0 rb fu fw u s w s' p q,
  let ctx := mk_actx comm rb in
  decidable_context L M c ctx -> complete turns fuel rb0 n = Ret (rb, true) ->
  over (pc_num (rb_pc rb)) u -> length u <= L -> over (pc_num (rb_pc rb)) w -> length w <= L ->
  canonical_form fu ctx u s = Ret p -> canonical_form fw ctx w s' = Ret q ->
  (provably_equal (rb_rules rb) (Some (s, u)) (Some (s', w)) <-> p = q).
Proof. exact completion_decides. Qed.
Print Assumptions C08_completion_decides_equality.

(** ... and the order in which rules are applied does not matter. *)
Theorem C08_unique_normal_forms : forall L M c ctx fuel cc t x y, decidable_context L M c ctx ->
  is_complete fuel (ac_rules ctx) cc = Ret true ->
  rewrites_star (rb_rules (ac_rules ctx)) t x -> normal (rb_rules (ac_rules ctx)) x ->
  rewrites_star (rb_rules (ac_rules ctx)) t y -> normal (rb_rules (ac_rules ctx)) y -> x = y.
Proof. exact complete_unique. Qed.
Print Assumptions C08_unique_normal_forms.

(** The hypotheses cannot be dropped.  The book {XYX -> Z} reports itself complete, yet ZYX and XYZ, both equal to XYXYX,
    are different canonical forms: overlaps of a rule with itself are never examined. *)
Theorem C08_self_overlap_refuted : is_complete 20 self_overlap true = Ret true /\ wf_map 3 3 (rb_rules self_overlap) /\
  exists p q, canonical_form 20 (mk_actx false self_overlap) [2;1;0] SPos = Ret p /\
              canonical_form 20 (mk_actx false self_overlap) [0;1;2] SPos = Ret q /\ p <> q /\
              provably_equal (rb_rules self_overlap) (Some (SPos, [2;1;0])) (Some (SPos, [0;1;2])).
Proof. exact self_overlap_refuted. Qed.
Print Assumptions C08_self_overlap_refuted.

(** Nor is containment examined: {Y -> X, XYX -> Z} reports itself complete, yet XXX and Z are different canonical forms. *)
Theorem C08_containment_refuted : is_complete 20 contained false = Ret true /\ wf_map 3 3 (rb_rules contained) /\
  exists p q, canonical_form 20 (mk_actx false contained) [0;0;0] SPos = Ret p /\
              canonical_form 20 (mk_actx false contained) [2] SPos = Ret q /\ p <> q /\
              provably_equal (rb_rules contained) (Some (SPos, [0;0;0])) (Some (SPos, [2])).
Proof. exact contained_refuted. Qed.
Print Assumptions C08_containment_refuted.

Example C08_nonvacuous : decidable_context 8 3 true (mk_actx false projectors) /\ is_complete 20 projectors true = Ret true /\
  decidable_context 8 2 false (mk_actx false anticommuting) /\ is_complete 20 anticommuting true = Ret true.
Proof.
  split; [exact projectors_decidable|]. split; [exact projectors_complete|].
  split; [exact anticommuting_decidable|exact anticommuting_complete].
Qed.

(* ------------------------------------------------------------------------------------------------ C09 (algebraic) *)
(** Reversing and conjugating words is an anti-automorphism and an involution. *)
Theorem C09_word_conjugation : forall pc u w, conj_word pc (u ++ w) = conj_word pc w ++ conj_word pc u.
Proof. exact conj_word_app. Qed.
Print Assumptions C09_word_conjugation.

Theorem C09_word_conjugation_involutive : forall pc w, over (pc_num pc) w -> conj_word pc (conj_word pc w) = w.
Proof. exact conj_word_invol. Qed.
Print Assumptions C09_word_conjugation_involutive.

(** The context's conjugate denotes the adjoint, whenever all operators are self-adjoint or the sequence has no phase. *)
Theorem C09_conjugate_sound : forall L ctx fuel q c, context_ok L ctx -> wf_seq (pc_num (rb_pc (ac_rules ctx))) L q ->
  (pc_mode (rb_pc (ac_rules ctx)) = SelfAdjoint \/ hs_sign q = SPos) ->
  conjugate fuel ctx q = Ret c ->
  forall (A : star_algebra) v, star_model A (rb_pc (ac_rules ctx)) v -> context_model A v ctx ->
  aeq A (den A v c) (astar A (den A v q)).
Proof. exact conjugate_sound. Qed.
Print Assumptions C09_conjugate_sound.

Theorem C09_conjugate_phase : forall L ctx fuel q k c ck, context_ok L ctx -> wf_seq (pc_num (rb_pc (ac_rules ctx))) L q ->
  pc_mode (rb_pc (ac_rules ctx)) = SelfAdjoint ->
  conjugate fuel ctx q = Ret c -> conjugate fuel ctx (set_sign q (smul k (hs_sign q))) = Ret ck ->
  forall (A : star_algebra) v, star_model A (rb_pc (ac_rules ctx)) v -> context_model A v ctx ->
  aeq A (den A v ck) (aph A (sconj k) (den A v c)).
Proof. exact conjugate_phase_commutes. Qed.
Print Assumptions C09_conjugate_phase.

(** In a complete context (closed under conjugation): conj (conj q) = q and conj (a b) = conj b conj a, exactly. *)
Theorem C09_conjugate_involutive : forall L M c ctx fuel, decidable_context L M c ctx ->
  is_complete fuel (ac_rules ctx) true = Ret true ->
  forall f1 f2 q cq ccq, canonical L ctx q -> phase_safe c ctx q ->
  conjugate f1 ctx q = Ret cq -> conjugate f2 ctx cq = Ret ccq -> ccq = q.
Proof. exact conjugate_involutive. Qed.
Print Assumptions C09_conjugate_involutive.

Theorem C09_conjugate_antimultiplicative : forall L M c ctx fuel, decidable_context L M c ctx ->
  is_complete fuel (ac_rules ctx) true = Ret true ->
  forall f1 f2 f3 f4 f5 a b p cp ca cb q,
  canonical L ctx a -> canonical L ctx b -> phase_safe c ctx a -> phase_safe c ctx b ->
  length (hs_ops a) + length (hs_ops b) <= L ->
  multiply f1 ctx a b = Ret p -> conjugate f2 ctx p = Ret cp ->
  conjugate f3 ctx a = Ret ca -> conjugate f4 ctx b = Ret cb -> multiply f5 ctx cb ca = Ret q -> cp = q.
Proof. exact conjugate_antimultiplicative. Qed.
Print Assumptions C09_conjugate_antimultiplicative.

(** For operators that are not self-adjoint the phase is dropped, so conjugating twice does not give the operator back. *)
Theorem C09_phase_refuted : exists q c cc, canonical 4 free_bunched q /\ conjugate 5 free_bunched q = Ret c /\ conjugate 5 free_bunched c = Ret cc /\
  is_complete 5 (ac_rules free_bunched) true = Ret true /\ cc <> q /\ hs_sign c <> sconj (hs_sign q).
Proof. exact phase_dropped. Qed.
Print Assumptions C09_phase_refuted.

Example C09_nonvacuous :
  canonical 8 (mk_actx false anticommuting) (hseq_make 2 [0;1] SIm) /\
  phase_safe false (mk_actx false anticommuting) (hseq_make 2 [0;1] SIm) /\
  conjugate 20 (mk_actx false anticommuting) (hseq_make 2 [0;1] SIm) = Ret (hseq_make 2 [0;1] SIm) /\
  conjugate 20 (mk_actx false projectors) (hseq_make 2 [0;1] SPos) = Ret (hseq_make 2 [1;0] SPos).
Proof.
  split; [|split; [left; reflexivity|split; reflexivity]].
  split; [apply wf_seqb_ok; reflexivity|]. split; [|discriminate].
  intros k rl [H|[]] _. injection H as <- <-. apply occursb_false. reflexivity.
Qed.
