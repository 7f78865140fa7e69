(** Inflation scenarios: the theorems as stated in InfProps. *)
From Coq Require Import List NArith ZArith Arith Bool Lia Permutation Sorted FinFun.
From Verif Require Import CoreModel CoreSpec AlgModel FieldModel FieldProofs EnumSpec InfModel InfSpec InfProofs InfLayoutProofs InfSimpProofs InfCompleteProofs InfFactorProofs InfAverageProofs InfExpectProofs InfSeenProofs InfMomentProofs InfTopProofs InfDictProofs.
Import ListNotations.

Lemma f_network outcomes srcs : well_formed outcomes srcs <-> exists nt, make_network outcomes srcs = Some nt.
Proof.
  rewrite network_made. destruct (make_network outcomes srcs) as [nt|]; split; intros H; try congruence; [now exists nt|destruct H; discriminate].
Qed.

Lemma one_left (R : rfield) (x : R) : rmul R x (r1 R) = x.
Proof. pose proof (r_field R) as F. destruct F as [T _ _ _]. destruct T as [_ _ _ L1 C _ _ _ _]. now rewrite C, L1. Qed.

Section Final.
  Variables (outcomes : list nat) (srcs : list (list nat)) (nt : network) (L : nat).
  Hypothesis MK : make_network outcomes srcs = Some nt.
  Notation c := (inflate nt L).
  Notation size := (length (ic_ops c)).
  Notation lab := (label_of c).

  Lemma f_operators :
    size = total_operators nt L /\
    (forall op, op < size -> exists_label outcomes srcs L (lab op)) /\
    (forall l, exists_label outcomes srcs L l -> exists op, op < size /\ lab op = l) /\
    (forall x y, x < size -> y < size -> (x < y <-> before (lab x) (lab y))).
  Proof.
    split; [apply (total_size outcomes srcs nt L MK)|]. split; [apply (label_exists outcomes srcs nt L MK)|]. split.
    - intros l X. exists (number nt L l). now apply (label_number outcomes srcs nt L MK).
    - intros x y X Y. rewrite <- (number_order outcomes srcs nt L MK) by (now apply (label_exists outcomes srcs nt L MK)).
      now rewrite !(number_label outcomes srcs nt L MK).
  Qed.
  Lemma f_operator_number :
    (forall op, op < size -> operator_number c (oi_obs (info c op)) (oi_copy (info c op)) (oi_outcome (info c op)) = op) /\
    (forall l, exists_label outcomes srcs L l ->
       operator_number c (lb_obs l) (flatten_index L (lb_copies l)) (lb_outcome l) < size /\
       lab (operator_number c (lb_obs l) (flatten_index L (lb_copies l)) (lb_outcome l)) = l).
  Proof.
    split.
    - intros op X. destruct (spot_find outcomes srcs nt L MK op X) as [o [v [a [V ->]]]].
      rewrite (proj1 (proj2 (proj2 (proj2 (tables outcomes srcs nt L MK)))) o v a V). cbn [oi_obs oi_copy oi_outcome].
      apply (operator_number_is outcomes srcs nt L MK). apply V.
    - intros l X. rewrite (operator_number_is outcomes srcs nt L MK) by apply X. rewrite flatten_is. now apply (label_number outcomes srcs nt L MK).
  Qed.
  Lemma f_copy_index :
    (forall o v, o < length outcomes -> v < L ^ length (sources srcs o) ->
       copy_index c o v < length (ic_index c) /\ index_copy c (copy_index c o v) = (o, v)) /\
    (forall g, g < length (ic_index c) ->
       fst (index_copy c g) < length outcomes /\ snd (index_copy c g) < L ^ length (sources srcs (fst (index_copy c g))) /\
       copy_index c (fst (index_copy c g)) (snd (index_copy c g)) = g).
  Proof.
    split.
    - intros o v O V. rewrite (copy_index_is outcomes srcs nt L MK) by assumption. rewrite <- (copies_count outcomes srcs nt L MK) in V by assumption.
      split; [now apply (InfLayoutProofs.index_bound outcomes srcs nt L MK)|now apply (tables outcomes srcs nt L MK)].
    - intros g G. destruct (index_find outcomes srcs nt L MK g G) as [o [v [O [V ->]]]]. assert (index_copy c (cpo nt L o + v) = (o, v)) as -> by (now apply (tables outcomes srcs nt L MK)). cbn [fst snd].
      split; [assumption|]. split; [now rewrite <- (copies_count outcomes srcs nt L MK)|now apply (copy_index_is outcomes srcs nt L MK)].
  Qed.
  Lemma f_sources :
    (forall s i, s < length srcs -> i < L -> source_copy nt L (global_source nt L s i) = (s, i) /\ global_source nt L s i < total_sources nt L) /\
    (forall j, j < nt_implicit nt -> 0 < L -> (Z.of_nat (length srcs + j) < 2 ^ 64)%Z ->
       source_copy nt L (global_source nt L (length srcs + j) 0) = (length srcs + j, 0) /\ global_source nt L (length srcs + j) 0 < total_sources nt L) /\
    nt_implicit nt = length (filter (fun o => match sources srcs o with [] => true | _ => false end) (seq 0 (length outcomes))).
  Proof.
    unfold source_copy, global_source, total_sources. rewrite (net_explicit _ _ _ MK). split; [|split].
    - intros s i Sn I. destruct (Nat.leb_spec (length srcs) s); [lia|]. destruct (Nat.ltb_spec (length srcs * L) (s * L + i)); [nia|]. split; [|nia].
      rewrite Nat.add_comm, Nat.div_add, Nat.mod_add, Nat.div_small, Nat.mod_small by lia. f_equal.
    - intros j J P B. destruct (Nat.leb_spec (length srcs) (length srcs + j)); [|lia]. replace (length srcs + j - length srcs) with j by lia. split; [|lia].
      destruct (Nat.ltb_spec (length srcs * L) (length srcs * L + j)).
      + f_equal. replace (Z.of_nat (length srcs * L + j) + Z.of_nat (length srcs) * (1 - Z.of_nat L))%Z with (Z.of_nat (length srcs + j)) by lia.
        rewrite Z.mod_small by lia. apply Nat2Z.id.
      + assert (j = 0) as -> by lia. rewrite !Nat.add_0_r, Nat.div_mul, Nat.mod_mul by lia. reflexivity.
    - rewrite (net_implicit _ _ _ MK). generalize (length outcomes) 0. intros n. induction n as [|n IH]; intros o; [reflexivity|].
      cbn [loners seq filter]. rewrite IH. unfold alone. now destruct (sources srcs o).
  Qed.
  Lemma f_independent x y : x < size -> y < size -> (independent (copy_of c x) (copy_of c y) = true <-> ~ share srcs (lab x) (lab y)).
  Proof.
    intros X Y. rewrite <- (meet_share outcomes srcs nt L MK x y X Y). unfold independent.
    assert (NE : cp_sources (copy_of c x) <> []).
    { destruct (spot_find outcomes srcs nt L MK x X) as [o [v [a [V E]]]]. rewrite E, (sources_spot outcomes srcs nt L MK) by assumption.
      unfold causes. pose proof (label_exists outcomes srcs nt L MK x X) as [_ [Ln _]]. rewrite <- E.
      destruct (sources srcs (lb_obs (lab x))) as [|s ss]; [discriminate|]. destruct (lb_copies (lab x)); [discriminate|]. discriminate. }
    destruct (cp_sources (copy_of c x)); [congruence|]. rewrite negb_true_iff, not_true_iff_false. tauto.
  Qed.
  Lemma f_outcomes :
    (forall xs, Forall (outcome_exists outcomes srcs L) xs ->
       flatten_outcomes c xs = Some (joint_number outcomes xs) /\ joint_number outcomes xs < joint_count outcomes (map fst xs) /\
       unflatten_outcomes c (map fst xs) (joint_number outcomes xs) = Some (Some xs)) /\
    (forall xs, ~ Forall (outcome_exists outcomes srcs L) xs -> flatten_outcomes c xs = None) /\
    (forall ps k, (forall x, In x ps -> fst x < length outcomes /\ snd x < L ^ length (sources srcs (fst x))) -> k < joint_count outcomes ps ->
       exists xs, Forall (outcome_exists outcomes srcs L) xs /\ map fst xs = ps /\ joint_number outcomes xs = k).
  Proof.
    split; [apply (outcomes_round outcomes srcs nt L MK)|]. split; [apply (flatten_is_joint outcomes srcs nt L MK)|apply (outcomes_cover outcomes srcs nt L MK)].
  Qed.

  (** * Words *)
  Lemma simplified_normal w : simplified c w <-> normal nt L w.
  Proof.
    split.
    - intros [Ov E]. now apply (simplify_normal outcomes srcs nt L MK w).
    - intros N. split; [apply N|now apply (normal_simplify outcomes srcs nt L MK)].
  Qed.
  Lemma f_value (R : rfield) (M : explanation R) lam w : word_exists c w ->
    word_value outcomes srcs R M lam (map lab w) =
    match simplify c w with None => r0 R | Some w' => word_value outcomes srcs R M lam (map lab w') end.
  Proof. intros Ov. pose proof (simplify_value outcomes srcs nt L MK R M lam w Ov) as H. destruct (simplify c w); now symmetry. Qed.
  Lemma f_unique u v : word_exists c u -> word_exists c v ->
    (simplify c u = simplify c v <->
     forall (M : explanation Qc_rfield) lam, word_value outcomes srcs Qc_rfield M lam (map lab u) = word_value outcomes srcs Qc_rfield M lam (map lab v)).
  Proof.
    intros Ou Ov. split.
    - intros E M lam. now rewrite (f_value Qc_rfield M lam u Ou), (f_value Qc_rfield M lam v Ov), E.
    - intros A. now apply (complete outcomes srcs nt L MK).
  Qed.
  Lemma f_canonical w : word_exists c w ->
    (forall w', simplify c w = Some w' -> simplified c w') /\
    (if_canonical c w = Some w <-> simplify c w = Some w) /\ (if_canonical c w = Some w \/ if_canonical c w = None).
  Proof.
    intros Ov. split; [|split].
    - intros w' E. apply simplified_normal. now apply (simplify_normal outcomes srcs nt L MK w).
    - rewrite (proj1 (normal_canonical outcomes srcs nt L MK w Ov)), <- simplified_normal. unfold simplified. tauto.
    - destruct (proj2 (normal_canonical outcomes srcs nt L MK w Ov)); tauto.
  Qed.
  Lemma f_multiply (R : rfield) (M : explanation R) lam u v : word_exists c u -> word_exists c v ->
    match inf_multiply c u v with None => r0 R | Some w => word_value outcomes srcs R M lam (map lab w) end =
      rmul R (word_value outcomes srcs R M lam (map lab u)) (word_value outcomes srcs R M lam (map lab v)) /\
    match inf_conjugate c u with None => r0 R | Some w => word_value outcomes srcs R M lam (map lab w) end =
      word_value outcomes srcs R M lam (map lab u) /\
    inf_multiply c u v = inf_multiply c v u.
  Proof.
    intros Ou Ov.
    assert (Oa : forall a b, word_exists c a -> word_exists c b -> word_exists c (a ++ b)).
    { intros a b A B x X. apply in_app_or in X. destruct X; auto. }
    split; [|split].
    - unfold inf_multiply. rewrite <- f_value by auto. rewrite map_app. apply word_value_app.
    - unfold inf_conjugate. rewrite <- f_value.
      + apply word_value_perm. apply Permutation_map. symmetry. apply Permutation_rev.
      + intros x X. apply Ou. now apply in_rev.
    - unfold inf_multiply, simplify. rewrite (sorted_unique (sort_word (u ++ v)) (sort_word (v ++ u))); [reflexivity|apply sort_sorted..|].
      rewrite !sort_perm. apply Permutation_app_comm.
  Qed.

  (** * Moments *)
  Lemma lab_move sigma w : lawful srcs L sigma -> word_exists c w -> map lab (map (move srcs nt L sigma) w) = map (relabel srcs sigma) (map lab w).
  Proof. intros Lw Ov. rewrite !map_map. apply map_ext_in. intros x X. apply (move_label outcomes srcs nt L MK); auto. Qed.
  Lemma alike_move u w : word_exists c u -> word_exists c w ->
    (alike srcs c L u w <-> exists sigma, lawful srcs L sigma /\ Permutation u (map (move srcs nt L sigma) w)).
  Proof.
    intros Ou Ow. split; intros [sigma [Lw P]]; exists sigma; (split; [exact Lw|]).
    - rewrite <- lab_move in P by assumption.
      apply (Permutation_map (number nt L)) in P. rewrite !map_map in P.
      rewrite (map_ext_in _ (fun x => x)) in P by (intros x X; apply (number_label outcomes srcs nt L MK); auto). rewrite map_id in P. rewrite P.
      apply Permutation_refl'. apply map_ext_in. intros x X. apply (number_label outcomes srcs nt L MK). apply (move_label outcomes srcs nt L MK); auto.
    - rewrite <- lab_move by assumption. now apply Permutation_map.
  Qed.
  Lemma f_moment w : simplified c w ->
    exists r k, (forall fuel scratch, k <= fuel -> length scratch = total_sources nt L -> canonical_moment c fuel scratch w = Ret (Some r)) /\
      simplified c r /\ alike srcs c L r w /\ (r = w \/ lex_less r w) /\
      (can_be_simplified c w = true <-> r <> w) /\ can_be_simplified c r = false.
  Proof.
    intros N. apply simplified_normal in N. destruct (canonical_moment_spec outcomes srcs nt L MK w N) as [r [k [A [B [D [F G]]]]]].
    exists r, k. pose proof N as [Ov _]. pose proof B as [Or _].
    split; [assumption|]. split; [now apply simplified_normal|]. split; [now apply alike_move|].
    split; [destruct G as [[-> _]|[G _]]; [now left|now right]|]. rewrite (can_be_simplified_spec outcomes srcs nt L MK) by assumption. split.
    - destruct G as [[-> G]|[G Ch]]; [tauto|]. split; [|tauto]. intros _ ->. now apply lex_irreflexive in G.
    - apply not_true_is_false. rewrite (can_be_simplified_spec outcomes srcs nt L MK) by assumption. exact D.
  Qed.
  Lemma f_moment_twice w r fuel scratch : simplified c w -> length scratch = total_sources nt L -> canonical_moment c fuel scratch w = Ret (Some r) ->
    exists k, forall fuel' scratch', k <= fuel' -> length scratch' = total_sources nt L -> canonical_moment c fuel' scratch' r = Ret (Some r).
  Proof.
    intros N Ls E. destruct (f_moment w N) as [r' [k [A [B [_ [_ [_ D]]]]]]].
    assert (r' = r) as ->.
    { unfold canonical_moment in *. destruct (can_have_aliases c); [|specialize (A k scratch (Nat.le_refl _) Ls); congruence].
      assert (Mono : forall f w scr, as_moment c f scr w <> NoFuel -> forall g, f <= g -> as_moment c g scr w = as_moment c f scr w).
      { clear. induction f as [|f IH]; intros w scr Nf g Le; [cbn in Nf; congruence|]. destruct g as [|g]; [lia|]. cbn [as_moment] in *.
        destruct w as [|x w]; [reflexivity|]. destruct (find_permutation c scr (x :: w)) as [b p]. destruct b; [|reflexivity].
        destruct (is_sorted _); [reflexivity|]. destruct (simplify c _) as [s|]; [|reflexivity]. apply IH; [assumption|lia]. }
      assert (Nf : as_moment c fuel scratch w <> NoFuel) by congruence.
      pose proof (Mono fuel w scratch Nf (fuel + k) ltac:(lia)) as H. rewrite A in H by (assumption || lia). congruence. }
    destruct (f_moment r B) as [r2 [k2 [A2 [_ [_ [_ [H2 _]]]]]]]. exists k2. intros f' s' Le Ls'. rewrite A2 by assumption. do 2 f_equal.
    destruct (list_eq_dec Nat.eq_dec r2 r) as [|Ne]; [assumption|]. apply H2 in Ne. congruence.
  Qed.
  Lemma f_expectation (R : rfield) (M : explanation R) u w : word_exists c u -> word_exists c w -> alike srcs c L u w ->
    expectation outcomes srcs L R M (map lab u) = expectation outcomes srcs L R M (map lab w).
  Proof.
    intros Ou Ow [sigma [Lw P]]. rewrite (expectation_perm outcomes srcs L R M _ _ P). apply (expectation_relabel outcomes srcs L R M sigma Lw).
    intros l H. apply in_map_iff in H. destruct H as [x [<- X]]. apply (label_exists outcomes srcs nt L MK); auto.
  Qed.
  Lemma f_moment_value (R : rfield) (M : explanation R) w : simplified c w ->
    exists r k, (forall fuel scratch, k <= fuel -> length scratch = total_sources nt L -> canonical_moment c fuel scratch w = Ret (Some r)) /\
      expectation outcomes srcs L R M (map lab r) = expectation outcomes srcs L R M (map lab w).
  Proof.
    intros N. destruct (f_moment w N) as [r [k [A [[B _] [D _]]]]]. exists r, k. split; [assumption|]. apply f_expectation; [assumption|apply N|assumption].
  Qed.
  Lemma f_moment_unique u w : simplified c u -> simplified c w -> observables_distinct c w -> alike srcs c L u w ->
    forall fuel scratch, length scratch = total_sources nt L -> canonical_moment c (S fuel) scratch u = canonical_moment c (S fuel) scratch w.
  Proof.
    intros Nu Nw Di Al fuel scr Ls. pose proof (proj1 (simplified_normal u) Nu) as Mu. pose proof (proj1 (simplified_normal w) Nw) as Mw.
    apply alike_move in Al; [|apply Nu|apply Nw]. destruct Al as [sigma [Lw P]].
    assert (So : sorted (map (move srcs nt L sigma) w)).
    { apply (distinct_sorted outcomes srcs nt L MK); [assumption|apply Mw|apply Mw|assumption]. }
    assert (u = map (move srcs nt L sigma) w) as -> by (apply sorted_unique; [apply Mu|assumption..]).
    unfold canonical_moment. destruct (can_have_aliases c) eqn:Al.
    - now apply (moment_same outcomes srcs nt L MK).
    - do 2 f_equal.
      assert (Nc : ~ changed srcs nt L w) by (intros H; apply (aliases_changed outcomes srcs nt L MK) in H; [congruence|apply Mw]).
      assert (Nc2 : ~ changed srcs nt L (map (move srcs nt L sigma) w)) by (intros H; apply (aliases_changed outcomes srcs nt L MK) in H; [congruence|apply Mu]).
      assert (Un : forall v, over nt L v -> ~ changed srcs nt L v -> map (move srcs nt L (sig srcs nt L v)) v = v).
      { intros v Ovv N1. rewrite <- (map_id v) at 3. apply map_ext_in. intros x X. now apply (unchanged_fixed outcomes srcs nt L MK). }
      rewrite <- (Un w (proj1 Mw) Nc) at 2. rewrite <- (moved_same outcomes srcs nt L MK sigma w Lw (proj1 Mw)). symmetry. apply Un; [apply Mu|assumption].
  Qed.

  (** * Factors *)
  Lemma f_factors w : simplified c w -> w <> [] ->
    exists fs, factorize c w = map Some fs /\ Permutation (concat fs) w /\
      (forall f, In f fs -> f <> [] /\ simplified c f /\ connected srcs (map lab f)) /\
      ForallOrdPairs (fun f g => forall x y, In x f -> In y g -> ~ share srcs (lab x) (lab y)) fs.
  Proof.
    intros N NE. destruct (factorize_spec outcomes srcs nt L MK w) as [fs [A [B [D F]]]]; [now apply simplified_normal|assumption|].
    exists fs. split; [assumption|]. split; [assumption|]. split; [|exact D]. intros f I. destruct (F f I) as [F1 [F2 F3]].
    split; [assumption|]. split; [now apply simplified_normal|assumption].
  Qed.
  Lemma f_factors_value (R : rfield) (M : explanation R) w fs : normalized R M -> simplified c w -> factorize c w = map Some fs ->
    expectation outcomes srcs L R M (map lab w) = fold_right (fun f acc => rmul R (expectation outcomes srcs L R M (map lab f)) acc) (r1 R) fs.
  Proof.
    intros NM N E. destruct (list_eq_dec Nat.eq_dec w []) as [->|NE].
    - destruct fs as [|f [|g fs]]; try discriminate. injection E as <-. cbn [map fold_right]. rewrite expectation_one by assumption.
      symmetry. apply one_left.
    - destruct (f_factors w N NE) as [fs' [A [B [D F]]]]. assert (fs' = fs) as ->.
      { rewrite A in E. clear - E. revert fs E. induction fs' as [|f l IH]; intros [|g k] E; try discriminate; [reflexivity|]. cbn in E. injection E as -> E. f_equal. now apply IH. }
      rewrite <- (expectation_factors outcomes srcs nt L R M NM fs F). apply expectation_perm. apply Permutation_map. now symmetry.
  Qed.

  (** * The dictionary *)
  Lemma simplify_length w w' : simplify c w = Some w' -> length w' <= length w.
  Proof.
    unfold simplify. destruct (any_orthogonal c (sort_word w)); [discriminate|]. intros E. injection E as <-.
    assert (Hl : forall w last, length (unique_from c last w) <= length w).
    { clear. induction w as [|z w IH]; intros last; [cbn; lia|]. cbn [unique_from]. destruct (Nat.eqb last z && oi_proj (info c last)); cbn [length]; [specialize (IH last)|specialize (IH z)]; lia. }
    rewrite <- (Permutation_length (sort_perm w)). destruct (sort_word w) as [|x s]; [cbn; lia|]. cbn [unique length] in *. specialize (Hl s x). lia.
  Qed.
  Lemma f_dictionary level : exists l k, (forall fuel, k <= fuel -> inf_osg c fuel level = Ret l) /\
    lists_in_order shortlex_lt (fun w => simplified c w /\ length w <= level) l /\
    (forall w w', word_exists c w -> length w <= level -> simplify c w = Some w' -> In w' l).
  Proof.
    destruct (osg_listed outcomes srcs nt L MK level) as [l [k [A [B D]]]]. exists l, k.
    assert (D' : forall w, In w l <-> simplified c w /\ length w <= level) by (intros w; now rewrite simplified_normal).
    split; [assumption|]. split; [split; assumption|]. intros w w' Ov Le E. apply D'. split; [now apply (f_canonical w Ov)|].
    apply simplify_length in E. lia.
  Qed.
End Final.
