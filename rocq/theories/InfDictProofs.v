(** The dictionary of an inflation scenario, and joint outcomes. *)
From Coq Require Import List NArith ZArith Arith Bool Lia Permutation Sorted FinFun.
From Verif Require Import CoreModel CoreSpec AlgModel FieldModel EnumSpec CombModel CombSpec CombProofs CombFinalProofs InfModel InfSpec InfProofs InfLayoutProofs InfSimpProofs InfCompleteProofs InfFactorProofs.
Import ListNotations.

Lemma filter_strong {A} (R : A -> A -> Prop) p : forall l, StronglySorted R l -> StronglySorted R (filter p l).
Proof.
  induction 1 as [|x l S1 IH F]; [constructor|]. cbn. destruct (p x); [|assumption]. constructor; [assumption|].
  rewrite Forall_forall in *. intros y Y. apply filter_In in Y. now apply F.
Qed.
Lemma app_strong {A} (R : A -> A -> Prop) : forall a b, StronglySorted R a -> StronglySorted R b -> (forall x y, In x a -> In y b -> R x y) -> StronglySorted R (a ++ b).
Proof.
  induction a as [|x a IH]; intros b Sa Sb H; [assumption|]. inversion Sa; subst. cbn. constructor.
  - apply IH; [assumption..|]. intros y z Y Z. apply H; [now right|assumption].
  - apply Forall_app. split; [assumption|]. apply Forall_forall. intros y Y. apply H; [now left|assumption].
Qed.
Lemma strong_weaken {A} (R R' : A -> A -> Prop) : forall l, StronglySorted R l -> (forall x y, In x l -> In y l -> R x y -> R' x y) -> StronglySorted R' l.
Proof.
  induction 1 as [|x l S1 IH F]; intros H; [constructor|]. constructor.
  - apply IH. intros y z Y Z. apply H; now right.
  - rewrite Forall_forall in *. intros y Y. apply H; [now left|now right|now apply F].
Qed.

Section Dict.
  Variables (outcomes : list nat) (srcs : list (list nat)) (nt : network) (L : nat).
  Hypothesis MK : make_network outcomes srcs = Some nt.
  Notation c := (inflate nt L).
  Notation size := (size nt L).
  Notation over := (over nt L).
  Notation normal := (normal nt L).

  Lemma all_projective_info x : all_projective c = true -> x < size -> oi_proj (info c x) = true.
  Proof.
    intros P X. destruct (spot_find outcomes srcs nt L MK x X) as [o [v [a [V ->]]]].
    rewrite (proj1 (proj2 (proj2 (proj2 (tables outcomes srcs nt L MK)))) o v a V). cbn [oi_proj].
    unfold all_projective in P. rewrite forallb_forall in P.
    pose proof (P (nth o (ic_obs c) no_obs)) as H. rewrite (obs_at outcomes srcs nt L MK o) in H by apply V. cbn [io_obs] in H. apply H.
    rewrite <- (obs_at outcomes srcs nt L MK o) by apply V. apply nth_In. destruct V as [V _].
    now rewrite (proj1 (tables outcomes srcs nt L MK)).
  Qed.
  Lemma strict_unique w : StronglySorted lt w -> unique c w = w.
  Proof.
    intros Sw. destruct w as [|x w]; [reflexivity|]. cbn [unique]. f_equal. revert x Sw.
    induction w as [|y w IH]; intros x Sw; [reflexivity|]. inversion Sw as [|? ? S1 F]; subst. inversion F; subst. cbn [unique_from].
    destruct (Nat.eqb_spec x y) as [->|_]; [lia|]. cbn [andb]. f_equal. now apply IH.
  Qed.
  Lemma strict_weak w : StronglySorted lt w -> sorted w.
  Proof. intros S1. eapply strong_weaken; [exact S1|]. cbn. intros; lia. Qed.
  Lemma unique_strict w : (forall x, In x w -> oi_proj (info c x) = true) -> sorted w -> unique c w = w -> StronglySorted lt w.
  Proof.
    intros P Sw Un. assert (C : forall x, count_occ Nat.eq_dec w x <= 1).
    { intros x. destruct (in_dec Nat.eq_dec x w) as [I|I]; [|now apply (count_occ_not_In Nat.eq_dec) in I; lia].
      destruct w as [|y w]; [destruct I|]. cbn [unique] in Un. injection Un as Un.
      pose proof (unique_from_count nt L w y x Sw (P x I)) as H. rewrite Un in H. destruct (Nat.eq_dec y x) as [->|N].
      - rewrite count_occ_cons_eq by reflexivity. destruct (Nat.eq_dec x x); lia.
      - rewrite count_occ_cons_neq by assumption. destruct (Nat.eq_dec x y); lia. }
    clear P Un. induction Sw as [|x w Sw IH F]; [constructor|]. constructor.
    - apply IH. intros y. specialize (C y). destruct (Nat.eq_dec x y) as [->|N]; [rewrite count_occ_cons_eq in C by reflexivity; lia|rewrite count_occ_cons_neq in C by assumption; lia].
    - rewrite Forall_forall in *. intros y Y. specialize (F y Y). destruct (Nat.eq_dec x y) as [->|]; [|lia]. specialize (C y).
      rewrite count_occ_cons_eq in C by reflexivity. apply (count_occ_In Nat.eq_dec) in Y. lia.
  Qed.

  Lemma words_listed len : 0 < len -> exists l k, (forall fuel, k <= fuel -> words_of_length c fuel len = Ret l) /\
    lists_in_order lex_lt (fun w => normal w /\ length w = len) l.
  Proof.
    intros P. unfold words_of_length. destruct (all_projective c) eqn:AP.
    - destruct (unique_triangular_listed size len P) as [l [A [[B C] _]]]. exists (filter (no_orthogonal c) l), (length l).
      split; [intros fuel Le; change (length (ic_ops c)) with size; now rewrite A|]. split; [now apply filter_strong|].
      intros w. rewrite filter_In, C. unfold subset_of. rewrite no_orthogonal_spec. split.
      + intros [[E [S1 F]] O]. rewrite Forall_forall in F. apply negb_true_iff in O. pose proof (strict_weak w S1) as Sw.
        split; [|assumption]. split; [exact F|]. split; [assumption|]. split; [|now apply strict_unique].
        now apply (coherent_sorted outcomes srcs nt L MK).
      + intros [[Ov [Sw [Co Un]]] E]. split; [split; [assumption|split]|].
        * apply unique_strict; [|assumption..]. intros x X. apply all_projective_info; auto.
        * apply Forall_forall. exact Ov.
        * apply negb_true_iff. now apply (coherent_sorted outcomes srcs nt L MK).
    - destruct (duplicate_triangular_listed size len P) as [l [A [[B C] _]]]. exists (filter (adjacent_ok c) l), (length l).
      split; [intros fuel Le; change (length (ic_ops c)) with size; now rewrite A|]. split; [now apply filter_strong|].
      intros w. rewrite filter_In, C. unfold multiset_of. split.
      + intros [[E [Sw F]] O]. rewrite Forall_forall in F. apply (adjacent_coherent nt L) in O; [|exact F|assumption]. destruct O as [O Un].
        split; [|assumption]. split; [exact F|]. split; [assumption|]. split; [|assumption]. now apply (coherent_sorted outcomes srcs nt L MK).
      + intros [[Ov [Sw [Co Un]]] E]. split; [split; [assumption|split; [assumption|apply Forall_forall; exact Ov]]|].
        apply (adjacent_coherent nt L); [assumption..|]. split; [|assumption]. now apply (coherent_sorted outcomes srcs nt L MK).
  Qed.
  Lemma levels_listed : forall n s, 0 < s -> exists l k, (forall fuel, k <= fuel -> inf_words c fuel (seq s n) = Ret l) /\
    lists_in_order shortlex_lt (fun w => normal w /\ s <= length w < s + n) l.
  Proof.
    induction n as [|n IH]; intros s P.
    - exists [], 0. split; [reflexivity|]. split; [constructor|]. intros w. cbn. split; [tauto|lia].
    - destruct (words_listed s P) as [a [k1 [A1 [B1 C1]]]]. destruct (IH (S s) (Nat.lt_0_succ s)) as [b [k2 [A2 [B2 C2]]]].
      exists (a ++ b), (k1 + k2). split; [intros fuel Le; cbn [seq inf_words]; now rewrite A1, A2 by lia|]. split.
      + apply app_strong; [|assumption|].
        * eapply strong_weaken; [exact B1|]. intros x y X Y H. apply C1 in X. apply C1 in Y. right. split; [lia|assumption].
        * intros x y X Y. apply C1 in X. apply C2 in Y. left. lia.
      + intros w. rewrite in_app_iff, C1, C2. destruct (Nat.eq_dec (length w) s) as [E|E]; split; intros H.
        * destruct H as [[H _]|[H _]]; split; (assumption || lia).
        * left. split; [apply H|assumption].
        * destruct H as [[_ H]|H]; [congruence|]. split; [apply H|lia].
        * right. split; [apply H|lia].
  Qed.
  Lemma normal_nil : normal [].
  Proof. split; [intros x []|]. split; [constructor|]. split; [intros x y []|reflexivity]. Qed.
  Lemma osg_listed level : exists l k, (forall fuel, k <= fuel -> inf_osg c fuel level = Ret l) /\
    lists_in_order shortlex_lt (fun w => normal w /\ length w <= level) l.
  Proof.
    destruct (levels_listed level 1 Nat.lt_0_1) as [l [k [A [B C]]]]. exists ([] :: l), k.
    split; [intros fuel Le; unfold inf_osg; now rewrite A|]. split.
    - constructor; [assumption|]. apply Forall_forall. intros w W. apply C in W. left. cbn. lia.
    - intros w. cbn [In]. rewrite C. split.
      + intros [<-|[N H]]; [split; [apply normal_nil|cbn; lia]|split; [assumption|lia]].
      + intros [N H]. destruct w as [|x w]; [now left|]. right. split; [assumption|]. cbn in *. lia.
  Qed.

  (** * Joint outcomes *)
  Notation real := (outcome_exists outcomes srcs L).
  Notation radix x := (nth (fst x) outcomes 0).
  Fixpoint joint (xs : list (nat * nat * nat)) : nat :=
    match xs with [] => 0 | x :: r => snd x + radix (fst x) * joint r end.
  Lemma joint_number_is xs : joint_number outcomes xs = joint (rev xs).
  Proof.
    unfold joint_number. rewrite <- fold_left_rev_right. induction (rev xs) as [|x r IH]; [reflexivity|]. cbn [fold_right joint]. rewrite IH. lia.
  Qed.
  Lemma row o : o < length outcomes ->
    ob_outcomes (io_obs (nth o (ic_obs c) no_obs)) = nth o outcomes 0 /\ length (io_copies (nth o (ic_obs c) no_obs)) = L ^ length (sources srcs o).
  Proof.
    intros H. rewrite (obs_at outcomes srcs nt L MK o H). cbn [io_obs io_copies]. split; [now apply (obs_outcomes outcomes srcs nt MK)|].
    unfold make_copies. now rewrite map_length, seq_length, (copies_count outcomes srcs nt L MK).
  Qed.
  Lemma rows : length (ic_obs c) = length outcomes. Proof. apply (tables outcomes srcs nt L MK). Qed.
  Lemma flatten_from_is xs : forall stride acc,
    (Forall real xs -> flatten_outcomes_from c stride acc xs = Some (acc + stride * joint xs)) /\
    (~ Forall real xs -> flatten_outcomes_from c stride acc xs = None).
  Proof.
    induction xs as [|[[o v] a] xs IH]; intros stride acc.
    - split; [intros _; cbn; f_equal; lia|]. intros H. exfalso. apply H. constructor.
    - cbn [flatten_outcomes_from]. rewrite rows. destruct (Nat.leb_spec (length outcomes) o) as [H1|H1].
      { split; [|reflexivity]. intros F. inversion F as [|? ? [K _] _]; subst. cbn in K. lia. }
      destruct (row o H1) as [-> ->]. destruct (Nat.leb_spec (L ^ length (sources srcs o)) v) as [H2|H2].
      { split; [|reflexivity]. intros F. inversion F as [|? ? [_ [K _]] _]; subst. cbn in K. lia. }
      destruct (Nat.leb_spec (nth o outcomes 0) a) as [H3|H3].
      { split; [|reflexivity]. intros F. inversion F as [|? ? [_ [_ K]] _]; subst. cbn in K. lia. }
      destruct (IH (stride * nth o outcomes 0) (acc + stride * a)) as [I1 I2]. split.
      + intros F. inversion F; subst. rewrite I1 by assumption. cbn [joint fst snd]. f_equal. lia.
      + intros F. apply I2. intros K. apply F. constructor; [|assumption]. repeat split; assumption.
  Qed.
  Lemma flatten_is_joint xs : (Forall real xs -> flatten_outcomes c xs = Some (joint_number outcomes xs)) /\ (~ Forall real xs -> flatten_outcomes c xs = None).
  Proof.
    unfold flatten_outcomes. destruct (flatten_from_is (rev xs) 1 0) as [A B]. rewrite joint_number_is. split.
    - intros F. rewrite A; [f_equal; lia|]. now apply Forall_rev.
    - intros F. apply B. intros K. apply F. rewrite <- (rev_involutive xs). now apply Forall_rev.
  Qed.
  Lemma joint_bound xs : Forall real xs -> joint xs < joint_count outcomes (map fst xs).
  Proof.
    induction 1 as [|x xs [A [B D]] F IH]; [cbn; lia|]. cbn [joint map joint_count fold_right]. fold (joint_count outcomes (map fst xs)). nia.
  Qed.
  Lemma count_rev xs : joint_count outcomes (rev xs) = joint_count outcomes xs.
  Proof.
    assert (G : forall a b, joint_count outcomes (a ++ b) = joint_count outcomes a * joint_count outcomes b).
    { induction a as [|x a IH]; intros b; [symmetry; apply Nat.mul_1_l|]. cbn [app joint_count fold_right]. fold (joint_count outcomes (a ++ b)). fold (joint_count outcomes a). rewrite IH. lia. }
    induction xs as [|x xs IH]; [reflexivity|]. cbn [rev]. rewrite G, IH. cbn [joint_count fold_right]. fold (joint_count outcomes xs). lia.
  Qed.
  Lemma unflatten_from_joint xs : Forall real xs -> unflatten_outcomes_from c (joint xs) (map fst xs) = xs.
  Proof.
    induction 1 as [|[[o v] a] xs [A [B D]] F IH]; [reflexivity|]. cbn [fst snd] in *. cbn [map unflatten_outcomes_from joint fst snd].
    rewrite (proj1 (row o A)). rewrite (Nat.mul_comm (nth o outcomes 0)).
    rewrite Nat.mod_add, Nat.div_add, Nat.mod_small, Nat.div_small by lia. now rewrite Nat.add_0_l, IH.
  Qed.
  Lemma joint_unflatten ps : (forall x, In x ps -> fst x < length outcomes /\ snd x < L ^ length (sources srcs (fst x))) ->
    forall k, k < joint_count outcomes ps ->
    joint (unflatten_outcomes_from c k ps) = k /\ map fst (unflatten_outcomes_from c k ps) = ps /\ Forall real (unflatten_outcomes_from c k ps).
  Proof.
    induction ps as [|[o v] ps IH]; intros H k K; [cbn in *; repeat split; [lia|constructor]|].
    destruct (H (o, v) (or_introl eq_refl)) as [A B]. cbn [fst snd] in *. cbn [unflatten_outcomes_from joint map fst snd]. rewrite (proj1 (row o A)).
    cbn [joint_count fold_right fst] in K. fold (joint_count outcomes ps) in K. set (m := nth o outcomes 0) in *.
    assert (M0 : m <> 0) by lia. assert (Q : k / m < joint_count outcomes ps) by (apply Nat.div_lt_upper_bound; lia).
    destruct (IH (fun x X => H x (or_intror X)) (k / m) Q) as [I1 [I2 I3]]. rewrite I1, I2. split; [pose proof (Nat.div_mod k m M0); lia|]. split; [reflexivity|].
    constructor; [|assumption]. repeat split; cbn [fst snd]; [assumption..|]. now apply Nat.mod_upper_bound.
  Qed.
  Lemma unflatten_defined ps k : (forall x, In x ps -> fst x < length outcomes /\ 0 < nth (fst x) outcomes 0) ->
    unflatten_outcomes c ps k = Some (Some (rev (unflatten_outcomes_from c k (rev ps)))).
  Proof.
    intros H. unfold unflatten_outcomes. rewrite rows.
    assert (existsb (fun x => length outcomes <? fst x) ps = false) as ->.
    { apply not_true_is_false. intros E. apply existsb_exists in E. destruct E as [x [X E]]. apply Nat.ltb_lt in E. specialize (H x X). lia. }
    assert (existsb (fun x => length outcomes =? fst x) ps = false) as ->.
    { apply not_true_is_false. intros E. apply existsb_exists in E. destruct E as [x [X E]]. apply Nat.eqb_eq in E. specialize (H x X). lia. }
    assert (existsb (fun x => ob_outcomes (io_obs (nth (fst x) (ic_obs c) no_obs)) =? 0) ps = false) as ->.
    { apply not_true_is_false. intros E. apply existsb_exists in E. destruct E as [x [X E]]. apply Nat.eqb_eq in E. specialize (H x X).
      rewrite (proj1 (row (fst x) (proj1 H))) in E. lia. }
    reflexivity.
  Qed.
  Lemma outcomes_round xs : Forall real xs ->
    flatten_outcomes c xs = Some (joint_number outcomes xs) /\ joint_number outcomes xs < joint_count outcomes (map fst xs) /\
    unflatten_outcomes c (map fst xs) (joint_number outcomes xs) = Some (Some xs).
  Proof.
    intros F. split; [now apply flatten_is_joint|]. rewrite joint_number_is. pose proof (Forall_rev F) as Fr. split.
    - rewrite <- (count_rev (map fst xs)), <- map_rev. now apply joint_bound.
    - rewrite unflatten_defined.
      + rewrite <- map_rev, unflatten_from_joint, rev_involutive by assumption. reflexivity.
      + intros x X. apply in_map_iff in X. destruct X as [y [<- Y]]. rewrite Forall_forall in F. destruct (F y Y) as [A [B D]]. split; [assumption|lia].
  Qed.
  Lemma outcomes_cover ps k : (forall x, In x ps -> fst x < length outcomes /\ snd x < L ^ length (sources srcs (fst x))) ->
    k < joint_count outcomes ps ->
    exists xs, Forall real xs /\ map fst xs = ps /\ joint_number outcomes xs = k.
  Proof.
    intros H K. assert (Hr : forall x, In x (rev ps) -> fst x < length outcomes /\ snd x < L ^ length (sources srcs (fst x))) by (intros x X; apply H; now apply in_rev).
    rewrite <- count_rev in K. destruct (joint_unflatten (rev ps) Hr k K) as [A [B D]].
    exists (rev (unflatten_outcomes_from c k (rev ps))). split; [now apply Forall_rev|]. split.
    - now rewrite map_rev, B, rev_involutive.
    - rewrite joint_number_is, rev_involutive. exact A.
  Qed.
End Dict.
