(** Simplification of inflation words. *)
From Coq Require Import List NArith ZArith Arith Bool Lia Permutation Sorted.
From Verif Require Import CoreModel AlgModel FieldModel InfModel InfSpec InfProofs InfLayoutProofs.
Import ListNotations.

(** * Sorting *)
Lemma insert_perm x l : Permutation (insert x l) (x :: l).
Proof.
  induction l as [|y l IH]; [reflexivity|]. cbn [insert]. destruct (x <=? y); [reflexivity|].
  rewrite IH. apply perm_swap.
Qed.
Lemma sort_perm w : Permutation (sort_word w) w.
Proof. induction w as [|x w IH]; [reflexivity|]. unfold sort_word in *. cbn [fold_right]. rewrite insert_perm. now constructor. Qed.
Notation sorted := (StronglySorted le).
Lemma insert_sorted x l : sorted l -> sorted (insert x l).
Proof.
  induction 1 as [|y l Sl IH F]; [repeat constructor|]. cbn [insert]. destruct (Nat.leb_spec x y).
  - constructor; [now constructor|]. constructor; [assumption|]. rewrite Forall_forall in *. intros z Z. specialize (F z Z). lia.
  - constructor; [assumption|]. rewrite Forall_forall in *. intros z Z. apply (Permutation_in _ (insert_perm x l)) in Z.
    destruct Z as [<-|Z]; [lia|auto].
Qed.
Lemma sort_sorted w : sorted (sort_word w).
Proof. induction w as [|x w IH]; [constructor|]. unfold sort_word. cbn [fold_right]. now apply insert_sorted. Qed.
Lemma sorted_unique : forall a b, sorted a -> sorted b -> Permutation a b -> a = b.
Proof.
  induction a as [|x a IH]; intros b A B P.
  - apply Permutation_nil in P. now subst.
  - destruct b as [|y b]; [apply Permutation_sym, Permutation_nil in P; discriminate|].
    inversion A as [|? ? A1 A2]; subst. inversion B as [|? ? B1 B2]; subst. rewrite Forall_forall in A2, B2.
    assert (x = y) as ->.
    { pose proof (Permutation_in x P (or_introl eq_refl)) as X. pose proof (Permutation_in y (Permutation_sym P) (or_introl eq_refl)) as Y.
      destruct X as [X|X]; [now symmetry|]. destruct Y as [Y|Y]; [assumption|]. specialize (A2 y Y). specialize (B2 x X). lia. }
    f_equal. apply IH; [assumption..|]. now apply Permutation_cons_inv in P.
Qed.
Lemma is_sorted_spec w : is_sorted w = true <-> sorted w.
Proof.
  induction w as [|x w IH]; [split; [constructor|reflexivity]|]. destruct w as [|y w].
  - split; [intros _; repeat constructor|reflexivity].
  - change (is_sorted (x :: y :: w)) with ((x <=? y) && is_sorted (y :: w)). rewrite andb_true_iff, IH. split.
    + intros [A B]. apply Nat.leb_le in A. constructor; [assumption|]. inversion B as [|? ? B1 B2]; subst.
      constructor; [assumption|]. rewrite Forall_forall in *. intros z Z. specialize (B2 z Z). lia.
    + intros A. inversion A as [|? ? A1 A2]; subst. split; [|assumption]. apply Nat.leb_le. now inversion A2.
Qed.
Lemma sort_id w : sorted w -> sort_word w = w.
Proof. intros H. apply sorted_unique; [apply sort_sorted|assumption|apply sort_perm]. Qed.

Section Simp.
  Variables (outcomes : list nat) (srcs : list (list nat)) (nt : network) (L : nat).
  Hypothesis MK : make_network outcomes srcs = Some nt.
  Notation c := (inflate nt L).
  Notation size := (size nt L).
  Notation label := (label_of c).
  Definition over (w : word) : Prop := forall x, In x w -> x < size.
  Definition same_copy (x y : nat) : Prop := oi_obs (info c x) = oi_obs (info c y) /\ oi_copy (info c x) = oi_copy (info c y).

  Lemma orthogonal_spec x y : orthogonal c x y = true <-> same_copy x y /\ x <> y.
  Proof.
    unfold orthogonal, same_copy. destruct (Nat.eqb_spec (oi_obs (info c x)) (oi_obs (info c y))); cbn; [|split; [discriminate|tauto]].
    destruct (Nat.eqb_spec (oi_copy (info c x)) (oi_copy (info c y))); cbn; [|split; [discriminate|tauto]].
    destruct (Nat.eqb_spec x y); cbn; split; try discriminate; tauto.
  Qed.
  Lemma same_between x y z : x < size -> y < size -> x <= z -> z <= y -> same_copy x y -> same_copy x z.
  Proof.
    intros X Y A B. assert (Z : z < size) by lia.
    destruct (spot_find outcomes srcs nt L MK x X) as [o [v [a [Vx ->]]]].
    destruct (spot_find outcomes srcs nt L MK y Y) as [o' [v' [a' [Vy ->]]]].
    destruct (spot_find outcomes srcs nt L MK z Z) as [p [u [b [Vz ->]]]].
    unfold same_copy. rewrite !(info_spot outcomes srcs nt L MK) by assumption. cbn. intros [-> ->].
    apply Nat.le_ngt in A, B. rewrite (spot_order outcomes srcs nt L MK) in A, B by assumption. lia.
  Qed.
  Lemma measured_same x y : x < size -> y < size -> oi_obs (info c x) = oi_obs (info c y) -> oi_proj (info c x) = oi_proj (info c y).
  Proof.
    intros X Y. destruct (spot_find outcomes srcs nt L MK x X) as [o [v [a [Vx ->]]]].
    destruct (spot_find outcomes srcs nt L MK y Y) as [o' [v' [a' [Vy ->]]]].
    rewrite !(info_spot outcomes srcs nt L MK) by assumption. cbn. now intros ->.
  Qed.
  Lemma unmeasured_single x y : x < size -> y < size -> same_copy x y -> oi_proj (info c x) = false -> x = y.
  Proof.
    intros X Y. destruct (spot_find outcomes srcs nt L MK x X) as [o [v [a [Vx ->]]]].
    destruct (spot_find outcomes srcs nt L MK y Y) as [o' [v' [a' [Vy ->]]]].
    unfold same_copy. rewrite !(info_spot outcomes srcs nt L MK) by assumption. cbn. intros [<- <-] P.
    assert (operators (ob nt o) = 1) as E by (unfold operators; now rewrite P).
    destruct Vx as [_ [_ Kx]]. destruct Vy as [_ [_ Ky]]. rewrite E in Kx, Ky. f_equal. lia.
  Qed.

  (** no two operators of the same copy are different *)
  Definition coherent (w : word) : Prop := forall x y, In x w -> In y w -> same_copy x y -> x = y.
  Lemma coherent_sorted w : over w -> sorted w -> (any_orthogonal c w = false <-> coherent w).
  Proof.
    induction w as [|x w IH]; intros Ov Sw.
    - split; [intros _ ? ? []|reflexivity].
    - inversion Sw as [|? ? Sw' F]; subst. rewrite Forall_forall in F.
      assert (Ov' : over w) by (intros z Z; apply Ov; now right). specialize (IH Ov' Sw').
      destruct w as [|y w].
      + split; [|reflexivity]. intros _ u v [<-|[]] [<-|[]] _. reflexivity.
      + change (any_orthogonal c (x :: y :: w)) with (orthogonal c x y || any_orthogonal c (y :: w)). rewrite orb_false_iff, IH. split.
        * intros [A B].
          assert (H : forall z, In z (y :: w) -> same_copy x z -> x = z).
          { intros z Z Sm. assert (Sxy : same_copy x y).
            { apply (same_between x z y); [apply Ov; now left|now apply Ov'|apply F; now left| |assumption].
              destruct Z as [<-|Z]; [lia|]. inversion Sw' as [|? ? _ F']; subst. rewrite Forall_forall in F'. auto. }
            assert (x = y) as ->.
            { destruct (Nat.eq_dec x y) as [E|N]; [assumption|]. assert (orthogonal c x y = true) by (apply orthogonal_spec; auto). congruence. }
            apply B; [now left|assumption|assumption]. }
          intros u v [<-|U] [<-|V] Sm; [reflexivity|now apply H| |now apply B].
          symmetry. apply H; [assumption|]. destruct Sm. split; congruence.
        * intros Co. split.
          -- destruct (orthogonal c x y) eqn:E; [|reflexivity]. apply orthogonal_spec in E. destruct E as [E N].
             exfalso. apply N. apply Co; [now left|right; now left|assumption].
          -- intros u v U V. apply Co; now right.
  Qed.
  (** unique keeps one of each projector and all of the others *)
  Lemma unique_from_in w : forall last x, In x (unique_from c last w) -> In x w.
  Proof.
    induction w as [|y w IH]; intros last x; [intros []|]. cbn [unique_from].
    destruct (Nat.eqb last y && oi_proj (info c last)); intros H; [right; eauto|]. destruct H as [<-|H]; [now left|right; eauto].
  Qed.
  Lemma unique_in w x : In x (unique c w) -> In x w.
  Proof. destruct w as [|y w]; [intros []|]. cbn [unique]. intros [<-|H]; [now left|right]. now apply unique_from_in in H. Qed.
  Lemma unique_from_kept w : forall last x, In x w -> x = last \/ In x (unique_from c last w).
  Proof.
    induction w as [|y w IH]; intros last x; [intros []|]. cbn [unique_from].
    destruct (Nat.eqb_spec last y) as [->|N]; cbn [andb].
    - destruct (oi_proj (info c y)).
      + intros [<-|H]; [now left|apply IH, H].
      + intros [<-|H]; [now left|]. right. destruct (IH y x H) as [->|K]; [now left|now right].
    - intros [<-|H]; [right; now left|]. destruct (IH y x H) as [->|K]; [right; now left|right; now right].
  Qed.
  Lemma unique_kept w x : In x w -> In x (unique c w).
  Proof. destruct w as [|y w]; [intros []|]. cbn [unique]. intros [<-|H]; [now left|]. destruct (unique_from_kept w y x H) as [->|K]; [now left|now right]. Qed.
  Lemma unique_from_sorted w : forall last, sorted (last :: w) -> sorted (last :: unique_from c last w).
  Proof.
    induction w as [|y w IH]; intros last Sl; [assumption|]. cbn [unique_from].
    inversion Sl as [|? ? S1 F]; subst. inversion S1 as [|? ? S2 F2]; subst.
    destruct (Nat.eqb last y && oi_proj (info c last)).
    - apply IH. constructor; [assumption|]. now inversion F.
    - specialize (IH y S1). constructor; [assumption|]. rewrite Forall_forall in *. intros z [<-|Z]; [apply F; now left|].
      apply F. right. now apply unique_from_in in Z.
  Qed.
  Lemma unique_sorted w : sorted w -> sorted (unique c w).
  Proof. destruct w as [|x w]; [constructor|]. intros H. now apply unique_from_sorted. Qed.
  Lemma adjacent_coherent w : over w -> sorted w ->
    (adjacent_ok c w = true <-> any_orthogonal c w = false /\ unique c w = w).
  Proof.
    assert (G : forall w, unique c w = w <-> match w with x :: (y :: _) as w' => negb (oi_proj (info c x) && Nat.eqb x y) = true /\ unique c w' = w' | _ => True end).
    { intros [|x [|y u]]; [now cbn..|]. cbn [unique unique_from].
      destruct (Nat.eqb_spec x y) as [->|N]; cbn [andb].
      - destruct (oi_proj (info c y)) eqn:P; cbn.
        + split; [|intros [H _]; discriminate]. intros H. exfalso.
          assert (Hl : forall w last, length (unique_from c last w) <= length w).
          { clear. induction w as [|z w IH]; intros last; [cbn; lia|]. cbn [unique_from]. destruct (Nat.eqb last z && oi_proj (info c last)); cbn [length]; [specialize (IH last)|specialize (IH z)]; lia. }
          specialize (Hl u y). injection H as H. rewrite H in Hl. cbn in Hl. lia.
        + split; [intros H; injection H as H; now rewrite H|intros [_ H]; injection H as H; now rewrite H].
      - rewrite andb_false_r. cbn. split; [intros H; injection H as H; now rewrite H|intros [_ H]; injection H as H; now rewrite H]. }
    induction w as [|x w IH]; intros Ov Sw; [cbn; tauto|].
    destruct w as [|y w]; [cbn; tauto|]. rewrite (G (x :: y :: w)).
    change (adjacent_ok c (x :: y :: w)) with (negb (orthogonal c x y) && negb (oi_proj (info c x) && Nat.eqb x y) && adjacent_ok c (y :: w)).
    change (any_orthogonal c (x :: y :: w)) with (orthogonal c x y || any_orthogonal c (y :: w)).
    inversion Sw; subst. rewrite !andb_true_iff, IH by (assumption || (intros z Z; apply Ov; now right)). rewrite orb_false_iff, negb_true_iff. tauto.
  Qed.
  Lemma no_orthogonal_spec w : no_orthogonal c w = negb (any_orthogonal c w).
  Proof.
    induction w as [|x w IH]; [reflexivity|]. destruct w as [|y w]; [reflexivity|].
    change (no_orthogonal c (x :: y :: w)) with (negb (orthogonal c x y) && no_orthogonal c (y :: w)).
    change (any_orthogonal c (x :: y :: w)) with (orthogonal c x y || any_orthogonal c (y :: w)). now rewrite IH, negb_orb.
  Qed.

  (** canonical words *)
  Definition normal (w : word) : Prop := over w /\ sorted w /\ coherent w /\ unique c w = w.
  Lemma sort_over w : over w -> over (sort_word w).
  Proof. intros H x X. apply H. now apply (Permutation_in _ (sort_perm w)). Qed.
  Lemma unique_idem_from w : forall last, unique_from c last (unique_from c last w) = unique_from c last w.
  Proof.
    induction w as [|y w IH]; intros last; [reflexivity|]. cbn [unique_from].
    destruct (Nat.eqb last y && oi_proj (info c last)) eqn:E; [apply IH|]. cbn [unique_from]. rewrite E. now rewrite IH.
  Qed.
  Lemma unique_idem w : unique c (unique c w) = unique c w.
  Proof. destruct w as [|x w]; [reflexivity|]. cbn [unique]. now rewrite unique_idem_from. Qed.
  Lemma simplify_normal w w' : over w -> simplify c w = Some w' -> normal w'.
  Proof.
    unfold simplify. intros Ov. destruct (any_orthogonal c (sort_word w)) eqn:E; [discriminate|]. intros H. injection H as <-.
    apply coherent_sorted in E; [|now apply sort_over|apply sort_sorted].
    split; [|split; [|split]].
    - intros x X. apply unique_in in X. now apply (sort_over w Ov).
    - apply unique_sorted, sort_sorted.
    - intros x y X Y. apply E; now apply unique_in.
    - apply unique_idem.
  Qed.
  Lemma normal_simplify w : normal w -> simplify c w = Some w.
  Proof.
    intros [Ov [Sw [Co U]]]. unfold simplify. rewrite (sort_id w Sw).
    assert (any_orthogonal c w = false) as -> by (now apply coherent_sorted). now rewrite U.
  Qed.
  Lemma normal_canonical w : over w -> (if_canonical c w = Some w <-> normal w) /\ (if_canonical c w = None \/ if_canonical c w = Some w).
  Proof.
    intros Ov. unfold if_canonical. split.
    - destruct (is_sorted w) eqn:E.
      + apply is_sorted_spec in E. destruct (adjacent_ok c w) eqn:F.
        * apply adjacent_coherent in F; [|assumption..]. destruct F as [F1 F2]. apply coherent_sorted in F1; [|assumption..].
          split; [intros _; now repeat split|reflexivity].
        * split; [discriminate|]. intros [_ [_ [Co U]]]. exfalso.
          assert (adjacent_ok c w = true) by (apply adjacent_coherent; [assumption..|]; split; [now apply coherent_sorted|assumption]). congruence.
      + split; [discriminate|]. intros [_ [H _]]. apply is_sorted_spec in H. congruence.
    - destruct (is_sorted w); [|now left]. destruct (adjacent_ok c w); [now right|now left].
  Qed.

  (** * Values *)
  Variable R : rfield.
  Add Field RfI : (r_field R).
  Variable M : explanation R.
  Notation value := (op_value outcomes srcs R M).
  Notation wvalue := (word_value outcomes srcs R M).
  Lemma word_value_perm lam u v : Permutation u v -> wvalue lam u = wvalue lam v.
  Proof.
    induction 1; cbn [word_value fold_right]; [reflexivity|now f_equal| |congruence].
    unfold word_value in *. cbn [fold_right]. ring.
  Qed.
  Lemma word_value_app lam u v : wvalue lam (u ++ v) = rmul R (wvalue lam u) (wvalue lam v).
  Proof. unfold word_value. induction u as [|x u IH]; cbn [app fold_right]; [ring|]. rewrite IH. ring. Qed.
  Lemma value_idem lam x : x < size -> oi_proj (info c x) = true -> rmul R (value lam (label x)) (value lam (label x)) = value lam (label x).
  Proof.
    intros X P. apply (info_proj outcomes srcs nt L MK) in P; [|assumption]. unfold measured in P. unfold op_value.
    destruct (Nat.eqb_spec (nth (lb_obs (label x)) outcomes 0) 0); [contradiction|].
    destruct (Nat.eqb _ _); ring.
  Qed.
  Lemma label_parts x y : x < size -> y < size -> same_copy x y -> lb_obs (label x) = lb_obs (label y) /\ lb_copies (label x) = lb_copies (label y).
  Proof.
    intros X Y. destruct (spot_find outcomes srcs nt L MK x X) as [o [v [a [Vx ->]]]].
    destruct (spot_find outcomes srcs nt L MK y Y) as [o' [v' [a' [Vy ->]]]].
    unfold same_copy. rewrite !(info_spot outcomes srcs nt L MK) by assumption. cbn [oi_obs oi_copy]. intros [<- <-].
    rewrite !(label_spot outcomes srcs nt L MK) by assumption. now cbn.
  Qed.
  Lemma parts_label x y : x < size -> y < size -> lb_obs (label x) = lb_obs (label y) -> lb_copies (label x) = lb_copies (label y) -> same_copy x y.
  Proof.
    intros X Y. destruct (spot_find outcomes srcs nt L MK x X) as [o [v [a [Vx ->]]]].
    destruct (spot_find outcomes srcs nt L MK y Y) as [o' [v' [a' [Vy ->]]]].
    unfold same_copy. rewrite !(info_spot outcomes srcs nt L MK) by assumption.
    pose proof (number_spot outcomes srcs nt L MK _ _ _ Vx) as N1. pose proof (number_spot outcomes srcs nt L MK _ _ _ Vy) as N2.
    rewrite !(label_spot outcomes srcs nt L MK) by assumption. cbn [lb_obs lb_copies oi_obs oi_copy].
    intros <- E. split; [reflexivity|].
    unfold number in *. cbn [lb_obs lb_copies lb_outcome] in *. rewrite E in N1. unfold spot in N1, N2.
    destruct Vx as [I [Vx Kx]]. destruct Vy as [_ [Vy Ky]]. nia.
  Qed.
  Lemma value_orthogonal lam x y : x < size -> y < size -> same_copy x y -> x <> y -> rmul R (value lam (label x)) (value lam (label y)) = r0 R.
  Proof.
    intros X Y Sm N. destruct (label_parts x y X Y Sm) as [E1 E2].
    assert (P : oi_proj (info c x) = true).
    { destruct (oi_proj (info c x)) eqn:P; [reflexivity|]. exfalso. apply N. now apply unmeasured_single. }
    apply (info_proj outcomes srcs nt L MK) in P; [|assumption]. unfold measured in P.
    assert (Cs : causes srcs (label x) = causes srcs (label y)) by (unfold causes; now rewrite E1, E2).
    unfold op_value. rewrite <- E1, <- Cs. destruct (Nat.eqb_spec (nth (lb_obs (label x)) outcomes 0) 0); [contradiction|].
    destruct (Nat.eqb_spec (ex_outcome R M (lb_obs (label x)) (map lam (causes srcs (label x)))) (lb_outcome (label x))) as [A|A];
    destruct (Nat.eqb_spec (ex_outcome R M (lb_obs (label x)) (map lam (causes srcs (label x)))) (lb_outcome (label y))) as [B|B]; try ring.
    exfalso. apply N. apply (label_inj outcomes srcs nt L MK); [assumption..|].
    destruct (label x), (label y); cbn in *. congruence.
  Qed.
  Lemma unique_from_value lam w : forall last, over (last :: w) ->
    rmul R (value lam (label last)) (wvalue lam (map label (unique_from c last w))) = rmul R (value lam (label last)) (wvalue lam (map label w)).
  Proof.
    induction w as [|y w IH]; intros last Ov; [reflexivity|]. cbn [unique_from].
    destruct (Nat.eqb_spec last y) as [->|N]; cbn [andb].
    - destruct (oi_proj (info c y)) eqn:P.
      + rewrite IH by (intros z Z; apply Ov; now right). cbn [map]. unfold word_value at 2. cbn [fold_right]. fold (wvalue lam (map label w)).
        transitivity (rmul R (rmul R (value lam (label y)) (value lam (label y))) (wvalue lam (map label w))); [|ring].
        rewrite value_idem by (assumption || (apply Ov; now left)). reflexivity.
      + cbn [map]. unfold word_value. cbn [fold_right]. fold (wvalue lam (map label w)) (wvalue lam (map label (unique_from c y w))).
        rewrite IH by (intros z Z; apply Ov; now right). reflexivity.
    - cbn [map]. unfold word_value. cbn [fold_right]. fold (wvalue lam (map label w)) (wvalue lam (map label (unique_from c y w))).
      rewrite IH by (intros z Z; apply Ov; now right). reflexivity.
  Qed.
  Lemma unique_value lam w : over w -> wvalue lam (map label (unique c w)) = wvalue lam (map label w).
  Proof. destruct w as [|x w]; [reflexivity|]. cbn [unique map]. intros Ov. unfold word_value. cbn [fold_right]. now apply unique_from_value. Qed.
  Lemma zero_value lam w x y : over w -> In x w -> In y w -> same_copy x y -> x <> y -> wvalue lam (map label w) = r0 R.
  Proof.
    intros Ov X Y Sm N. apply in_split in X. destruct X as [a [b ->]].
    assert (Y' : In y (a ++ b)).
    { apply in_app_or in Y. apply in_or_app. destruct Y as [Y|[Y|Y]]; [now left|contradiction|now right]. }
    apply in_split in Y'. destruct Y' as [p [q E]].
    assert (P : Permutation (a ++ x :: b) (x :: y :: (p ++ q))).
    { rewrite <- Permutation_middle, E. constructor. symmetry. apply Permutation_middle. }
    rewrite (word_value_perm lam _ _ (Permutation_map label P)). cbn [map]. unfold word_value. cbn [fold_right].
    fold (wvalue lam (map label (p ++ q))).
    transitivity (rmul R (rmul R (value lam (label x)) (value lam (label y))) (wvalue lam (map label (p ++ q)))); [ring|].
    rewrite value_orthogonal; [ring| | |assumption|assumption]; apply Ov; [apply in_or_app; right; now left|].
    apply (Permutation_in _ (Permutation_sym P)). right. now left.
  Qed.
  Lemma simplify_value lam w : over w ->
    match simplify c w with
    | None => wvalue lam (map label w) = r0 R
    | Some w' => wvalue lam (map label w') = wvalue lam (map label w)
    end.
  Proof.
    intros Ov. unfold simplify. destruct (any_orthogonal c (sort_word w)) eqn:E.
    - assert (H : exists x y, In x (sort_word w) /\ In y (sort_word w) /\ same_copy x y /\ x <> y).
      { clear Ov. induction (sort_word w) as [|x l IH]; [discriminate|]. destruct l as [|y l]; [discriminate|].
        change (any_orthogonal c (x :: y :: l)) with (orthogonal c x y || any_orthogonal c (y :: l)) in E.
        apply orb_true_iff in E. destruct E as [E|E].
        - apply orthogonal_spec in E. exists x, y. split; [now left|]. split; [right; now left|exact E].
        - destruct (IH E) as [u [v [A [B Cc]]]]. exists u, v. split; [now right|]. split; [now right|exact Cc]. }
      destruct H as [x [y [X [Y [Sm N]]]]]. rewrite <- (word_value_perm lam _ _ (Permutation_map label (sort_perm w))).
      apply (zero_value lam _ x y); [now apply sort_over|assumption..].
    - rewrite unique_value by now apply sort_over. apply word_value_perm, Permutation_map, sort_perm.
  Qed.
End Simp.
