(** Canonical moments. *)
From Coq Require Import List NArith ZArith Arith Bool Lia Permutation Sorted FinFun.
From Verif Require Import CoreModel AlgModel FieldModel InfModel InfSpec InfProofs InfLayoutProofs InfSimpProofs InfCompleteProofs InfFactorProofs InfSeenProofs.
Import ListNotations.

(** * Lexicographic order *)
Lemma lex_less_num N : forall a b, (forall x, In x a -> x < N) -> (forall x, In x b -> x < N) -> length a = length b ->
  lex_less a b -> flat N (rev a) < flat N (rev b).
Proof.
  intros a b A B E H. apply flat_order; [now rewrite !rev_length|intros i I; apply A; now apply in_rev|intros i I; apply B; now apply in_rev|now rewrite !rev_involutive].
Qed.
Lemma sorted_least : forall s u, sorted s -> Permutation s u -> s = u \/ lex_less s u.
Proof.
  induction s as [|a s IH]; intros u Ss P.
  - apply Permutation_nil in P. now left.
  - destruct u as [|b u]; [apply Permutation_sym, Permutation_nil in P; discriminate|].
    inversion Ss as [|? ? S1 F]; subst. rewrite Forall_forall in F.
    assert (a <= b). { pose proof (Permutation_in b (Permutation_sym P) (or_introl eq_refl)) as [->|I]; [lia|auto]. }
    destruct (Nat.eq_dec a b) as [->|N].
    + apply Permutation_cons_inv in P. destruct (IH u S1 P) as [->|Hl]; [now left|right; cbn; right; auto].
    + right. cbn. left. lia.
Qed.
Lemma lex_trans : forall a b d, lex_less a b -> lex_less b d -> lex_less a d.
Proof.
  induction a as [|x a IH]; intros [|y b] [|z d]; cbn; try tauto.
  intros [H|[-> H]] [K|[-> K]]; [left; lia|now left|now left|right; split; [reflexivity|eauto]].
Qed.
Lemma lex_irreflexive a : ~ lex_less a a.
Proof. induction a as [|x a IH]; cbn; [tauto|]. intros [H|[_ H]]; [lia|auto]. Qed.

Section Moment.
  Variables (outcomes : list nat) (srcs : list (list nat)) (nt : network) (L : nat).
  Hypothesis MK : make_network outcomes srcs = Some nt.
  Notation c := (inflate nt L).
  Notation size := (size nt L).
  Notation lab := (label_of c).
  Notation over := (over nt L).
  Notation normal := (normal nt L).
  Notation num := (number nt L).
  Notation n := (length srcs).
  Notation total := (total_sources nt L).

  Definition visits (x : nat) : list (nat * nat) := match sources srcs (lb_obs (lab x)) with [] => [] | _ => rev (causes srcs (lab x)) end.
  Definition trail (w : word) : list (nat * nat) := flat_map visits w.
  Lemma visits_label x : x < size ->
    (if ob_single (io_obs (obs_of c x)) then [] else rev (List.combine (ob_sources (io_obs (obs_of c x))) (cp_indices (copy_of c x)))) = visits x.
  Proof.
    intros X. destruct (spot_find outcomes srcs nt L MK x X) as [o [v [a [Vd ->]]]]. unfold visits.
    rewrite (obs_spot outcomes srcs nt L MK _ _ _ Vd). cbn [io_obs]. rewrite (label_spot outcomes srcs nt L MK _ _ _ Vd). cbn [lb_obs].
    rewrite (obs_single outcomes srcs nt MK o (proj1 Vd)).
    destruct (sources srcs o) as [|s ss] eqn:SS; [reflexivity|].
    assert (S1 : ob_single (ob nt o) = false) by (now rewrite (obs_single outcomes srcs nt MK o (proj1 Vd)), SS).
    rewrite (indices_spot outcomes srcs nt L MK _ _ _ Vd S1), (obs_sources outcomes srcs nt MK o (proj1 Vd) S1).
    unfold causes. cbn [lb_obs lb_copies]. rewrite SS. reflexivity.
  Qed.
  Lemma perm_op_visits st x : x < size -> perm_op c st x = fold_left (fun st x => perm_source c st (fst x) (snd x)) (visits x) st.
  Proof. intros X. rewrite <- (visits_label x X). unfold perm_op. now destruct (ob_single (io_obs (obs_of c x))). Qed.
  Lemma perm_word w : over w -> forall st, fold_left (perm_op c) w st = fold_left (fun st x => perm_source c st (fst x) (snd x)) (trail w) st.
  Proof.
    induction w as [|x w IH]; intros Ov st; [reflexivity|]. cbn [fold_left trail flat_map]. rewrite fold_left_app.
    rewrite perm_op_visits by (apply Ov; now left). apply IH. intros z Z. apply Ov. now right.
  Qed.
  Lemma shifts_source_app a b : forall st, shifts_source c st (a ++ b) = match shifts_source c st a with None => None | Some st' => shifts_source c st' b end.
  Proof.
    induction a as [|[s i] a IH]; intros st; [reflexivity|]. cbn [app shifts_source]. destruct (existsb _ _); [apply IH|].
    destruct (negb _); [reflexivity|apply IH].
  Qed.
  Lemma shifts_word w : over w -> forall st, shifts c st w = match shifts_source c st (trail w) with None => true | Some _ => false end.
  Proof.
    induction w as [|x w IH]; intros Ov st; [reflexivity|]. cbn [shifts trail flat_map]. rewrite shifts_source_app.
    assert (Ov' : over w) by (intros z Z; apply Ov; now right).
    rewrite <- (visits_label x) by (apply Ov; now left). destruct (ob_single (io_obs (obs_of c x))).
    - cbn [shifts_source]. now apply IH.
    - destruct (shifts_source c st _) as [st'|]; [now apply IH|reflexivity].
  Qed.
  Lemma causes_sourced l s i : exists_label outcomes srcs L l -> sources srcs (lb_obs l) <> [] -> In (s, i) (causes srcs l) -> s < n /\ i < L.
  Proof.
    intros [I [E [B _]]] NE H. rewrite causes_combine in H by assumption. split.
    - apply in_combine_l in H. now apply sources_bound in H.
    - apply in_combine_r in H. auto.
  Qed.
  Lemma visits_in x h : In h (visits x) <-> sources srcs (lb_obs (lab x)) <> [] /\ In h (causes srcs (lab x)).
  Proof. unfold visits. destruct (sources srcs (lb_obs (lab x))) as [|s ss]; [split; [intros []|intros [[] _]; reflexivity]|]. rewrite <- in_rev. split; [split; [discriminate|assumption]|tauto]. Qed.
  Lemma trail_tame w : over w -> tame L n (trail w).
  Proof.
    intros Ov s i H. apply in_flat_map in H. destruct H as [x [X H]]. apply visits_in in H. destruct H as [NE H].
    apply (causes_sourced (lab x)); [apply (label_exists outcomes srcs nt L MK), Ov, X|assumption..].
  Qed.
  Lemma total_enough : n * L <= total.
  Proof. unfold total_sources. rewrite (net_explicit _ _ _ MK). lia. Qed.
  Lemma tracked w scratch : over w -> length scratch = total ->
    tracks L n (trail w) (fold_left (perm_op c) w (mk_pstate (repeat 0 (nt_explicit (ic_net c))) [] scratch false)) total.
  Proof.
    intros Ov Ls. rewrite perm_word by assumption. rewrite (net_of nt L), (net_explicit _ _ _ MK).
    apply (track_all L n c (level_of nt L)); [apply total_enough|now apply trail_tame|assumption].
  Qed.

  (** ** The relabelling of a word *)
  Definition sig (w : word) : nat -> nat -> nat := naming L (trail w).
  Lemma sig_permutes w : over w -> forall s, permutes L (sig w s).
  Proof. intros Ov s. apply naming_permutes. intros i H. now apply (trail_tame w Ov s i). Qed.
  Definition move (sigma : nat -> nat -> nat) (x : nat) : nat := num (relabel srcs sigma (lab x)).
  Definition lawful (sigma : nat -> nat -> nat) : Prop := forall s, s < n -> permutes L (sigma s).

  Lemma relabel_exists sigma l : lawful sigma -> exists_label outcomes srcs L l -> exists_label outcomes srcs L (relabel srcs sigma l).
  Proof.
    intros Lw [I [E [B K]]]. unfold exists_label, relabel. cbn [lb_obs lb_copies lb_outcome]. split; [assumption|]. split; [|split; [|assumption]].
    - rewrite map_length, combine_length. lia.
    - intros i H. apply in_map_iff in H. destruct H as [[s j] [<- H]]. cbn [fst snd].
      apply Lw; [apply in_combine_l in H; now apply sources_bound in H|apply in_combine_r in H; auto].
  Qed.
  Lemma move_label sigma x : lawful sigma -> x < size -> move sigma x < size /\ lab (move sigma x) = relabel srcs sigma (lab x).
  Proof. intros Lw X. apply (label_number outcomes srcs nt L MK), relabel_exists; [assumption|]. now apply (label_exists outcomes srcs nt L MK). Qed.
  Lemma copies_inj sigma : lawful sigma -> forall ss a b, (forall s, In s ss -> s < n) -> length a = length ss -> length b = length ss ->
    (forall i, In i a -> i < L) -> (forall i, In i b -> i < L) ->
    map (fun x => sigma (fst x) (snd x)) (List.combine ss a) = map (fun x => sigma (fst x) (snd x)) (List.combine ss b) -> a = b.
  Proof.
    intros Lw. induction ss as [|s ss IH]; intros a b Bs La Lb Ba Bb E; [destruct a, b; try discriminate; reflexivity|].
    destruct a as [|i a], b as [|j b]; try discriminate. cbn [List.combine map fst snd] in E. injection E as E1 E2. f_equal.
    - apply (Lw s (Bs s (or_introl eq_refl))); [apply Ba; now left|apply Bb; now left|assumption].
    - apply IH; [intros; apply Bs; now right|cbn in La; lia|cbn in Lb; lia|intros; apply Ba; now right|intros; apply Bb; now right|assumption].
  Qed.
  Lemma relabel_inj sigma l m : lawful sigma -> exists_label outcomes srcs L l -> exists_label outcomes srcs L m ->
    relabel srcs sigma l = relabel srcs sigma m -> l = m.
  Proof.
    intros Lw [_ [A1 [A2 _]]] [_ [B1 [B2 _]]] E. unfold relabel in E. injection E as E1 E2 E3. rewrite <- E1 in *.
    apply (copies_inj sigma Lw) in E2; [|intros; eapply sources_bound; eauto|assumption..]. destruct l, m; cbn in *; congruence.
  Qed.
  Lemma move_inj sigma x y : lawful sigma -> x < size -> y < size -> move sigma x = move sigma y -> x = y.
  Proof.
    intros Lw X Y E. apply (label_inj outcomes srcs nt L MK); [assumption..|].
    apply (relabel_inj sigma); [assumption|now apply (label_exists outcomes srcs nt L MK)..|].
    rewrite <- (proj2 (move_label sigma x Lw X)), <- (proj2 (move_label sigma y Lw Y)). now rewrite E.
  Qed.
  Lemma move_same sigma x y : lawful sigma -> x < size -> y < size -> same_copy nt L (move sigma x) (move sigma y) -> same_copy nt L x y.
  Proof.
    intros Lw X Y Sm. destruct (move_label sigma x Lw X) as [Mx Lx]. destruct (move_label sigma y Lw Y) as [My Ly].
    destruct (label_parts outcomes srcs nt L MK _ _ Mx My Sm) as [E1 E2]. rewrite Lx, Ly in E1, E2. unfold relabel in E1, E2. cbn [lb_obs lb_copies] in E1, E2.
    apply (parts_label outcomes srcs nt L MK); [assumption..|].
    pose proof (label_exists outcomes srcs nt L MK x X) as [_ [A1 [A2 _]]]. pose proof (label_exists outcomes srcs nt L MK y Y) as [_ [B1 [B2 _]]].
    rewrite <- E1 in *. apply (copies_inj sigma Lw) in E2; [assumption|intros; eapply sources_bound; eauto|assumption..].
  Qed.
  Lemma move_proj sigma x : lawful sigma -> x < size -> oi_proj (info c (move sigma x)) = oi_proj (info c x).
  Proof.
    intros Lw X. destruct (move_label sigma x Lw X) as [Mx Lx].
    apply (measured_same outcomes srcs nt L MK); [assumption..|]. change (lb_obs (lab (move sigma x)) = lb_obs (lab x)). now rewrite Lx.
  Qed.
  Lemma move_tidy sigma w : lawful sigma -> tidy nt L w -> tidy nt L (map (move sigma) w).
  Proof.
    intros Lw [Ov [Co Ct]]. split; [|split].
    - intros x H. apply in_map_iff in H. destruct H as [y [<- Y]]. apply move_label; auto.
    - intros x y Hx Hy Sm. apply in_map_iff in Hx, Hy. destruct Hx as [a [<- A]], Hy as [b [<- B]]. f_equal. apply Co; [assumption..|].
      apply (move_same sigma); auto.
    - intros x P. destruct (in_dec Nat.eq_dec x (map (move sigma) w)) as [I|I]; [|apply (count_occ_not_In Nat.eq_dec) in I; lia].
      apply in_map_iff in I. destruct I as [y [<- Y]]. rewrite move_proj in P by auto. specialize (Ct y P).
      assert (G : forall v, over v -> count_occ Nat.eq_dec (map (move sigma) v) (move sigma y) = count_occ Nat.eq_dec v y).
      { assert (Y' : y < size) by auto. clear Ov Co Ct Y. induction v as [|z v IH]; intros Ov; [reflexivity|]. cbn [map count_occ].
        rewrite IH by (intros q Q; apply Ov; now right).
        destruct (Nat.eq_dec (move sigma z) (move sigma y)) as [E|E], (Nat.eq_dec z y) as [F|F]; try reflexivity; try congruence.
        exfalso. apply F, (move_inj sigma); [assumption|apply Ov; now left|assumption..]. }
      rewrite G; assumption.
  Qed.
  Lemma move_visits sigma x : lawful sigma -> x < size -> visits (move sigma x) = map (fun h => (fst h, sigma (fst h) (snd h))) (visits x).
  Proof.
    intros Lw X. destruct (move_label sigma x Lw X) as [_ Lx]. unfold visits. rewrite Lx. cbn [relabel lb_obs].
    destruct (sources srcs (lb_obs (lab x))) as [|s0 ss0] eqn:SS; [reflexivity|].
    rewrite map_rev. f_equal. unfold causes, relabel. cbn [lb_obs lb_copies]. rewrite SS.
    pose proof (label_exists outcomes srcs nt L MK x X) as [_ [A1 _]]. rewrite SS in A1. generalize (lb_copies (lab x)) (s0 :: ss0) A1. clear.
    intros cs. induction cs as [|i cs IH]; intros ss E; destruct ss as [|s ss]; try discriminate; [reflexivity|].
    cbn [List.combine map fst snd]. f_equal. apply IH. cbn in E. lia.
  Qed.
  Lemma move_trail sigma w : lawful sigma -> over w -> trail (map (move sigma) w) = map (fun h => (fst h, sigma (fst h) (snd h))) (trail w).
  Proof.
    intros Lw. induction w as [|x w IH]; intros Ov; [reflexivity|]. cbn [map trail flat_map]. rewrite map_app.
    rewrite move_visits by (assumption || (apply Ov; now left)). f_equal. apply IH. intros z Z. apply Ov. now right.
  Qed.
  Lemma move_fixed sigma x : x < size -> (forall s i, In (s, i) (visits x) -> sigma s i = i) -> move sigma x = x.
  Proof.
    intros X F. unfold move. rewrite <- (number_label outcomes srcs nt L MK x X) at 2. f_equal.
    pose proof (label_exists outcomes srcs nt L MK x X) as [_ [A1 _]]. unfold relabel.
    destruct (lab x) as [o cs a] eqn:E. cbn [lb_obs lb_copies lb_outcome] in *. f_equal.
    assert (F' : forall s i, In (s, i) (List.combine (sources srcs o) cs) -> sigma s i = i).
    { intros s i H. apply F, visits_in. rewrite E. cbn [lb_obs]. assert (NE : sources srcs o <> []) by (intros Z; rewrite Z in H; destruct H).
      split; [assumption|]. rewrite causes_combine by assumption. exact H. }
    revert A1 F'. generalize (sources srcs o). clear. induction cs as [|i cs IH]; intros [|s ss] E F; try discriminate; [reflexivity|].
    cbn. f_equal; [apply F; now left|]. apply IH; [cbn in E; lia|]. intros; apply F; now right.
  Qed.
  Lemma fixed_move sigma x : lawful sigma -> x < size -> move sigma x = x -> forall s i, In (s, i) (visits x) -> sigma s i = i.
  Proof.
    intros Lw X E s i H. pose proof (move_visits sigma x Lw X) as V. rewrite E in V.
    revert V H. generalize (visits x). clear. intros l. induction l as [|[t j] l IH]; intros V H; [destruct H|].
    cbn in V. injection V as V1 V2. destruct H as [H|H]; [injection H as <- <-; now symmetry|now apply IH].
  Qed.

  (** apply_permutation moves every operator *)
  Lemma permuted_move w x scratch : over w -> length scratch = total -> In x w ->
    permuted_op c (snd (find_permutation c scratch w)) x = move (sig w) x.
  Proof.
    intros Ov Ls Ix. pose proof (tracked w scratch Ov Ls) as T. unfold find_permutation. cbn [snd].
    set (st := fold_left (perm_op c) w (mk_pstate (repeat 0 (nt_explicit (ic_net c))) [] scratch false)) in *.
    assert (X : x < size) by auto. pose proof (sig_permutes w Ov) as Sp.
    assert (Lw : lawful (sig w)) by (intros s _; apply Sp).
    assert (Vx : forall s i, In (s, i) (visits x) -> In (s, i) (trail w)) by (intros; apply in_flat_map; eauto).
    destruct (spot_find outcomes srcs nt L MK x X) as [o [v [a [Vd E]]]].
    pose proof (label_exists outcomes srcs nt L MK x X) as EX.
    assert (Ho : obs_of c x = mk_icobs (ob nt o) (off nt L o) (cpo nt L o) (make_copies nt L (off nt L o) (ob nt o))) by (rewrite E; now apply (obs_spot outcomes srcs nt L MK)).
    assert (Hi : info c x = mk_opinfo o v a (projective (ob nt o))) by (rewrite E; now apply (info_spot outcomes srcs nt L MK)).
    unfold permuted_op. rewrite Ho. cbn [io_obs io_copies].
    rewrite (obs_single outcomes srcs nt MK o (proj1 Vd)).
    assert (Lb : lab x = mk_label o (unflatten L (length (sources srcs o)) v) a) by (rewrite E; now apply (label_spot outcomes srcs nt L MK)).
    destruct (sources srcs o) as [|s0 ss0] eqn:SS.
    - symmetry. apply move_fixed; [assumption|]. intros s i H. apply visits_in in H. rewrite Lb in H. cbn [lb_obs] in H. now rewrite SS in H.
    - assert (S1 : ob_single (ob nt o) = false) by (now rewrite (obs_single outcomes srcs nt MK o (proj1 Vd)), SS).
      assert (Hc : cp_indices (copy_of c x) = unflatten L (length (sources srcs o)) v) by (rewrite E; now apply (indices_spot outcomes srcs nt L MK)).
      rewrite Hc, (obs_sources outcomes srcs nt MK o (proj1 Vd) S1), Hi. cbn [oi_outcome].
      rewrite (net_of nt L), (level_of nt L).
      assert (Cs : causes srcs (lab x) = List.combine (sources srcs o) (unflatten L (length (sources srcs o)) v)).
      { rewrite causes_combine; rewrite Lb; cbn [lb_obs lb_copies]; rewrite ?SS; [reflexivity|discriminate]. }
      assert (Pc : permute_copy nt L (sources srcs o) (ps_perm st) (unflatten L (length (sources srcs o)) v)
                   = lb_copies (relabel srcs (sig w) (lab x))).
      { unfold permute_copy, relabel. rewrite Lb. cbn [lb_obs lb_copies]. rewrite <- SS. apply map_ext_in. intros [s i] H. cbn [fst snd].
        assert (Hv : In (s, i) (visits x)). { apply visits_in. rewrite Cs, Lb. cbn [lb_obs]. split; [now rewrite SS|assumption]. }
        destruct (trail_tame w Ov s i (Vx s i Hv)) as [Sn Il].
        assert (global_source nt L s i = L * s + i) as ->.
        { unfold global_source. rewrite (net_explicit _ _ _ MK). destruct (Nat.leb_spec n s); [lia|lia]. }
        destruct T as [_ _ [_ T2] _]. rewrite (T2 s i (Vx s i Hv)). unfold sig. rewrite (naming_seen L (trail w) s i (Vx s i Hv)).
        assert (Ib : index i (seen (trail w) s) < L).
        { rewrite <- (naming_seen L) by auto. apply Sp. assumption. }
        destruct (Nat.eqb_spec (L * s + i) (L * s + index i (seen (trail w) s))) as [Eq|_]; [lia|].
        unfold source_copy. rewrite (net_explicit _ _ _ MK).
        destruct (Nat.ltb_spec (n * L) (L * s + index i (seen (trail w) s))); [nia|]. cbn [snd].
        rewrite Nat.add_comm, Nat.mul_comm, Nat.mod_add by lia. now apply Nat.mod_small. }
      rewrite Pc.
      pose proof (relabel_exists (sig w) (lab x) Lw EX) as RX. pose proof (label_valid outcomes srcs nt L MK _ RX) as Vr.
      assert (Eo : lb_obs (relabel srcs (sig w) (lab x)) = o) by (rewrite Lb; reflexivity).
      assert (Ea : lb_outcome (relabel srcs (sig w) (lab x)) = a) by (rewrite Lb; reflexivity).
      rewrite flatten_is. rewrite (copies_at nt L) by (rewrite <- Eo; apply Vr). cbn [make_copy cp_offset].
      unfold move, number, spot. rewrite Eo, Ea. lia.
  Qed.
  Lemma permuted_word w scratch : over w -> length scratch = total ->
    map (permuted_op c (snd (find_permutation c scratch w))) w = map (move (sig w)) w.
  Proof. intros Ov Ls. apply map_ext_in. intros x X. now apply permuted_move. Qed.
  Definition changed (w : word) : Prop := exists s i, In (s, i) (trail w) /\ index i (seen (trail w) s) <> i.
  Lemma flag_changed w scratch : over w -> length scratch = total -> (fst (find_permutation c scratch w) = true <-> changed w).
  Proof. intros Ov Ls. pose proof (tracked w scratch Ov Ls) as [_ _ _ T]. exact T. Qed.
  Lemma scratch_kept w scratch : over w -> length scratch = total -> length (snd (find_permutation c scratch w)) = total.
  Proof. intros Ov Ls. pose proof (tracked w scratch Ov Ls) as [_ _ [T _] _]. exact T. Qed.
  Lemma changed_dec w : over w -> changed w \/ ~ changed w.
  Proof.
    intros Ov. pose proof (flag_changed w (repeat 0 total) Ov (repeat_length _ _)) as H.
    destruct (fst (find_permutation c (repeat 0 total) w)); [left; now apply H|right; intros K; apply H in K; discriminate].
  Qed.
  Lemma shifts_changed w : over w -> (shifts c (repeat 0 (nt_explicit (ic_net c)), []) w = true <-> changed w).
  Proof.
    intros Ov. rewrite <- (flag_changed w (repeat 0 total) Ov (repeat_length _ _)). unfold find_permutation. cbn [fst].
    rewrite shifts_word, perm_word by assumption.
    pose proof (shifts_flag c (trail w) (repeat 0 (nt_explicit (ic_net c))) [] (repeat 0 total)) as H.
    destruct (shifts_source c (repeat 0 (nt_explicit (ic_net c)), []) (trail w)) as [[f d]|].
    - destruct H as [p ->]. cbn. reflexivity.
    - now rewrite H.
  Qed.
  Lemma unchanged_fixed w : over w -> ~ changed w -> forall x, In x w -> move (sig w) x = x.
  Proof.
    intros Ov N x X. apply move_fixed; [auto|]. intros s i H.
    assert (Ht : In (s, i) (trail w)) by (apply in_flat_map; eauto). unfold sig. rewrite naming_seen by assumption.
    destruct (Nat.eq_dec (index i (seen (trail w) s)) i) as [E|E]; [assumption|]. exfalso. apply N. now exists s, i.
  Qed.

  (** ** A changed word becomes smaller *)
  Lemma first_bad {A} (P : A -> Prop) (dec : forall x, P x \/ ~ P x) : forall l, (exists x, In x l /\ ~ P x) ->
    exists a x b, l = a ++ x :: b /\ (forall y, In y a -> P y) /\ ~ P x.
  Proof.
    induction l as [|y l IH]; intros [x [I N]]; [destruct I|]. destruct (dec y) as [Py|Ny].
    - destruct IH as [a [z [b [-> [F Nz]]]]].
      { exists x. split; [|assumption]. destruct I as [<-|I]; [contradiction|assumption]. }
      exists (y :: a), z, b. split; [reflexivity|]. split; [|assumption]. intros q [<-|Q]; auto.
    - exists [], y, l. split; [reflexivity|]. split; [intros ? []|assumption].
  Qed.
  Lemma lex_first (f : nat -> nat -> nat) : forall a s i b, (forall h, In h a -> f (fst h) (snd h) = snd h) -> f s i < i ->
    lex_less (map (fun h => f (fst h) (snd h)) (a ++ (s, i) :: b)) (map snd (a ++ (s, i) :: b)).
  Proof.
    induction a as [|h a IH]; intros s i b F Lt; cbn; [now left|]. right. split; [apply F; now left|]. apply IH; [|assumption]. intros; apply F; now right.
  Qed.
  Lemma moved_smaller w : over w -> changed w -> lex_less (map (move (sig w)) w) w.
  Proof.
    intros Ov [s [i [Ht Hi]]]. assert (Lw : lawful (sig w)) by (intros t _; now apply sig_permutes).
    assert (Ex : exists x, In x w /\ ~ move (sig w) x = x).
    { apply in_flat_map in Ht as Hx. destruct Hx as [x [X H]]. exists x. split; [assumption|]. intros E.
      pose proof (fixed_move (sig w) x Lw (Ov x X) E s i H) as Z. unfold sig in Z. rewrite naming_seen in Z by assumption. contradiction. }
    destruct (first_bad (fun x => move (sig w) x = x) (fun x => match Nat.eq_dec (move (sig w) x) x with left e => or_introl e | right m => or_intror m end) w Ex)
      as [p [x [q [Ew [Fp Nx]]]]].
    assert (X : x < size) by (apply Ov; rewrite Ew; apply in_or_app; right; now left).
    assert (Lt : move (sig w) x < x).
    { assert (Ev : exists h, In h (visits x) /\ ~ (sig w (fst h) (snd h) = snd h)).
      { destruct (in_dec Nat.eq_dec x (filter (fun y => forallb (fun h => Nat.eqb (sig w (fst h) (snd h)) (snd h)) (visits y)) [x])) as [I|I].
        - exfalso. apply Nx. apply move_fixed; [assumption|]. apply filter_In in I. destruct I as [_ I]. rewrite forallb_forall in I.
          intros t j H. specialize (I (t, j) H). now apply Nat.eqb_eq in I.
        - destruct (forallb (fun h => Nat.eqb (sig w (fst h) (snd h)) (snd h)) (visits x)) eqn:F.
          + exfalso. apply I. apply filter_In. split; [now left|assumption].
          + clear - F. induction (visits x) as [|h l IH]; [discriminate|]. cbn in F. apply andb_false_iff in F. destruct F as [F|F].
            * exists h. split; [now left|]. now apply Nat.eqb_neq in F.
            * destruct (IH F) as [k [K N]]. exists k. split; [now right|assumption]. }
      destruct (first_bad (fun h => sig w (fst h) (snd h) = snd h)
                 (fun h => match Nat.eq_dec (sig w (fst h) (snd h)) (snd h) with left e => or_introl e | right m => or_intror m end) (visits x) Ev)
        as [a [[t j] [b [Evx [Fa Nh]]]]]. cbn [fst snd] in Nh.
      assert (Et : trail w = (trail p ++ a) ++ (t, j) :: (b ++ trail q)).
      { rewrite Ew. unfold trail. rewrite flat_map_app. cbn [flat_map]. rewrite Evx. rewrite <- !app_assoc. reflexivity. }
      assert (Fv : forall h, In h (trail p ++ a) -> sig w (fst h) (snd h) = snd h).
      { intros h H. apply in_app_or in H. destruct H as [H|H]; [|now apply Fa]. apply in_flat_map in H. destruct H as [y [Y H]].
        destruct h as [h1 h2]. apply (fixed_move (sig w) y Lw); [apply Ov; rewrite Ew; apply in_or_app; now left|now apply Fp|assumption]. }
      assert (In1 : forall h, In h (trail p ++ a) -> In h (trail w)) by (intros h H; rewrite Et; apply in_or_app; now left).
      assert (Fs : forall k, In k (seen (trail p ++ a) t) -> index k (seen (trail p ++ a) t) = k).
      { intros k K. pose proof (Fv (t, k) (proj1 (seen_in _ _ _) K)) as Z. cbn [fst snd] in Z. unfold sig in Z.
        rewrite naming_seen in Z by (apply In1; now apply seen_in). rewrite Et in Z. destruct (seen_app (trail p ++ a) ((t, j) :: b ++ trail q) t) as [ext Es].
        rewrite Es in Z. rewrite index_app in Z by assumption. exact Z. }
      pose proof (fixed_seq _ (seen_nodup (trail p ++ a) t) Fs) as Sq.
      assert (Nj : ~ In j (seen (trail p ++ a) t)).
      { intros K. apply Nh. apply (Fv (t, j)). now apply seen_in. }
      assert (Sj : sig w t j = length (seen (trail p ++ a) t)).
      { unfold sig. rewrite naming_seen by (rewrite Et; apply in_or_app; right; now left). rewrite Et. now apply seen_next. }
      assert (Lj : sig w t j < j).
      { rewrite Sj in *. rewrite Sq in Nj. rewrite in_seq in Nj. lia. }
      rewrite <- (number_label outcomes srcs nt L MK x X) at 2. unfold move.
      pose proof (label_exists outcomes srcs nt L MK x X) as EX.
      apply (number_order outcomes srcs nt L MK); [now apply relabel_exists|assumption|].
      right. split; [reflexivity|]. left. unfold relabel. cbn [lb_copies]. rewrite <- map_rev.
      assert (NE : sources srcs (lb_obs (lab x)) <> []).
      { assert (Hv : In (t, j) (visits x)) by (rewrite Evx; apply in_or_app; right; now left). now apply visits_in in Hv. }
      assert (Vr : rev (List.combine (sources srcs (lb_obs (lab x))) (lb_copies (lab x))) = visits x).
      { rewrite <- causes_combine by assumption. unfold visits. now destruct (sources srcs (lb_obs (lab x))). }
      rewrite Vr. assert (rev (lb_copies (lab x)) = map snd (visits x)) as ->.
      { rewrite <- Vr, map_rev. f_equal. destruct EX as [_ [Ec _]]. revert Ec. generalize (lb_copies (lab x)) (sources srcs (lb_obs (lab x))). clear.
        intros cs. induction cs as [|y cs IH]; intros [|z ss] E; try discriminate; [reflexivity|]. cbn. f_equal. apply IH. cbn in E. lia. }
      rewrite Evx. apply lex_first; assumption. }
    rewrite Ew at 2 3. rewrite map_app. cbn [map].
    assert (map (move (sig w)) p = p) as -> by (rewrite <- (map_id p) at 2; apply map_ext_in; exact Fp).
    clear - Lt. induction p as [|y p IH]; cbn; [now left|right; split; [reflexivity|assumption]].
  Qed.
End Moment.
