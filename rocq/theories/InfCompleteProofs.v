(** Words with the same values in all explanations are simplified to the same word. *)
From Coq Require Import List NArith ZArith Arith Bool Lia Permutation Sorted Qcanon.
From Verif Require Import CoreModel AlgModel FieldModel FieldProofs InfModel InfSpec InfProofs InfLayoutProofs InfSimpProofs.
Import ListNotations.
Local Open Scope nat_scope.

Fixpoint two_power (n : nat) : Qc := match n with 0 => 1%Qc | S k => ((1 + 1) * two_power k)%Qc end.
Lemma two_power_pos n : (0 < two_power n)%Qc.
Proof.
  induction n as [|n IH]; [reflexivity|]. cbn [two_power].
  replace 0%Qc with (0 * two_power n)%Qc by ring. apply Qcmult_lt_compat_r; [assumption|reflexivity].
Qed.
Lemma two_power_grows n : (two_power n < two_power (S n))%Qc.
Proof.
  cbn [two_power]. replace (two_power n) with (1 * two_power n)%Qc at 1 by ring.
  apply Qcmult_lt_compat_r; [apply two_power_pos|reflexivity].
Qed.
Lemma two_power_less n m : n < m -> (two_power n < two_power m)%Qc.
Proof. induction 1 as [|m H IH]; [apply two_power_grows|]. eapply Qclt_trans; [exact IH|apply two_power_grows]. Qed.
Lemma two_power_inj n m : two_power n = two_power m -> n = m.
Proof.
  intros E. destruct (lt_eq_lt_dec n m) as [[H|H]|H]; [|assumption|]; apply two_power_less in H; rewrite E in H; now apply Qclt_not_eq in H.
Qed.
Lemma one_not_zero : 1%Qc <> 0%Qc. Proof. discriminate. Qed.

Section Complete.
  Variables (outcomes : list nat) (srcs : list (list nat)) (nt : network) (L : nat).
  Hypothesis MK : make_network outcomes srcs = Some nt.
  Notation c := (inflate nt L).
  Notation size := (size nt L).
  Notation lab := (label_of c).
  Notation over := (over nt L).
  Notation normal := (normal nt L).

  Lemma unique_from_count w : forall last x, sorted (last :: w) -> oi_proj (info c x) = true ->
    count_occ Nat.eq_dec (unique_from c last w) x <= (if Nat.eq_dec x last then 0 else 1).
  Proof.
    induction w as [|y w IH]; intros last x Sl P; [destruct (Nat.eq_dec x last); cbn; lia|].
    inversion Sl as [|? ? S1 F]; subst. rewrite Forall_forall in F. cbn [unique_from].
    destruct (Nat.eqb_spec last y) as [->|N]; cbn [andb].
    - destruct (oi_proj (info c y)) eqn:Q.
      + apply IH; assumption.
      + specialize (IH y x S1 P). cbn [count_occ]. destruct (Nat.eq_dec x y) as [->|]; [congruence|].
        destruct (Nat.eq_dec y x); [congruence|assumption].
    - specialize (IH y x S1 P). cbn [count_occ]. destruct (Nat.eq_dec x last) as [->|Nx].
      + destruct (Nat.eq_dec y last); [congruence|]. apply Nat.le_0_r. apply count_occ_not_In. intros I. apply unique_from_in in I.
        inversion S1 as [|? ? _ F']; subst. rewrite Forall_forall in F'. specialize (F' last I). specialize (F y (or_introl eq_refl)). lia.
      + destruct (Nat.eq_dec y x) as [->|]; [|destruct (Nat.eq_dec x y); lia]. destruct (Nat.eq_dec x x); [lia|congruence].
  Qed.
  Lemma normal_count w x : normal w -> oi_proj (info c x) = true -> count_occ Nat.eq_dec w x <= 1.
  Proof.
    intros [_ [Sw [_ U]]] P. destruct w as [|y w]; [cbn; lia|]. cbn [unique] in U. injection U as U.
    pose proof (unique_from_count w y x Sw P) as H. rewrite U in H. cbn [count_occ].
    destruct (Nat.eq_dec y x) as [->|N].
    - destruct (Nat.eq_dec x x); [lia|congruence].
    - destruct (Nat.eq_dec x y); lia.
  Qed.

  (** the explanation that gives the outcomes of [u], the value 2 to one number and 1 to the others *)
  Definition key (l : label) : list nat := map snd (causes srcs l).
  Definition key_eqb (a b : list nat) : bool := if list_eq_dec Nat.eq_dec a b then true else false.
  Definition told (u : word) (o : nat) (k : list nat) : nat :=
    match find (fun x => Nat.eqb (lb_obs (lab x)) o && key_eqb (key (lab x)) k) u with
    | Some x => lb_outcome (lab x)
    | None => nth o outcomes 0 - 1
    end.
  Definition story (u : word) (x : nat) : explanation Qc_rfield :=
    mk_expl Qc_rfield (fun _ => L) (fun _ _ => 1%Qc) (told u)
            (fun o k => if Nat.eqb (lb_obs (lab x)) o && key_eqb (key (lab x)) k then (1 + 1)%Qc else 1%Qc).
  Definition plain : nat * nat -> nat := snd.
  Lemma key_copies x y : x < size -> y < size -> lb_obs (lab x) = lb_obs (lab y) -> key (lab x) = key (lab y) -> lb_copies (lab x) = lb_copies (lab y).
  Proof.
    intros X Y E K. pose proof (label_exists outcomes srcs nt L MK x X) as [_ [A _]].
    pose proof (label_exists outcomes srcs nt L MK y Y) as [_ [B _]]. rewrite <- E in B. unfold key, causes in K. rewrite <- E in K.
    destruct (sources srcs (lb_obs (lab x))) as [|s ss] eqn:SS.
    - destruct (lb_copies (lab x)); [|discriminate]. destruct (lb_copies (lab y)); [reflexivity|discriminate].
    - assert (G : forall a b : list nat, length b = length a -> map snd (List.combine a b) = b).
      { induction a as [|p a IH]; intros [|q b] Hl; try discriminate; [reflexivity|]. cbn. f_equal. apply IH. cbn in Hl. lia. }
      rewrite !G in K by assumption. exact K.
  Qed.
  Notation val u x := (op_value outcomes srcs Qc_rfield (story u x) plain).
  Notation wval u x := (word_value outcomes srcs Qc_rfield (story u x) plain).
  Lemma told_own u y : normal u -> In y u -> told u (lb_obs (lab y)) (key (lab y)) = lb_outcome (lab y).
  Proof.
    intros [Ov [_ [Co _]]] Y. unfold told.
    destruct (find (fun x => Nat.eqb (lb_obs (lab x)) (lb_obs (lab y)) && key_eqb (key (lab x)) (key (lab y))) u) as [x|] eqn:E.
    - apply find_some in E. destruct E as [X T]. apply andb_prop in T. destruct T as [T1 T2]. apply Nat.eqb_eq in T1.
      unfold key_eqb in T2. destruct (list_eq_dec Nat.eq_dec (key (lab x)) (key (lab y))) as [K|]; [|discriminate].
      assert (x = y) as ->; [|reflexivity]. apply Co; [assumption..|].
      apply (parts_label outcomes srcs nt L MK); [now apply Ov..|assumption|]. apply key_copies; auto.
    - exfalso. eapply find_none in E; [|exact Y]. cbn beta in E. rewrite Nat.eqb_refl in E. unfold key_eqb in E.
      destruct (list_eq_dec Nat.eq_dec (key (lab y)) (key (lab y))); [discriminate|congruence].
  Qed.
  (** an operator of an existing outcome that is told is in the word *)
  Lemma told_in u y : normal u -> y < size -> oi_proj (info c y) = true ->
    told u (lb_obs (lab y)) (key (lab y)) = lb_outcome (lab y) -> In y u.
  Proof.
    intros [Ov [_ [Co _]]] Y P. unfold told.
    destruct (find (fun x => Nat.eqb (lb_obs (lab x)) (lb_obs (lab y)) && key_eqb (key (lab x)) (key (lab y))) u) as [x|] eqn:E.
    - apply find_some in E. destruct E as [X T]. apply andb_prop in T. destruct T as [T1 T2]. apply Nat.eqb_eq in T1.
      unfold key_eqb in T2. destruct (list_eq_dec Nat.eq_dec (key (lab x)) (key (lab y))) as [K|]; [|discriminate].
      intros Z. assert (x = y) as <-; [|assumption]. apply (label_inj outcomes srcs nt L MK); [now apply Ov|assumption|].
      pose proof (key_copies x y (Ov x X) Y T1 K). destruct (lab x), (lab y); cbn in *; congruence.
    - intros Z. exfalso. pose proof (label_exists outcomes srcs nt L MK y Y) as [_ [_ [_ B]]].
      apply (info_proj outcomes srcs nt L MK) in P; [|assumption]. unfold measured in P.
      destruct (nth (lb_obs (lab y)) outcomes 0); [congruence|lia].
  Qed.
  Lemma val_cases u x y : y < size ->
    val u x (lab y) = if oi_proj (info c y) then if Nat.eqb (told u (lb_obs (lab y)) (key (lab y))) (lb_outcome (lab y)) then 1%Qc else 0%Qc
                      else if Nat.eqb (lb_obs (lab x)) (lb_obs (lab y)) && key_eqb (key (lab x)) (key (lab y)) then (1 + 1)%Qc else 1%Qc.
  Proof.
    intros Y. unfold op_value. cbn [story ex_outcome ex_number r0 r1 Qc_rfield]. fold (key (lab y)). unfold plain. fold (key (lab y)).
    destruct (oi_proj (info c y)) eqn:P.
    - apply (info_proj outcomes srcs nt L MK) in P; [|assumption]. unfold measured in P.
      destruct (Nat.eqb_spec (nth (lb_obs (lab y)) outcomes 0) 0); [contradiction|]. reflexivity.
    - destruct (Nat.eqb_spec (nth (lb_obs (lab y)) outcomes 0) 0) as [_|N]; [reflexivity|].
      exfalso. assert (oi_proj (info c y) = true) by (now apply (info_proj outcomes srcs nt L MK)). congruence.
  Qed.
  Lemma number_here x y : x < size -> y < size -> oi_proj (info c x) = false -> oi_proj (info c y) = false ->
    (Nat.eqb (lb_obs (lab x)) (lb_obs (lab y)) && key_eqb (key (lab x)) (key (lab y)) = true <-> y = x).
  Proof.
    intros X Y Px Py. split.
    - intros T. apply andb_prop in T. destruct T as [T1 T2]. apply Nat.eqb_eq in T1.
      unfold key_eqb in T2. destruct (list_eq_dec Nat.eq_dec (key (lab x)) (key (lab y))) as [K|]; [|discriminate].
      symmetry. apply (unmeasured_single outcomes srcs nt L MK); [assumption..| |assumption].
      apply (parts_label outcomes srcs nt L MK); [assumption..|]. now apply key_copies.
    - intros ->. rewrite Nat.eqb_refl. unfold key_eqb. destruct (list_eq_dec _ _ _); [reflexivity|congruence].
  Qed.
  (** the value of a word whose projectors are all in [u] *)
  Lemma wval_power u x v : normal u -> x < size -> oi_proj (info c x) = false -> over v ->
    (forall y, In y v -> oi_proj (info c y) = true -> In y u) ->
    wval u x (map lab v) = two_power (count_occ Nat.eq_dec v x).
  Proof.
    intros Nu X Px. induction v as [|y v IH]; intros Ov Sub; [reflexivity|].
    cbn [map]. unfold word_value. cbn [fold_right]. fold (wval u x (map lab v)).
    rewrite IH; [|intros z Z; apply Ov; now right|intros z Z; apply Sub; now right].
    assert (Y : y < size) by (apply Ov; now left). rewrite (val_cases u x y Y). cbn [count_occ rmul Qc_rfield].
    destruct (oi_proj (info c y)) eqn:P.
    - assert (I : In y u) by (apply Sub; [now left|assumption]). rewrite (told_own u y Nu I), Nat.eqb_refl.
      destruct (Nat.eq_dec y x) as [->|]; [congruence|]. apply Qcmult_1_l.
    - destruct (Nat.eqb (lb_obs (lab x)) (lb_obs (lab y)) && key_eqb (key (lab x)) (key (lab y))) eqn:T.
      + apply number_here in T; [|assumption..]. subst. destruct (Nat.eq_dec x x); [reflexivity|congruence].
      + destruct (Nat.eq_dec y x) as [->|]; [|apply Qcmult_1_l].
        assert (Nat.eqb (lb_obs (lab x)) (lb_obs (lab x)) && key_eqb (key (lab x)) (key (lab x)) = true) by (now apply number_here). congruence.
  Qed.
  (** the same without a number to look at: [x] a projector *)
  Lemma wval_one u x v : normal u -> x < size -> oi_proj (info c x) = true -> over v ->
    (forall y, In y v -> oi_proj (info c y) = true -> In y u) -> wval u x (map lab v) = 1%Qc.
  Proof.
    intros Nu X Px. induction v as [|y v IH]; intros Ov Sub; [reflexivity|].
    cbn [map]. unfold word_value. cbn [fold_right]. fold (wval u x (map lab v)).
    rewrite IH; [|intros z Z; apply Ov; now right|intros z Z; apply Sub; now right].
    assert (Y : y < size) by (apply Ov; now left). rewrite (val_cases u x y Y). cbn [rmul Qc_rfield].
    destruct (oi_proj (info c y)) eqn:P.
    - assert (I : In y u) by (apply Sub; [now left|assumption]). rewrite (told_own u y Nu I), Nat.eqb_refl. apply Qcmult_1_l.
    - destruct (Nat.eqb_spec (lb_obs (lab x)) (lb_obs (lab y))) as [E|]; cbn [andb]; [|apply Qcmult_1_l].
      exfalso. pose proof (measured_same outcomes srcs nt L MK x y X Y) as H. change (oi_obs (info c x)) with (lb_obs (lab x)) in H.
      change (oi_obs (info c y)) with (lb_obs (lab y)) in H. specialize (H E). congruence.
  Qed.
  Lemma wval_nonzero_sub u x v : normal u -> over v -> wval u x (map lab v) <> 0%Qc -> forall y, In y v -> oi_proj (info c y) = true -> In y u.
  Proof.
    intros Nu. induction v as [|z v IH]; intros Ov N y; [intros []|].
    cbn [map] in N. unfold word_value in N. cbn [fold_right] in N. fold (wval u x (map lab v)) in N. cbn [rmul Qc_rfield] in N.
    intros [<-|I] P.
    - assert (Z : z < size) by (apply Ov; now left). rewrite (val_cases u x z Z), P in N.
      destruct (Nat.eqb_spec (told u (lb_obs (lab z)) (key (lab z))) (lb_outcome (lab z))) as [E|]; [now apply told_in|].
      exfalso. apply N. apply Qcmult_0_l.
    - apply IH; [intros w W; apply Ov; now right| |assumption..]. intros Z. apply N. rewrite Z. apply Qcmult_0_r.
  Qed.
  Lemma two_power_nonzero n : two_power n <> 0%Qc.
  Proof. intros E. pose proof (two_power_pos n) as P. rewrite E in P. now apply Qclt_not_eq in P. Qed.
  Lemma own_nonzero u x : normal u -> x < size -> wval u x (map lab u) <> 0%Qc.
  Proof.
    intros Nu X. destruct (oi_proj (info c x)) eqn:P.
    - rewrite (wval_one u x u Nu X P); [exact one_not_zero|apply Nu|auto].
    - rewrite (wval_power u x u Nu X P); [apply two_power_nonzero|apply Nu|auto].
  Qed.
  Definition agree (u v : word) : Prop :=
    forall (M : explanation Qc_rfield) lam,
      word_value outcomes srcs Qc_rfield M lam (map lab u) = word_value outcomes srcs Qc_rfield M lam (map lab v).
  Lemma agree_sub u v : normal u -> normal v -> agree u v -> forall y, In y v -> oi_proj (info c y) = true -> In y u.
  Proof.
    intros Nu Nv A y Y P. pose proof Nv as [Ov _]. apply (wval_nonzero_sub u y v Nu Ov); [|assumption..].
    intros Z. rewrite <- A in Z. revert Z. apply own_nonzero; auto.
  Qed.
  Lemma agree_eq u v : normal u -> normal v -> agree u v -> u = v.
  Proof.
    intros Nu Nv A. pose proof Nu as [Ou [Su _]]. pose proof Nv as [Ov [Sv _]].
    assert (B : agree v u) by (intros M lam; now rewrite A).
    pose proof (agree_sub u v Nu Nv A) as Sub1. pose proof (agree_sub v u Nv Nu B) as Sub2.
    apply sorted_unique; [assumption..|]. apply (Permutation_count_occ Nat.eq_dec). intros x.
    destruct (lt_dec x size) as [X|X].
    - destruct (oi_proj (info c x)) eqn:P.
      + pose proof (normal_count u x Nu P) as C1. pose proof (normal_count v x Nv P) as C2.
        destruct (in_dec Nat.eq_dec x u) as [I|I].
        * pose proof (Sub2 x I P) as J. apply (count_occ_In Nat.eq_dec) in I, J. lia.
        * assert (J : ~ In x v) by (intros J; apply I; auto). apply (count_occ_not_In Nat.eq_dec) in I, J. lia.
      + apply two_power_inj. rewrite <- (wval_power u x u Nu X P Ou) by auto. rewrite <- (wval_power u x v Nu X P Ov Sub1). apply A.
    - assert (I : ~ In x u) by auto. assert (J : ~ In x v) by auto. apply (count_occ_not_In Nat.eq_dec) in I, J. lia.
  Qed.
  Lemma zero_size : size = 0 -> forall w, over w -> w = [].
  Proof. intros Z [|x w] Ov; [reflexivity|]. specialize (Ov x (or_introl eq_refl)). lia. Qed.
  Lemma complete u v : over u -> over v -> agree u v -> simplify c u = simplify c v.
  Proof.
    intros Ou Ov A.
    destruct (Nat.eq_dec size 0) as [Z|NZ]; [now rewrite (zero_size Z u Ou), (zero_size Z v Ov)|].
    assert (H : forall M lam, match simplify c u, simplify c v with
                | Some u', Some v' => word_value outcomes srcs Qc_rfield M lam (map lab u') = word_value outcomes srcs Qc_rfield M lam (map lab v')
                | Some w, None | None, Some w => word_value outcomes srcs Qc_rfield M lam (map lab w) = 0%Qc
                | None, None => True end).
    { intros M lam. pose proof (simplify_value outcomes srcs nt L MK Qc_rfield M lam u Ou) as P1.
      pose proof (simplify_value outcomes srcs nt L MK Qc_rfield M lam v Ov) as P2. pose proof (A M lam) as Am.
      destruct (simplify c u), (simplify c v); [congruence|rewrite P1, Am; exact P2|rewrite P2, <- Am; exact P1|exact I]. }
    destruct (simplify c u) as [u'|] eqn:Eu, (simplify c v) as [v'|] eqn:Ev; [| | |reflexivity].
    - f_equal. apply agree_eq; [now apply (simplify_normal outcomes srcs nt L MK u)|now apply (simplify_normal outcomes srcs nt L MK v)|exact H].
    - exfalso. apply (simplify_normal outcomes srcs nt L MK) in Eu; [|assumption].
      apply (own_nonzero u' 0 Eu); [lia|]. apply H.
    - exfalso. apply (simplify_normal outcomes srcs nt L MK) in Ev; [|assumption].
      apply (own_nonzero v' 0 Ev); [lia|]. apply H.
  Qed.
End Complete.
