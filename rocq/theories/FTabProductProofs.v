(** Products of symbols in factor tables. *)
From Coq Require Import List ZArith Arith Bool Sorted Permutation Lia.
From Verif Require Import CoreModel FieldModel AlgModel InfModel InfSpec InfFinalProofs.
From Verif Require Import TreeModel TreeSpec TreeProofs FTabModel FTabSpec FTabListProofs FTabProofs FTabTableProofs.
Import ListNotations.

Lemma grows_refl t : grows t t.
Proof. exists [], []. now rewrite !app_nil_r. Qed.
Lemma grows_trans a b d : grows a b -> grows b d -> grows a d.
Proof. intros [m [e [A B]]] [m' [e' [A' B']]]. exists (m ++ m'), (e ++ e'). rewrite A', A, B', B, !app_assoc. auto. Qed.
Lemma grows_seq t t' k q : grows t t' -> symbol_seq t k q -> symbol_seq t' k q.
Proof. intros [m [e [A B]]] H. unfold symbol_seq. rewrite A. now apply nth_app_old. Qed.
Lemma grows_factors t t' k l : grows t t' -> factors t k l -> factors t' k l.
Proof. intros [m [x [A B]]] [e [H1 H2]]. exists e. split; [|exact H2]. rewrite B. now apply nth_app_old. Qed.
Lemma factors_fun t k l l' : factors t k l -> factors t k l' -> l = l'.
Proof. intros [e [A B]] [e' [A' B']]. congruence. Qed.

Section Table.
  Variables (outcomes : list nat) (srcs : list (list nat)) (nt : network) (L : nat).
  Hypothesis MK : make_network outcomes srcs = Some nt.
  Variable grow_to : nat -> nat.
  Notation c := (inflate nt L).
  Notation lab := (label_of c).
  Notation moment_of := (moment_of nt L).
  Notation unfactorable := (unfactorable srcs nt L).
  Notation factors_of := (factors_of nt L).
  Notation sound_entries := (sound_entries srcs nt L).
  Notation sound_table := (sound_table srcs nt L).
  Notation factor_list := (factor_list srcs nt L).

  Lemma grows_list t t' ks : grows t t' -> factor_list t ks -> factor_list t' ks.
  Proof. intros G [A [B D]]. split; [exact A|]. split; [exact B|]. intros k I. destruct (D k I) as [q [X Y]]. exists q. split; [now apply (grows_seq t)|exact Y]. Qed.
  Lemma list_good t ks : factor_list t ks -> shaped ks.
  Proof. intros [_ [H _]]. exact H. Qed.
  Lemma sound_entry t k : sound_table t -> k < length (ft_syms t) -> exists e, nth_error (ft_entries t) k = Some e /\ fe_id e = k.
  Proof.
    intros [S0 Le] H. destruct (nth_error (ft_entries t) k) as [e|] eqn:E; [|apply nth_error_None in E; lia].
    exists e. split; [reflexivity|]. now apply (se_id _ _ _ _ S0 k e).
  Qed.
  Lemma seqs_nonempty t k q e : sound_entries t -> symbol_seq t k q -> nth_error (ft_entries t) k = Some e -> fe_seqs e <> [].
  Proof.
    intros S0 Hq He. destruct (se_entry _ _ _ _ S0 k q e Hq He) as [F _]. pose proof (words_ok srcs nt L t k q S0 Hq) as N. destruct q as [w|]; cbn in F; [|rewrite F; discriminate].
    destruct F as [fs [rs [A [B ->]]]]. intros E. destruct rs; [|discriminate]. inversion B; subst. cbn in A.
    destruct w as [|x w]; [discriminate|]. destruct (f_factors outcomes srcs nt L MK (x :: w) N ltac:(discriminate)) as [fs' [A' [P _]]].
    rewrite A in A'. destruct fs'; [|discriminate]. apply Permutation_nil in P. discriminate.
  Qed.
  Lemma entry_list t e : sound_table t -> In e (ft_entries t) -> factor_list t (fe_syms e).
  Proof.
    intros [S0 Le] I. destruct (se_factors _ _ _ _ S0 e I) as [ks [P F]]. split; [|split; [now apply (se_shape _ _ _ _ S0)|]].
    - apply In_nth_error in I. destruct I as [k He]. destruct (se_id _ _ _ _ S0 k e He) as [_ Lt].
      apply nth_error_Some in Lt. destruct (nth_error (ft_syms t) k) as [[q|]|] eqn:Hs; [| |congruence].
      + pose proof (seqs_nonempty t k q e S0 Hs He) as N. intros E. rewrite E in P. apply Permutation_sym, Permutation_nil in P. subst. inversion F. congruence.
      + pose proof (se_created _ _ _ _ S0 k e Hs He). intros E. rewrite E in *. cbn in *. lia.
    - intros k Ik. apply (Permutation_in _ (Permutation_sym P)) in Ik. destruct (forall2_in _ _ _ _ F Ik) as [q [_ H]]. eauto.
  Qed.
  (** symbols that do not factor are their own factors *)
  Lemma own_factor t k q e : sound_entries t -> symbol_seq t k q -> unfactorable q -> nth_error (ft_entries t) k = Some e -> fe_syms e = [k] /\ fe_seqs e = [q].
  Proof.
    intros S0 Hq U He. destruct (se_entry _ _ _ _ S0 k q e Hq He) as [F _]. pose proof (words_ok srcs nt L t k q S0 Hq) as N.
    assert (fe_seqs e = [q]) as E.
    { destruct q as [w|]; cbn in F; [|exact F]. destruct F as [fs [rs [A [B ->]]]]. rewrite (connected_factor outcomes srcs nt L MK w N U) in A.
      destruct fs as [|f [|g fs]]; try discriminate. injection A as <-. inversion B as [|x y l l' H1 H2]; subst. inversion H2; subst. cbn. do 2 f_equal.
      destruct (moment_exists outcomes srcs nt L MK w N) as [r' [X [_ [_ [_ Y]]]]]. rewrite (Y (proj2 (se_words _ _ _ _ S0 _ _ Hq))) in X. apply (moment_same nt L w); assumption. }
    split; [|exact E]. destruct (se_factors _ _ _ _ S0 e (nth_error_In _ _ He)) as [ks [P K]]. rewrite E in K.
    inversion K as [|j q' l l' [X Y] Z]; subst. inversion Z; subst. rewrite (se_once _ _ _ _ S0 _ _ _ X Hq) in P. now apply Permutation_length_1_inv in P.
  Qed.
  Lemma fundamental_self t k e : sound_entries t -> nth_error (ft_entries t) k = Some e -> (fundamental e = true <-> fe_syms e = [k]).
  Proof.
    intros S0 He. destruct (se_factors _ _ _ _ S0 e (nth_error_In _ _ He)) as [ks [P F]]. unfold fundamental.
    assert (Ln : length (fe_seqs e) = length (fe_syms e)) by (rewrite <- (Permutation_length P); symmetry; apply (forall2_len _ _ _ F)).
    destruct (Nat.leb_spec (length (fe_seqs e)) 1) as [H|H].
    2:{ split; [discriminate|]. intros E. rewrite E in Ln. cbn in Ln. lia. }
    split; [|reflexivity]. intros _. destruct (se_id _ _ _ _ S0 k e He) as [_ Lt]. apply nth_error_Some in Lt.
    destruct (nth_error (ft_syms t) k) as [[q|]|] eqn:Hs; [| |congruence].
    2:{ pose proof (se_created _ _ _ _ S0 k e Hs He). lia. }
    pose proof (words_ok srcs nt L t k q S0 Hs) as N. pose proof (seqs_nonempty t k q e S0 Hs He) as NE. destruct (se_entry _ _ _ _ S0 k q e Hs He) as [Fa _].
    apply (own_factor t k q e S0 Hs); [|exact He]. destruct q as [w|]; [|exact I]. destruct Fa as [fs [rs [A [B Es]]]]. rewrite Es, map_length in H.
    assert (length fs = length rs) as Lf by apply (forall2_len _ _ _ B). destruct fs as [|f [|g fs]]; cbn in Lf; [|clear Lf|lia].
    - destruct rs; [|discriminate]. rewrite Es in NE. now destruct NE.
    - cbn. destruct (list_eq_dec Nat.eq_dec w []) as [->|Nw]; [intros x y []|].
      destruct (f_factors outcomes srcs nt L MK w N Nw) as [fs' [A' [P' [D _]]]]. rewrite A in A'. destruct fs' as [|f' [|]]; try discriminate. injection A' as <-.
      cbn in P'. rewrite app_nil_r in P'. destruct (D f (or_introl eq_refl)) as [_ [_ Cn]]. intros x y Ix Iy. apply (Permutation_in _ (Permutation_sym (Permutation_map lab P'))) in Ix.
      apply (Permutation_in _ (Permutation_sym (Permutation_map lab P'))) in Iy. eapply InfFactorProofs.linked_mono; [|apply (Cn x y Ix Iy)].
      intros z Iz. apply (Permutation_in _ (Permutation_map lab P') Iz).
  Qed.

  (** * New symbols for products *)
  Lemma sequences_ok l ks : (forall k, In k ks -> exists q, nth_error l k = Some (Some q)) ->
    exists qs, sequences_of l ks = FOk qs /\ Forall2 (fun k q => nth_error l k = Some (Some q)) ks qs.
  Proof.
    induction ks as [|k ks IH]; intros H; [exists []; split; [reflexivity|constructor]|].
    destruct (H k (or_introl eq_refl)) as [q Hq]. destruct IH as [qs [A B]]; [intros j I; apply H; now right|].
    exists (q :: qs). split; [|now constructor]. cbn. unfold sequence_of. rewrite Hq. cbn. now rewrite A.
  Qed.
  Lemma create_spec t ks : sound_table t -> factor_list t ks -> 2 <= length ks ->
    exists t', create_product grow_to t ks = FOk (t', length (ft_syms t)) /\ sound_table t' /\ grows t t' /\ factors t' (length (ft_syms t)) ks /\ length (ft_syms t') = S (length (ft_syms t)).
  Proof.
    intros [S0 Le] [Ne [Sh Hk]] L2.
    assert (S1 : sound_entries (set_syms t (ft_syms t ++ [None]))).
    { apply syms_sound; [exact S0|]. apply (sound_syms_none nt L _ 1). now apply sound_to_syms in S0. }
    destruct (sequences_ok (ft_syms t ++ [None]) ks) as [qs [Q1 Q2]].
    { intros k I. destruct (Hk k I) as [q [A _]]. exists q. now apply nth_app_old. }
    unfold create_product. rewrite Q1. cbn [fbind]. set (e := mk_fentry (length (ft_syms t)) [] qs ks). set (t1 := set_syms t (ft_syms t ++ [None])) in *.
    exists (add_index (push_entry grow_to t1 e) ks (length (ft_syms t))). split; [reflexivity|]. split; [|split; [|split]].
    - split.
      + apply (push_sound srcs nt L grow_to t1 e S1).
        * cbn. lia.
        * cbn. rewrite app_length. cbn. lia.
        * exists ks. split; [reflexivity|]. cbn [fe_seqs e].
          assert (H : forall ks' qs', (forall k, In k ks' -> In k ks) -> Forall2 (fun k q => nth_error (ft_syms t ++ [None]) k = Some (Some q)) ks' qs' ->
            Forall2 (fun k q => symbol_seq t1 k q /\ unfactorable q) ks' qs').
          { induction 2 as [|k q ks' qs' Hq Hr IH]; constructor.
            - split; [exact Hq|]. destruct (Hk k (H k (or_introl eq_refl))) as [q' [A B]]. apply (nth_app_old _ [None]) in A. congruence.
            - apply IH. intros j I. apply H. now right. }
          apply (H ks qs); auto.
        * cbn. intros q Hq. unfold symbol_seq in Hq. cbn in Hq. rewrite nth_error_app2, Nat.sub_diag in Hq by lia. discriminate.
        * cbn. intros _. exact L2.
        * exact Sh.
      + cbn. rewrite !app_length. cbn. lia.
    - exists [None], [e]. auto.
    - exists e. split; [|reflexivity]. cbn. rewrite <- Le, nth_error_app2 by lia. now rewrite Nat.sub_diag.
    - cbn. rewrite app_length. cbn. lia.
  Qed.
  Lemma find_spec t ks : sound_table t -> match find_factors t ks with Some k => factors t k ks | None => forall e, In e (ft_entries t) -> fe_syms e <> ks end.
  Proof.
    intros [S0 Le]. destruct (find_factors t ks) as [k|] eqn:F.
    - exact (se_found _ _ _ _ S0 ks k F).
    - intros e I E. apply (se_listed _ _ _ _ S0 e I). now rewrite E.
  Qed.
  Lemma single_found t k : sound_table t -> factor_list t [k] -> find_factors t [k] <> None.
  Proof.
    intros S1 [_ [_ H]] F. destruct (H k (or_introl eq_refl)) as [q [A B]]. assert (k < length (ft_syms t)) as Lt by (apply nth_error_Some; unfold symbol_seq in A; congruence).
    destruct (sound_entry t k S1 Lt) as [e [He _]]. destruct (own_factor t k q e (proj1 S1) A B He) as [E _].
    pose proof (find_spec t [k] S1) as Fs. rewrite F in Fs. apply (Fs e); [eapply nth_error_In; exact He|exact E].
  Qed.
  Lemma combine_list t l r : sound_table t -> factor_list t l -> factor_list t r -> factor_list t (combine_factors l r).
  Proof.
    intros S1 Hl Hr. destruct (combine_spec l r (list_good t l Hl) (list_good t r Hr) (proj1 Hl) (proj1 Hr)) as [A [B [D _]]].
    split; [exact B|]. split; [exact A|]. intros k I. apply D in I. destruct I as [I|[I| ->]]; [now apply Hl|now apply Hr|].
    exists (Some []). split; [apply S1|intros x y []].
  Qed.
  Lemma register_spec t ks : sound_table t -> factor_list t ks ->
    exists t' id, match find_factors t ks with Some id => FOk (t, id) | None => create_product grow_to t ks end = FOk (t', id) /\ sound_table t' /\ grows t t' /\
      factors t' id ks /\ (t' = t \/ (id = length (ft_syms t) /\ length (ft_syms t') = S (length (ft_syms t)) /\ forall e, In e (ft_entries t) -> fe_syms e <> ks)).
  Proof.
    intros S1 K. pose proof (find_spec t ks S1) as Fs. destruct (find_factors t ks) as [id|] eqn:F.
    - exists t, id. split; [reflexivity|]. split; [exact S1|]. split; [apply grows_refl|]. split; [exact Fs|now left].
    - assert (2 <= length ks) as L2.
      { destruct ks as [|k [|j ks]]; cbn; [destruct K as [K _]; congruence| |lia]. exfalso. now apply (single_found t k S1 K). }
      destruct (create_spec t ks S1 K L2) as [t' [A [B [D [E G]]]]]. exists t', (length (ft_syms t)). auto 10.
  Qed.
  Lemma combine_register_spec t l r : sound_table t -> factor_list t l -> factor_list t r ->
    exists t' id, combine_and_register grow_to t l r = FOk (t', id) /\ sound_table t' /\ grows t t' /\ factors t' id (combine_factors l r) /\
      (t' = t \/ (id = length (ft_syms t) /\ length (ft_syms t') = S (length (ft_syms t)) /\ forall e, In e (ft_entries t) -> fe_syms e <> combine_factors l r)).
  Proof. intros S1 Hl Hr. apply (register_spec t (combine_factors l r) S1). now apply combine_list. Qed.

  (** * Several new symbols at once *)
  Lemma push_all_shape : forall defs t, ft_syms (push_all grow_to t defs) = ft_syms t /\ ft_tree (push_all grow_to t defs) = ft_tree t /\
    exists es, ft_entries (push_all grow_to t defs) = ft_entries t ++ es /\
      Forall2 (fun e (d : list nat * list (option word)) => fe_syms e = fst d /\ fe_seqs e = snd d) es defs /\
      forall i e, nth_error es i = Some e -> fe_id e = length (ft_entries t) + i.
  Proof.
    induction defs as [|[ks qs] defs IH]; intros t; cbn [push_all].
    - split; [reflexivity|]. split; [reflexivity|]. exists []. rewrite app_nil_r. split; [reflexivity|]. split; [constructor|]. intros [|i] e H; discriminate.
    - set (e := mk_fentry _ _ _ _). destruct (IH (push_entry grow_to t e)) as [A [B [es [D [E F]]]]]. rewrite A, B. cbn [push_entry ft_syms ft_tree] in *.
      split; [reflexivity|]. split; [reflexivity|]. exists (e :: es). rewrite D. cbn [push_entry ft_entries] in *. split; [now rewrite <- app_assoc|]. split; [constructor; [split; reflexivity|exact E]|].
      intros [|i] x H; cbn in H; [injection H as <-; cbn; lia|]. rewrite (F i x H), app_length. cbn. lia.
  Qed.
  (** the new lists of factors are listed once each, under the numbers of the new symbols *)
  Definition indexes (t : ftab) (defs : list (list nat * list (option word))) (tree : itree nat) : Prop :=
    (exists h, tree = t_eval h) /\
    forall ks k, t_find (key ks) tree = Some k <-> exists i qs, nth_error defs i = Some (ks, qs) /\ k = length (ft_syms t) + i.
  Lemma register_all_spec t defs tree : sound_table t -> indexes t defs tree ->
    (forall ks qs, In (ks, qs) defs -> factor_list t ks /\ 2 <= length ks /\ Forall2 (symbol_seq t) ks qs) ->
    sound_table (register_all grow_to t defs tree) /\ grows t (register_all grow_to t defs tree) /\
    length (ft_syms (register_all grow_to t defs tree)) = length (ft_syms t) + length defs /\
    forall i ks qs, nth_error defs i = Some (ks, qs) -> factors (register_all grow_to t defs tree) (length (ft_syms t) + i) ks.
  Proof.
    intros S1 Ix Hd. destruct defs as [|d0 defs0].
    { cbn. split; [exact S1|]. split; [apply grows_refl|]. split; [lia|]. intros [|i] ks qs H; discriminate. }
    unfold register_all. set (defs := d0 :: defs0) in *. clearbody defs. clear d0 defs0. destruct S1 as [S0 Le].
    set (n := length defs). set (t1 := set_syms t (ft_syms t ++ repeat None n)).
    assert (S2 : sound_entries t1) by (apply syms_sound; [exact S0|apply sound_syms_none; now apply sound_to_syms in S0]).
    destruct (push_all_shape defs t1) as [A [B [es [D [E F]]]]]. set (t2 := push_all grow_to t1 defs) in *. rewrite A, B, D. cbn [t1 set_syms ft_syms ft_tree ft_entries] in *.
    assert (Ln : length es = n) by (apply (forall2_len _ _ _ E)).
    destruct (se_tree _ _ _ _ S0) as [h0 T0]. destruct Ix as [[h Th] Ix].
    assert (Fi : forall ks, t_find (key ks) (t_merge (ft_tree t) tree) = match t_find (key ks) tree with Some k => Some k | None => find_factors t ks end).
    { intros ks. rewrite find_merge; [reflexivity|rewrite T0; apply eval_sorted|rewrite Th; apply eval_sorted]. }
    assert (Nd : forall i e, nth_error es i = Some e -> exists ks qs, nth_error defs i = Some (ks, qs) /\ fe_syms e = ks /\ fe_seqs e = qs).
    { clear - E. induction E as [|x [ks qs] es defs [H1 H2] H IH]; intros [|i] e K; try discriminate; cbn in K.
      - injection K as <-. exists ks, qs. auto.
      - cbn. now apply IH. }
    assert (Dn : forall i ks qs, nth_error defs i = Some (ks, qs) -> exists e, nth_error es i = Some e /\ fe_syms e = ks /\ fe_seqs e = qs).
    { clear - E. induction E as [|x [ks0 qs0] es defs [H1 H2] H IH]; intros [|i] ks qs K; try discriminate; cbn in K.
      - injection K as <- <-. exists x. auto.
      - cbn. now apply IH. }
    assert (Cut : forall k e, nth_error (ft_entries t ++ es) k = Some e -> nth_error (ft_entries t) k = Some e \/ exists i, k = length (ft_syms t) + i /\ i < n /\ nth_error es i = Some e).
    { intros k e H. destruct (Nat.lt_ge_cases k (length (ft_entries t))) as [K|K]; [left; now rewrite nth_error_app1 in H|right].
      rewrite nth_error_app2 in H by assumption. exists (k - length (ft_entries t)). split; [lia|]. split; [|exact H]. rewrite <- Ln. apply nth_error_Some. congruence. }
    assert (Nq : forall i, i < n -> nth_error (ft_syms t ++ repeat None n) (length (ft_syms t) + i) = Some None).
    { intros i H. rewrite nth_error_app2 by lia. replace (length (ft_syms t) + i - length (ft_syms t)) with i by lia. now apply nth_error_repeat. }
    split; [split; [split; unfold symbol_seq, find_factors; cbn [ft_syms ft_entries ft_tree]; try apply S2|]|split; [|split]].
    - intros k e H. apply Cut in H. destruct H as [H|[i [-> [Li H]]]].
      + destruct (se_id _ _ _ _ S0 k e H) as [X Y]. split; [exact X|]. rewrite app_length. lia.
      + split; [rewrite (F i e H), Le; reflexivity|]. rewrite app_length, repeat_length. lia.
    - intros e I. apply in_app_iff in I. destruct I as [I|I]; [now apply (se_factors _ _ _ _ S2)|]. apply In_nth_error in I. destruct I as [i Hi].
      destruct (Nd i e Hi) as [ks [qs [X [Y Z]]]]. exists ks. rewrite Y, Z. split; [reflexivity|]. destruct (Hd ks qs (nth_error_In _ _ X)) as [[_ [_ P1]] [_ P2]].
      assert (G : forall ks' qs', (forall k, In k ks' -> In k ks) -> Forall2 (symbol_seq t) ks' qs' -> Forall2 (fun k q => nth_error (ft_syms t ++ repeat None n) k = Some (Some q) /\ unfactorable q) ks' qs').
      { induction 2 as [|k q ks' qs' Hq Hr IH]; constructor.
        - split; [now apply nth_app_old|]. destruct (P1 k (H k (or_introl eq_refl))) as [q' [U V]]. unfold symbol_seq in *. congruence.
        - apply IH. intros j J. apply H. now right. }
      apply (G ks qs); auto.
    - intros k q e Hq H. apply Cut in H. destruct H as [H|[i [-> [Li H]]]]; [now apply (se_entry _ _ _ _ S2 k q e)|]. rewrite Nq in Hq by assumption. discriminate.
    - intros k e Hq H. apply Cut in H. destruct H as [H|[i [-> [Li H]]]]; [now apply (se_created _ _ _ _ S2 k e)|].
      destruct (Nd i e H) as [ks [qs [X [Y Z]]]]. rewrite Y. now apply (Hd ks qs (nth_error_In _ _ X)).
    - intros e I. apply in_app_iff in I. destruct I as [I|I]; [now apply (se_shape _ _ _ _ S0)|]. apply In_nth_error in I. destruct I as [i Hi].
      destruct (Nd i e Hi) as [ks [qs [X [Y Z]]]]. rewrite Y. now apply (Hd ks qs (nth_error_In _ _ X)).
    - exists (TMerge h0 h). cbn. now rewrite T0, Th.
    - intros ks k H. rewrite Fi in H. destruct (t_find (key ks) tree) as [k'|] eqn:G.
      + injection H as ->. apply Ix in G. destruct G as [i [qs [X ->]]]. destruct (Dn i ks qs X) as [e [Y [Z _]]]. exists e. split; [|exact Z].
        rewrite nth_error_app2 by lia. rewrite <- Y. f_equal. lia.
      + destruct (se_found _ _ _ _ S0 ks k H) as [e [X Y]]. exists e. split; [now apply nth_app_old|exact Y].
    - intros e I. rewrite Fi. destruct (t_find (key (fe_syms e)) tree) as [k'|] eqn:G; [discriminate|]. apply in_app_iff in I. destruct I as [I|I].
      + now apply (se_listed _ _ _ _ S0).
      + exfalso. apply In_nth_error in I. destruct I as [i Hi]. destruct (Nd i e Hi) as [ks [qs [X [Y Z]]]].
        assert (t_find (key (fe_syms e)) tree = Some (length (ft_syms t) + i)) as T by (apply Ix; exists i, qs; rewrite Y; auto). congruence.
    - cbn. rewrite !app_length, repeat_length. lia.
    - exists (repeat None n), es. auto.
    - cbn. rewrite app_length, repeat_length. reflexivity.
    - intros i ks qs X. destruct (Dn i ks qs X) as [e [Y [Z _]]]. exists e. split; [|exact Z]. cbn. rewrite nth_error_app2 by lia. rewrite <- Y. f_equal. lia.
  Qed.
End Table.
