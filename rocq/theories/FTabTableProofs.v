(** Factor tables stay sound. *)
From Coq Require Import List ZArith Arith Bool Sorted Permutation Lia.
From Verif Require Import CoreModel FieldModel AlgModel InfModel InfSpec InfFinalProofs.
From Verif Require Import TreeModel TreeSpec TreeProofs FTabModel FTabSpec FTabListProofs FTabProofs.
Import ListNotations.

Lemma find_add_index t l id ks h : ft_tree t = t_eval h -> find_factors (add_index t l id) ks = if list_eq_dec Nat.eq_dec ks l then Some id else find_factors t ks.
Proof.
  intros E. unfold find_factors, add_index. cbn [ft_tree]. rewrite find_add by (rewrite E; apply eval_sorted).
  destruct (path_eq_dec (key ks) (key l)) as [K|K]; destruct (list_eq_dec Nat.eq_dec ks l) as [->|N]; try reflexivity; [now apply key_inj in K|congruence].
Qed.
Lemma forall2_app {A B} (P : A -> B -> Prop) a a' b b' : Forall2 P a b -> Forall2 P a' b' -> Forall2 P (a ++ a') (b ++ b').
Proof. induction 1; cbn; auto. Qed.
Lemma forall2_imp {A B} (P Q : A -> B -> Prop) a b : (forall x y, P x y -> Q x y) -> Forall2 P a b -> Forall2 Q a b.
Proof. intros H. induction 1; constructor; auto. Qed.
Lemma forall2_len {A B} (P : A -> B -> Prop) a b : Forall2 P a b -> length a = length b.
Proof. induction 1; cbn; auto. Qed.
Lemma forall2_in {A B} (P : A -> B -> Prop) a b x : Forall2 P a b -> In x a -> exists y, In y b /\ P x y.
Proof. induction 1 as [|x0 y0 a b H H' IH]; intros I; [destruct I|]. destruct I as [->|I]; [exists y0; split; [now left|exact H]|]. destruct (IH I) as [y [J K]]. exists y. split; [now right|exact K]. Qed.
Lemma forall2_in' {A B} (P : A -> B -> Prop) a b y : Forall2 P a b -> In y b -> exists x, In x a /\ P x y.
Proof. induction 1 as [|x0 y0 a b H H' IH]; intros I; [destruct I|]. destruct I as [->|I]; [exists x0; split; [now left|exact H]|]. destruct (IH I) as [x [J K]]. exists x. split; [now right|exact K]. Qed.

Section Table.
  Variables (outcomes : list nat) (srcs : list (list nat)) (nt : network) (L : nat).
  Hypothesis MK : make_network outcomes srcs = Some nt.
  Variable grow_to : nat -> nat.
  Notation c := (inflate nt L).
  Notation lab := (label_of c).
  Notation moment_of := (moment_of nt L).
  Notation unfactorable := (unfactorable srcs nt L).
  Notation factors_of := (factors_of nt L).
  Notation sound_entries := (sound_entries srcs nt L).
  Notation sound_table := (sound_table srcs nt L).
  Notation sound_syms := (sound_syms nt L).
  Notation settles := (settles nt L).

  Lemma sound_to_syms t : sound_entries t -> sound_syms (ft_syms t).
  Proof. intros S0. split; [apply S0|apply S0|exact (se_once _ _ _ _ S0)|exact (se_words _ _ _ _ S0)]. Qed.
  Lemma entry_old t k e : sound_entries t -> nth_error (ft_entries t) k = Some e -> k < length (ft_syms t).
  Proof. intros S0 H. now apply (se_id _ _ _ _ S0 k e). Qed.

  (** more symbols *)
  Lemma syms_sound t more : sound_entries t -> sound_syms (ft_syms t ++ more) -> sound_entries (set_syms t (ft_syms t ++ more)).
  Proof.
    intros S0 S1. pose proof (entry_old t) as Old.
    assert (Bk : forall k e x, nth_error (ft_entries t) k = Some e -> nth_error (ft_syms t ++ more) k = Some x -> nth_error (ft_syms t) k = Some x).
    { intros k e x He Hx. rewrite nth_error_app1 in Hx; [exact Hx|]. eapply Old; eauto. }
    split; unfold symbol_seq, set_syms, find_factors; cbn [ft_syms ft_entries ft_tree]; try (apply S1).
    - intros k e H. destruct (se_id _ _ _ _ S0 k e H) as [E K]. split; [exact E|]. rewrite app_length. lia.
    - intros e I. destruct (se_factors _ _ _ _ S0 e I) as [ks [P F]]. exists ks. split; [exact P|]. eapply forall2_imp; [|exact F].
      intros k q [A B]. split; [now apply nth_app_old|exact B].
    - intros k q e H He. apply (se_entry _ _ _ _ S0 k q e); [exact (Bk k e _ He H)|exact He].
    - intros k e H He. apply (se_created _ _ _ _ S0 k e); [exact (Bk k e _ He H)|exact He].
    - apply (se_shape _ _ _ _ S0).
    - apply (se_tree _ _ _ _ S0).
    - apply (se_found _ _ _ _ S0).
    - apply (se_listed _ _ _ _ S0).
  Qed.
  (** one more entry *)
  Definition good_list (ks : list nat) : Prop := (StronglySorted le ks /\ ~ In 0 ks /\ (In 1 ks -> ks = [1])) \/ (exists l, ks = 0 :: l).
  Lemma push_sound t e : sound_entries t -> fe_id e = length (ft_entries t) -> length (ft_entries t) < length (ft_syms t) ->
    (exists ks, Permutation ks (fe_syms e) /\ Forall2 (fun k q => symbol_seq t k q /\ unfactorable q) ks (fe_seqs e)) ->
    (forall q, symbol_seq t (fe_id e) q -> factors_of q (fe_seqs e) /\ StronglySorted le (fe_syms e)) ->
    (nth_error (ft_syms t) (fe_id e) = Some None -> 2 <= length (fe_syms e)) -> good_list (fe_syms e) ->
    sound_entries (add_index (push_entry grow_to t e) (fe_syms e) (fe_id e)).
  Proof.
    intros S0 Hid Lt HF HE HC HG. destruct (se_tree _ _ _ _ S0) as [h Th].
    assert (Hn : forall k x, nth_error (ft_entries t ++ [e]) k = Some x -> nth_error (ft_entries t) k = Some x \/ (k = fe_id e /\ x = e)).
    { intros k x H. apply nth_app_one in H. rewrite Hid. destruct H; auto. }
    split; unfold symbol_seq, add_index, push_entry; cbn [ft_syms ft_entries ft_tree]; try apply S0.
    - intros k x H. apply Hn in H. destruct H as [H|[-> ->]]; [now apply (se_id _ _ _ _ S0)|]. split; [reflexivity|lia].
    - intros x I. apply in_app_iff in I. destruct I as [I|[<-|[]]]; [now apply (se_factors _ _ _ _ S0)|exact HF].
    - intros k q x Hq H. apply Hn in H. destruct H as [H|[-> ->]]; [now apply (se_entry _ _ _ _ S0 k)|now apply HE].
    - intros k x Hq H. apply Hn in H. destruct H as [H|[-> ->]]; [now apply (se_created _ _ _ _ S0 k)|now apply HC].
    - intros x I. apply in_app_iff in I. destruct I as [I|[<-|[]]]; [now apply (se_shape _ _ _ _ S0)|exact HG].
    - exists (TAdd h (key (fe_syms e)) (fe_id e)). cbn. now rewrite Th.
    - intros ks k H. change (find_factors (add_index (push_entry grow_to t e) (fe_syms e) (fe_id e)) ks = Some k) in H. rewrite (find_add_index _ _ _ _ h) in H by exact Th. destruct (list_eq_dec Nat.eq_dec ks (fe_syms e)) as [->|N].
      + injection H as <-. exists e. split; [|reflexivity]. rewrite Hid, nth_error_app2 by lia. now rewrite Nat.sub_diag.
      + destruct (se_found _ _ _ _ S0 ks k H) as [x [A B]]. exists x. split; [now apply nth_app_old|exact B].
    - intros x I. change (find_factors (add_index (push_entry grow_to t e) (fe_syms e) (fe_id e)) (fe_syms x) <> None). rewrite (find_add_index _ _ _ _ h) by exact Th. destruct (list_eq_dec Nat.eq_dec (fe_syms x) (fe_syms e)) as [Eq|N]; [discriminate|].
      apply in_app_iff in I. destruct I as [I|[<-|[]]]; [now apply (se_listed _ _ _ _ S0)|congruence].
  Qed.

  Lemma sequence_settles t k q : symbol_seq t k q -> settles (fun _ _ => sequence_of (ft_syms t) k) q.
  Proof. intros H. unfold sequence_of. rewrite H. apply settles_ret. Qed.
  Lemma words_ok t k q : sound_entries t -> symbol_seq t k q -> match q with None => True | Some w => simplified c w end.
  Proof. intros S0 H. destruct q as [w|]; [|exact I]. now apply (se_words _ _ _ _ S0 k w). Qed.
  Lemma zero_iff t k q : sound_entries t -> symbol_seq t k q -> (k = 0 <-> q = None).
  Proof. intros S0 H. split; [intros ->; pose proof (se_zero _ _ _ _ S0) as Z; unfold symbol_seq in *; congruence|intros ->; apply (se_once _ _ _ _ S0 _ _ None H); apply S0]. Qed.
  Lemma one_iff t k q : sound_entries t -> symbol_seq t k q -> (k = 1 <-> q = Some []).
  Proof. intros S0 H. split; [intros ->; pose proof (se_one _ _ _ _ S0) as Z; unfold symbol_seq in *; congruence|intros ->; apply (se_once _ _ _ _ S0 _ _ (Some []) H); apply S0]. Qed.
  Lemma moment_length w r : simplified c w -> moment_of w r -> length r = length w.
  Proof.
    intros N Hm. destruct (moment_exists outcomes srcs nt L MK w N) as [r' [A [_ [[s [_ P]] _]]]]. rewrite (moment_same _ _ w r r' Hm A).
    apply Permutation_length in P. now rewrite !map_length in P.
  Qed.
  (** the factors of a sequence make a good list *)
  Lemma factors_good t q qs ks : sound_entries t -> match q with None => True | Some w => simplified c w end -> factors_of q qs ->
    Forall2 (fun k q => symbol_seq t k q /\ unfactorable q) ks qs -> good_list (nsort ks).
  Proof.
    intros S0 N F K. destruct q as [w|].
    2:{ cbn in F. subst qs. inversion K as [|k q l l' [A B] C]; subst. inversion C; subst. apply (zero_iff t) in A; [|exact S0].
        rewrite (proj2 A eq_refl). right. now exists []. }
    destruct F as [fs [rs [A [B ->]]]]. left. split; [apply nsort_sorted|].
    assert (In0 : forall x, In x (nsort ks) <-> In x ks) by (intros x; split; apply Permutation_in; [apply nsort_perm|apply Permutation_sym, nsort_perm]).
    rewrite !In0. split.
    - intros I0. destruct (forall2_in _ _ _ _ K I0) as [q [Iq [Hq _]]]. apply in_map_iff in Iq. destruct Iq as [r [<- _]].
      apply (zero_iff t) in Hq; [|exact S0]. now pose proof (proj1 Hq eq_refl).
    - intros I1. destruct (forall2_in _ _ _ _ K I1) as [q [Iq [Hq _]]]. apply in_map_iff in Iq. destruct Iq as [r [<- Ir]].
      apply (one_iff t) in Hq; [|exact S0]. pose proof (proj1 Hq eq_refl) as E. injection E as ->.
      destruct (forall2_in' _ _ _ _ B Ir) as [f [If Hf]].
      destruct (list_eq_dec Nat.eq_dec w []) as [->|NE].
      + cbn in A. destruct fs as [|g [|g' fs]]; try discriminate. inversion B as [|x y l l' H1 H2]; subst. inversion H2; subst.
        cbn in K. inversion K as [|k q l l' [X1 X2] X3]; subst. inversion X3; subst. destruct I1 as [->|[]]. reflexivity.
      + exfalso. destruct (f_factors outcomes srcs nt L MK w N NE) as [fs' [A' [_ [D _]]]]. rewrite A in A'.
        assert (fs = fs') as <- by (apply (f_equal (map (fun o => match o with Some x => x | None => [] end))) in A'; rewrite !map_map in A'; cbn in A'; now rewrite !map_id in A').
        destruct (D f If) as [Nf [Sf _]]. apply moment_length in Hf; [|exact Sf]. destruct f; [congruence|discriminate].
  Qed.
  Lemma factor_one_spec t id : sound_entries t -> id = length (ft_entries t) -> (exists q, symbol_seq t id q) ->
    exists t' more, settles (fun fuel scratch => factor_one c fuel scratch grow_to t id) t' /\ sound_entries t' /\
      ft_syms t' = ft_syms t ++ map (fun w => Some (Some w)) more /\ (forall w, In w more -> unfactorable (Some w)) /\ length (ft_entries t') = S (length (ft_entries t)).
  Proof.
    intros S0 Hid [q Hq]. pose proof (words_ok t id q S0 Hq) as N. destruct (factorize_raw outcomes srcs nt L MK q N) as [Hr _].
    destruct (factor_symbols_spec outcomes srcs nt L MK _ Hr _ (sound_to_syms t S0)) as [more [qs [ks [P1 [P2 [P3 [P4 P5]]]]]]].
    pose proof (syms_sound t _ S0 P2) as S1. set (t1 := set_syms t _) in *. set (e := mk_fentry id (factorize_seq c q) qs (nsort ks)).
    pose proof (moment_seqs_factors outcomes srcs nt L MK q qs N P3) as F.
    exists (add_index (push_entry grow_to t1 e) (nsort ks) id), more.
    assert (Lt : id < length (ft_syms t)) by (apply nth_error_Some; unfold symbol_seq in Hq; congruence).
    split; [|split; [|split; [reflexivity|split; [exact P5|]]]].
    - unfold factor_one. eapply settles_bind; [apply sequence_settles; exact Hq|]. eapply settles_bind; [exact P1|]. apply settles_ret.
    - apply (push_sound t1 e S1).
      + exact Hid.
      + cbn. rewrite app_length. lia.
      + exists ks. split; [apply Permutation_sym, nsort_perm|exact P4].
      + cbn [fe_id e fe_seqs fe_syms]. intros q' Hq'. split; [|apply nsort_sorted]. replace q' with q; [exact F|].
        unfold symbol_seq, t1 in Hq'. cbn in Hq'. rewrite (nth_app_old _ _ _ _ Hq) in Hq'. congruence.
      + cbn [fe_id e t1 set_syms ft_syms]. rewrite (nth_app_old _ _ _ _ Hq). discriminate.
      + cbn [e fe_syms]. apply (factors_good t1 q qs ks S1 N F P4).
    - cbn. rewrite app_length. cbn. lia.
  Qed.
  Lemma factor_all_spec : forall n t, sound_entries t -> length (ft_entries t) + n <= length (ft_syms t) ->
    (forall k, length (ft_entries t) <= k < length (ft_entries t) + n -> exists q, symbol_seq t k q) ->
    exists t' more, settles (fun fuel scratch => factor_all c fuel scratch grow_to t (seq (length (ft_entries t)) n)) t' /\ sound_entries t' /\
      ft_syms t' = ft_syms t ++ map (fun w => Some (Some w)) more /\ (forall w, In w more -> unfactorable (Some w)) /\ length (ft_entries t') = length (ft_entries t) + n.
  Proof.
    induction n as [|n IH]; intros t S0 Le Hq.
    - exists t, []. cbn. rewrite app_nil_r. split; [apply settles_ret|]. split; [exact S0|]. split; [reflexivity|]. split; [intros w []|lia].
    - destruct (factor_one_spec t (length (ft_entries t)) S0 eq_refl) as [t1 [m1 [A1 [A2 [A3 [A4 A5]]]]]]; [apply Hq; lia|].
      destruct (IH t1 A2) as [t2 [m2 [B1 [B2 [B3 [B4 B5]]]]]].
      + rewrite A3, A5, app_length. lia.
      + rewrite A5. intros k Hk. destruct (Hq k) as [q K]; [lia|]. exists q. unfold symbol_seq. rewrite A3. now apply nth_app_old.
      + exists t2, (m1 ++ m2). split; [|split; [exact B2|split; [|split]]].
        * cbn [seq factor_all]. eapply settles_bind; [exact A1|]. rewrite A5 in B1. exact B1.
        * rewrite B3, A3, map_app, app_assoc. reflexivity.
        * intros w I. apply in_app_iff in I. destruct I; auto.
        * lia.
  Qed.
  Lemma extra_one_spec t id w : sound_entries t -> id = length (ft_entries t) -> symbol_seq t id (Some w) -> unfactorable (Some w) ->
    exists t', settles (fun fuel scratch => extra_one grow_to t id) t' /\ sound_entries t' /\ ft_syms t' = ft_syms t /\ length (ft_entries t') = S (length (ft_entries t)).
  Proof.
    intros S0 Hid Hq U. pose proof (words_ok t id _ S0 Hq) as N. set (e := mk_fentry id [Some w] [Some w] [id]).
    assert (Lt : id < length (ft_syms t)) by (apply nth_error_Some; unfold symbol_seq in Hq; congruence).
    assert (F : factors_of (Some w) [Some w]).
    { exists [w], [w]. split; [now apply (connected_factor outcomes srcs nt L MK)|]. split; [|reflexivity]. constructor; [|constructor].
      destruct (moment_exists outcomes srcs nt L MK w N) as [r [A [_ [_ [_ B]]]]]. rewrite (B (proj2 (se_words _ _ _ _ S0 _ _ Hq))) in A. exact A. }
    exists (add_index (push_entry grow_to t e) [id] id). split; [|split; [|split]].
    - unfold extra_one. eapply settles_bind; [apply sequence_settles; exact Hq|]. apply settles_ret.
    - apply (push_sound t e S0).
      + exact Hid.
      + lia.
      + exists [id]. split; [reflexivity|]. constructor; [split; [exact Hq|exact U]|constructor].
      + cbn. intros q' Hq'. unfold symbol_seq in *. assert (q' = Some w) as -> by congruence. split; [exact F|]. repeat constructor.
      + cbn. unfold symbol_seq in Hq. congruence.
      + cbn. apply (factors_good t (Some w) [Some w] [id] S0 N F). constructor; [split; assumption|constructor].
    - reflexivity.
    - cbn. rewrite app_length. cbn. lia.
  Qed.
  Lemma extra_all_spec : forall n t, sound_entries t -> length (ft_entries t) + n = length (ft_syms t) ->
    (forall k, length (ft_entries t) <= k < length (ft_syms t) -> exists w, symbol_seq t k (Some w) /\ unfactorable (Some w)) ->
    exists t', settles (fun fuel scratch => extra_all grow_to t (seq (length (ft_entries t)) n)) t' /\ sound_table t' /\ ft_syms t' = ft_syms t.
  Proof.
    induction n as [|n IH]; intros t S0 Le Hq.
    - exists t. split; [apply settles_ret|]. split; [|reflexivity]. split; [exact S0|lia].
    - destruct (Hq (length (ft_entries t))) as [w [W1 W2]]; [lia|].
      destruct (extra_one_spec t _ w S0 eq_refl W1 W2) as [t1 [A1 [A2 [A3 A4]]]].
      destruct (IH t1 A2) as [t2 [B1 [B2 B3]]].
      + rewrite A3, A4. lia.
      + rewrite A3, A4. intros k Hk. destruct (Hq k) as [q K]; [lia|]. exists q. unfold symbol_seq. now rewrite A3.
      + exists t2. split; [|split; [exact B2|congruence]]. cbn [seq extra_all]. eapply settles_bind; [exact A1|]. rewrite A4 in B1. exact B1.
  Qed.
  (** symbols after the last entry have sequences *)
  Definition ready (t : ftab) : Prop :=
    sound_entries t /\ length (ft_entries t) <= length (ft_syms t) /\ forall k, length (ft_entries t) <= k < length (ft_syms t) -> exists q, symbol_seq t k q.
  Lemma update_spec t : ready t ->
    exists t' more, settles (fun fuel scratch => update_factors c fuel scratch grow_to t) t' /\ sound_table t' /\ ft_syms t' = ft_syms t ++ map (fun w => Some (Some w)) more.
  Proof.
    intros [S0 [Le Hq]]. unfold update_factors. destruct (Nat.eqb_spec (length (ft_entries t)) (length (ft_syms t))) as [E|NE].
    - exists t, []. split; [apply settles_ret|]. cbn. rewrite app_nil_r. split; [split; [exact S0|lia]|reflexivity].
    - destruct (factor_all_spec (length (ft_syms t) - length (ft_entries t)) t S0) as [t1 [m1 [A1 [A2 [A3 [A4 A5]]]]]]; [lia|intros k Hk; apply Hq; lia|].
      assert (E5 : length (ft_entries t1) = length (ft_syms t)) by lia.
      destruct (extra_all_spec (length m1) t1 A2) as [t2 [B1 [B2 B3]]].
      + rewrite E5, A3, app_length, map_length. reflexivity.
      + rewrite E5, A3, app_length, map_length. intros k Hk. destruct (nth_error m1 (k - length (ft_syms t))) as [w|] eqn:Nw.
        * exists w. split; [|apply A4; eapply nth_error_In; exact Nw]. unfold symbol_seq. rewrite A3, nth_error_app2 by lia.
          now rewrite (map_nth_error _ _ _ Nw).
        * apply nth_error_None in Nw. lia.
      + exists t2, m1. split; [|split; [exact B2|congruence]]. eapply settles_bind; [exact A1|]. rewrite E5 in B1.
        replace (length (ft_syms t1) - length (ft_syms t)) with (length m1) by (rewrite A3, app_length, map_length; lia). exact B1.
  Qed.
  Lemma sound_syms_app l ws : sound_syms l -> NoDup ws -> (forall w, In w ws -> simplified c w /\ can_be_simplified c w = false /\ forall k, nth_error l k <> Some (Some (Some w))) ->
    sound_syms (l ++ map (fun w => Some (Some w)) ws).
  Proof.
    revert l. induction ws as [|w ws IH]; intros l S0 Nd H; [cbn; now rewrite app_nil_r|]. inversion Nd as [|x y N1 N2]; subst.
    cbn. change (Some (Some w) :: map (fun w => Some (Some w)) ws) with ([Some (Some w)] ++ map (fun w => Some (Some w)) ws). rewrite app_assoc. apply IH; [|exact N2|].
    - destruct (H w (or_introl eq_refl)) as [A [B D]]. now apply sound_syms_add.
    - intros v Iv. destruct (H v (or_intror Iv)) as [A [B D]]. split; [exact A|]. split; [exact B|]. intros k K. apply nth_app_one in K.
      destruct K as [K|[_ K]]; [now apply (D k)|]. injection K as ->. contradiction.
  Qed.
  Lemma add_words_spec t ws : sound_table t -> new_words nt L t ws ->
    exists t' more, settles (fun fuel scratch => add_words c fuel scratch grow_to t ws) t' /\ sound_table t' /\ ft_syms t' = ft_syms t ++ map (fun w => Some (Some w)) (ws ++ more).
  Proof.
    intros [S0 Le] [Nd H]. unfold add_words.
    assert (S1 : sound_syms (ft_syms t ++ map (fun w => Some (Some w)) ws)).
    { apply sound_syms_app; [now apply sound_to_syms|exact Nd|]. intros w I. destruct (H w I) as [A [B D]]. auto. }
    destruct (update_spec (set_syms t (ft_syms t ++ map (fun w => Some (Some w)) ws))) as [t' [more [A [B D]]]].
    - split; [now apply syms_sound|]. cbn. rewrite app_length, map_length, Le. split; [lia|]. intros k Hk.
      destruct (nth_error ws (k - length (ft_syms t))) as [w|] eqn:Nw.
      + exists (Some w). unfold symbol_seq. cbn. rewrite nth_error_app2 by lia. now rewrite (map_nth_error _ _ _ Nw).
      + apply nth_error_None in Nw. lia.
    - exists t', more. split; [exact A|]. split; [exact B|]. rewrite D. cbn. now rewrite map_app, app_assoc.
  Qed.
  Lemma new_table_spec : exists t, settles (fun fuel scratch => new_table c fuel scratch grow_to) t /\ sound_table t /\ exists more, ft_syms t = Some None :: Some (Some []) :: map (fun w => Some (Some w)) more.
  Proof.
    unfold new_table. destruct (update_spec (mk_ftab [Some None; Some (Some [])] [] 0 t_root)) as [t' [more [A [B D]]]].
    - split; [|split; [cbn; lia|]].
      + split; unfold symbol_seq, find_factors; cbn.
        * reflexivity.
        * reflexivity.
        * intros [|[|[|i]]] [|[|[|j]]] q; cbn; congruence.
        * intros [|[|[|k]]] w; cbn; intros E; try discriminate. injection E as <-. split; [apply nil_simplified|]. unfold can_be_simplified. 
          destruct (moment_exists outcomes srcs nt L MK [] (nil_simplified nt L)) as [r [_ [_ [[s [_ P]] [X _]]]]].
          cbn in P. apply Permutation_sym, Permutation_nil, map_eq_nil in P. subst r. exact X.
        * intros [|k] e H; discriminate.
        * intros e [].
        * intros [|k] q e _ H; discriminate.
        * intros [|k] e _ H; discriminate.
        * intros e [].
        * now exists TNew.
        * intros ks k H. destruct (key ks); discriminate.
        * intros e [].
      + cbn. intros k Hk. destruct k as [|[|k]]; [eexists; reflexivity..|lia].
    - exists t'. split; [exact A|]. split; [exact B|]. exists more. exact D.
  Qed.
End Table.
