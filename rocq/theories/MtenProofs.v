(** Proofs about tensors made on first use. *)
From Coq Require Import List Arith Bool Lia.
From Verif Require Import MtenModel MtenSpec.
Import ListNotations.

Section P.
  Variables (total : nat) (can_fc : bool).
  Notation tstep := (tstep total can_fc).
  Notation trun := (trun total can_fc).
  Notation thread_step := (thread_step total can_fc).

  Definition setq (q : treq) (x : tthread) (i : nat) (l : list tthread) := firstn i l ++ x :: skipn (S i) l.
  Lemma put_nth (A : Type) : forall (l : list A) i j t x, nth_error l i = Some t -> nth_error (firstn i l ++ x :: skipn (S i) l) j = if Nat.eqb j i then Some x else nth_error l j.
  Proof.
    induction l as [|y l IH]; intros i j t x H; [destruct i; discriminate|].
    destruct i as [|i].
    - destruct j; reflexivity.
    - destruct j as [|j]; [reflexivity|]. cbn in H. exact (IH i j t x H).
  Qed.
  Lemma put_length (A : Type) : forall (l : list A) i t x, nth_error l i = Some t -> length (firstn i l ++ x :: skipn (S i) l) = length l.
  Proof.
    induction l as [|y l IH]; intros i t x H; [destruct i; discriminate|].
    destruct i as [|i]; [reflexivity|]. cbn in H. change (S (length (firstn i l ++ x :: skipn (S i) l)) = S (length l)). f_equal. exact (IH i t x H).
  Qed.

  (** ** What a step may change *)
  Record later (s s' : tshared) : Prop := mk_later {
    la_known : sh_known s <= sh_known s';
    la_obj : forall q id n, sh_obj q s = Some (id, n) -> exists n', sh_obj q s' = Some (id, n') /\ n <= n';
    la_new : forall q id n, q = TFc \/ q = TPt -> sh_obj q s = None -> sh_obj q s' = Some (id, n) -> sh_cg s = Some (id, n) }.
  Lemma later_refl s : later s s.
  Proof. split; [lia| |]; [intros q id n H; exists n; split; [exact H|lia]|intros q id n _ H H'; congruence]. Qed.

  Definition real_req (q : treq) : Prop := match q with TGrow _ => False | _ => True end.
  Definition object_req (q : treq) : Prop := q = TFc \/ q = TPt.
  Definition done (q : treq) (b : bool) (s : tshared) : Prop := exists id n, sh_obj q s = Some (id, n) /\ (b = true -> n = total).
  (** [F]: every symbol is known from the start *)
  Variable F : Prop.
  Definition cg_full (s : tshared) : Prop := F -> exists id, sh_cg s = Some (id, total).
  Definition pc_ok (s : tshared) (p : tpc) : Prop :=
    match p with
    | Idle => True
    | CgTest q => real_req q
    | CgMake q => real_req q /\ sh_cg s = None
    | CgFill q => real_req q /\ sh_cg s <> None
    | CgBack q b => real_req q /\ done TCg b s /\ cg_full s /\ (F -> b = true)
    | ObTest q => object_req q /\ sh_cg s <> None /\ cg_full s
    | ObMake q => object_req q /\ sh_cg s <> None /\ cg_full s /\ (F -> forall id n, sh_obj q s = Some (id, n) -> n = total)
    | ObFill q => object_req q /\ sh_obj q s <> None /\ cg_full s
    | ObBack q b => object_req q /\ done q b s /\ (F -> b = true)
    | Use q b => real_req q /\ done q b s /\ (F -> b = true)
    end.
  Definition log_ok (s : tshared) (l : list (treq * option bool)) : Prop :=
    forall q o, In (q, o) l -> real_req q -> (o = None /\ q = TFc /\ can_fc = false) \/ (exists b, o = Some b /\ done q b s).
  Definition log_full (l : list (treq * option bool)) : Prop :=
    forall q o, In (q, o) l -> real_req q -> (o = None /\ q = TFc /\ can_fc = false) \/ o = Some true.

  Lemma done_later q b s s' : later s s' -> consistent total s' -> done q b s -> done q b s'.
  Proof.
    intros L C (id & n & E & B). destruct (la_obj _ _ L _ _ _ E) as (n' & E' & Le). exists id, n'. split; [exact E'|].
    intros Hb. specialize (B Hb).
    assert (n' <= total); [|lia].
    destruct q as [| | |k].
    - pose proof (proj2 (co_cg _ _ C _ _ E')). pose proof (co_known _ _ C). lia.
    - destruct (co_obj _ _ C TFc _ _ (or_introl eq_refl) E') as (m & Em & Lm). pose proof (proj2 (co_cg _ _ C _ _ Em)). pose proof (co_known _ _ C). lia.
    - destruct (co_obj _ _ C TPt _ _ (or_intror eq_refl) E') as (m & Em & Lm). pose proof (proj2 (co_cg _ _ C _ _ Em)). pose proof (co_known _ _ C). lia.
    - pose proof (proj2 (co_cg _ _ C _ _ E')). pose proof (co_known _ _ C). lia.
  Qed.

  Lemma later_cg s s' : later s s' -> sh_cg s <> None -> sh_cg s' <> None.
  Proof.
    intros L H. destruct (sh_cg s) as [[id n]|] eqn:E; [|congruence]. destruct (la_obj _ _ L TCg id n E) as (n' & E' & _). cbn in E'. congruence.
  Qed.
  Lemma later_some q s s' : later s s' -> sh_obj q s <> None -> sh_obj q s' <> None.
  Proof.
    intros L H. destruct (sh_obj q s) as [[id n]|] eqn:E; [|congruence]. destruct (la_obj _ _ L q id n E) as (n' & E' & _). congruence.
  Qed.
  Lemma later_full s s' : later s s' -> consistent total s' -> cg_full s -> cg_full s'.
  Proof.
    intros L C H HF. destruct (H HF) as (id & E). destruct (la_obj _ _ L TCg id total E) as (n' & E' & Le). cbn in E'. exists id. rewrite E'. f_equal. f_equal.
    pose proof (proj2 (co_cg _ _ C _ _ E')). pose proof (co_known _ _ C). lia.
  Qed.
  Lemma pc_later s s' p : later s s' -> consistent total s' -> sh_cg s <> None -> pc_ok s p -> pc_ok s' p.
  Proof.
    intros L C G H. destruct p as [|q|q|q|q b|q|q|q|q b|q b]; cbn in *; auto.
    - destruct H as (_ & H). congruence.
    - split; [apply H|]. exact (later_cg _ _ L G).
    - destruct H as (H1 & H2 & H3 & H4). split; [exact H1|]. split; [exact (done_later _ _ _ _ L C H2)|]. split; [exact (later_full _ _ L C H3)|exact H4].
    - destruct H as (H1 & H2 & H3). split; [exact H1|]. split; [exact (later_cg _ _ L G)|exact (later_full _ _ L C H3)].
    - destruct H as (H1 & H2 & H3 & H4). split; [exact H1|]. split; [exact (later_cg _ _ L G)|]. split; [exact (later_full _ _ L C H3)|].
      intros HF id n E'. destruct (sh_obj q s) as [[id0 n0]|] eqn:E.
      + specialize (H4 HF _ _ eq_refl). subst n0.
        assert (D : done q true s) by (exists id0, total; split; [exact E|reflexivity]).
        destruct (done_later _ _ _ _ L C D) as (id1 & n1 & E1 & T1). rewrite E' in E1. injection E1 as _ <-. exact (T1 eq_refl).
      + pose proof (la_new _ _ L q id n H1 E E') as Ec. destruct (H3 HF) as (id1 & E1). rewrite Ec in E1. injection E1 as _ ->. reflexivity.
    - destruct H as (H1 & H2 & H3). split; [exact H1|]. split; [exact (later_some _ _ _ L H2)|exact (later_full _ _ L C H3)].
    - destruct H as (H1 & H2 & H3). split; [exact H1|]. split; [exact (done_later _ _ _ _ L C H2)|exact H3].
    - destruct H as (H1 & H2 & H3). split; [exact H1|]. split; [exact (done_later _ _ _ _ L C H2)|exact H3].
  Qed.
  Lemma log_later s s' l : later s s' -> consistent total s' -> log_ok s l -> log_ok s' l.
  Proof.
    intros L C H q o I R. destruct (H q o I R) as [N|(b & E & D)]; [left; exact N|right; exists b; split; [exact E|exact (done_later _ _ _ _ L C D)]].
  Qed.

  (** ** One step of one thread *)
  Lemma eqb_true_iff_imp a b : (Nat.eqb a b = true -> a = b).
  Proof. apply Nat.eqb_eq. Qed.
  Lemma same_cg_consistent s : consistent total s -> forall s', s' = s -> consistent total s'.
  Proof. intros C s' ->. exact C. Qed.

  Definition thread_ok (s : tshared) (t : tthread) : Prop := pc_ok s (tt_pc t) /\ log_ok s (tt_log t) /\ (F -> log_full (tt_log t)).

  Lemma obj_none s q : consistent total s -> object_req q -> sh_cg s = None -> sh_obj q s = None.
  Proof. intros C Q E. destruct (sh_obj q s) as [[r n]|] eqn:Eo; [|reflexivity]. destruct (co_obj _ _ C _ _ _ Q Eo) as (m & Em & _). congruence. Qed.
  Lemma set_same q x s : sh_obj q (set_obj q x s) = x.
  Proof. destruct q; reflexivity. Qed.
  Lemma set_cg q x s : object_req q -> sh_cg (set_obj q x s) = sh_cg s.
  Proof. intros [->| ->]; reflexivity. Qed.
  Lemma set_known q x s : sh_known (set_obj q x s) = sh_known s.
  Proof. destruct q; reflexivity. Qed.
  Lemma set_fresh q x s : sh_fresh (set_obj q x s) = sh_fresh s.
  Proof. destruct q; reflexivity. Qed.
  Lemma set_bad q x s : sh_bad (set_obj q x s) = sh_bad s.
  Proof. destruct q; reflexivity. Qed.
  Lemma set_other q q' x s : object_req q -> (sh_obj q' (set_obj q x s) = sh_obj q' s) \/ q' = q.
  Proof. intros [->| ->]; destruct q'; auto. Qed.

  Lemma grow_step s n : consistent total s ->
    let s' := mk_ts (Nat.min total (sh_known s + n)) (sh_cg s) (sh_fresh s) (sh_fc s) (sh_pt s) (sh_bad s) in
    consistent total s' /\ later s s' /\ (sh_known s = total -> sh_known s' = total).
  Proof.
    intros C s'. pose proof (co_known _ _ C) as K. split; [|split].
    - split; cbn; [lia| |exact (co_obj _ _ C)|exact (co_good _ _ C)].
      intros id m E. destruct (co_cg _ _ C id m E). lia.
    - split; cbn [s' sh_known]; [cbn; lia| |]; [intros q id m H; exists m; split; [exact H|lia]|intros q id m _ H H'].
      assert (X : sh_obj q s' = sh_obj q s) by (destruct q; reflexivity). congruence.
    - cbn. lia.
  Qed.
  Lemma make_step s : consistent total s -> sh_cg s = None ->
    let s' := mk_ts (sh_known s) (Some (sh_fresh s, sh_known s)) (S (sh_fresh s)) (sh_fc s) (sh_pt s) (sh_bad s) in
    consistent total s' /\ later s s'.
  Proof.
    intros C N s'. pose proof (co_known _ _ C) as K.
    pose proof (obj_none s TFc C (or_introl eq_refl) N) as NF. pose proof (obj_none s TPt C (or_intror eq_refl) N) as NP. cbn in NF, NP.
    split.
    - split; cbn; [exact K| | |exact (co_good _ _ C)].
      + intros id m E. injection E as <- <-. lia.
      + intros q r m [->| ->] E; cbn in E; congruence.
    - split; [cbn; lia| |].
      + intros q id m H. exfalso. destruct q; cbn in H; congruence.
      + intros q id m [->| ->] _ H; cbn in H; congruence.
  Qed.
  Lemma fill_step s id n : consistent total s -> sh_cg s = Some (id, n) ->
    let s' := set_obj TCg (Some (id, sh_known s)) s in consistent total s' /\ later s s'.
  Proof.
    intros C E s'. pose proof (co_known _ _ C) as K. destruct (co_cg _ _ C _ _ E) as (K1 & K2).
    split.
    - split; cbn; [exact K| | |exact (co_good _ _ C)].
      + intros id' m E'. injection E' as <- <-. split; [exact K1|lia].
      + intros q r m Q Eo. assert (Eo' : sh_obj q s = Some (r, m)) by (destruct Q as [->| ->]; exact Eo).
        destruct (co_obj _ _ C q r m Q Eo') as (m' & Em & Lm). rewrite E in Em. injection Em as <- <-. exists (sh_known s). split; [reflexivity|lia].
    - split; [cbn; lia| |].
      + intros q id' m H. destruct q as [| | |k]; cbn in H |- *; try (exists m; split; [exact H|lia]);
          rewrite E in H; injection H as <- <-; exists (sh_known s); split; (reflexivity || exact K2).
      + intros q id' m [->| ->] H H'; cbn in H, H'; congruence.
  Qed.
  Lemma object_step s q id n : consistent total s -> object_req q -> sh_cg s = Some (id, n) ->
    (sh_obj q s = None \/ exists m, sh_obj q s = Some (id, m)) ->
    let s' := set_obj q (Some (id, n)) s in consistent total s' /\ later s s'.
  Proof.
    intros C Q E O s'.
    split.
    - split; unfold s'.
      + rewrite set_known. exact (co_known _ _ C).
      + rewrite set_known, set_fresh, (set_cg _ _ _ Q). exact (co_cg _ _ C).
      + intros q' r m Q' Eo. rewrite (set_cg _ _ _ Q). destruct (set_other q q' (Some (id, n)) s Q) as [X| ->].
        * rewrite X in Eo. exact (co_obj _ _ C q' r m Q' Eo).
        * rewrite set_same in Eo. injection Eo as <- <-. exists n. split; [exact E|lia].
      + rewrite set_bad. exact (co_good _ _ C).
    - split; unfold s'.
      + rewrite set_known. lia.
      + intros q' id' m H. destruct (set_other q q' (Some (id, n)) s Q) as [X| ->].
        * rewrite X. exists m. split; [exact H|lia].
        * rewrite set_same. destruct O as [O|(m' & O)]; rewrite O in H; [discriminate|]. injection H as <- <-. exists n. split; [reflexivity|].
          destruct (co_obj _ _ C q _ _ Q O) as (m2 & E2 & L2). rewrite E in E2. injection E2 as <-. exact L2.
      + intros q' id' m Q' H H'. destruct (set_other q q' (Some (id, n)) s Q) as [X| ->].
        * congruence.
        * rewrite set_same in H'. injection H' as <- <-. exact E.
  Qed.

  Lemma log_app_ok s l q o : log_ok s l -> (real_req q -> (o = None /\ q = TFc /\ can_fc = false) \/ (exists b, o = Some b /\ done q b s)) -> log_ok s (l ++ [(q, o)]).
  Proof.
    intros H1 H2 q' o' I R. apply in_app_or in I. destruct I as [I|[E|[]]]; [exact (H1 _ _ I R)|]. injection E as <- <-. exact (H2 R).
  Qed.
  Lemma log_app_full l q o : log_full l -> (real_req q -> (o = None /\ q = TFc /\ can_fc = false) \/ o = Some true) -> log_full (l ++ [(q, o)]).
  Proof.
    intros H1 H2 q' o' I R. apply in_app_or in I. destruct I as [I|[E|[]]]; [exact (H1 _ _ I R)|]. injection E as <- <-. exact (H2 R).
  Qed.
  Lemma req_object q : real_req q -> (q = TCg /\ (forall b, after_cg q b = Use q b)) \/ (object_req q /\ forall b, after_cg q b = ObTest q).
  Proof. unfold object_req. destruct q; cbn; intros H; auto; contradiction. Qed.
  Lemma object_real q : object_req q -> real_req q.
  Proof. intros [->| ->]; exact I. Qed.
  Lemma after_ok s q b : consistent total s -> real_req q -> done TCg b s -> cg_full s -> (F -> b = true) -> pc_ok s (after_cg q b).
  Proof.
    intros C R D G B. destruct (req_object q R) as [(-> & X)|(Q & X)]; rewrite X; cbn.
    - split; [exact I|]. split; [exact D|exact B].
    - split; [exact Q|]. split; [|exact G]. destruct D as (id & n & E & _). cbn in E. congruence.
  Qed.
  Lemma deref_ok s q r n : consistent total s -> object_req q -> sh_obj q s = Some (r, n) -> exists m, deref r s = Some (r, m) /\ sh_cg s = Some (r, m) /\ n <= m.
  Proof.
    intros C Q E. destruct (co_obj _ _ C q r n Q E) as (m & Em & Lm). exists m. split; [|split; [exact Em|exact Lm]]. unfold deref. rewrite Em, Nat.eqb_refl. reflexivity.
  Qed.

  Lemma step_ok alone t s t' s' :
    consistent total s -> (F -> sh_known s = total) -> thread_ok s t -> thread_step alone t s = Some (t', s') ->
    consistent total s' /\ later s s' /\ (F -> sh_known s' = total) /\ thread_ok s' t'.
  Proof.
    intros C HF (P & Lg & Lf) H. unfold MtenModel.thread_step in H.
    pose proof (co_known _ _ C) as K.
    assert (keep : forall p, pc_ok s p -> Some (mk_tt (tt_todo t) p (tt_log t), s) = Some (t', s') ->
              consistent total s' /\ later s s' /\ (F -> sh_known s' = total) /\ thread_ok s' t').
    { intros p Pp E. injection E as <- <-. split; [exact C|]. split; [apply later_refl|]. split; [exact HF|]. split; [exact Pp|]. split; [exact Lg|exact Lf]. }
    assert (move : forall p s1, consistent total s1 -> later s s1 -> sh_known s1 = sh_known s -> pc_ok s1 p -> Some (mk_tt (tt_todo t) p (tt_log t), s1) = Some (t', s') ->
              consistent total s' /\ later s s' /\ (F -> sh_known s' = total) /\ thread_ok s' t').
    { intros p s1 C1 L1 K1 Pp E. injection E as <- <-. split; [exact C1|]. split; [exact L1|]. split; [intros f; rewrite K1; exact (HF f)|].
      split; [exact Pp|]. split; [exact (log_later _ _ _ L1 C1 Lg)|exact Lf]. }
    destruct (tt_pc t) as [|q|q|q|q b|q|q|q|q b|q b] eqn:Ep; cbn [pc_ok] in P.
    - destruct (tt_todo t) as [|[| | |n] r] eqn:Et; [discriminate| | | |].
      1-3: injection H as <- <-; split; [exact C|]; split; [apply later_refl|]; split; [exact HF|]; split; [exact I|]; split; [exact Lg|exact Lf].
      destruct alone; [|discriminate]. injection H as <- <-.
      destruct (grow_step s n C) as (C1 & L1 & K1). split; [exact C1|]. split; [exact L1|]. split; [intros f; exact (K1 (HF f))|].
      split; [exact I|]. cbn [tt_log]. split.
      + apply log_app_ok; [exact (log_later _ _ _ L1 C1 Lg)|intros []].
      + intros f. apply log_app_full; [exact (Lf f)|intros []].
    - destruct (sh_cg s) as [x|] eqn:E; [destruct (complete total x) eqn:Ex|].
      + apply (keep _) in H; [exact H|]. destruct x as [id n]. unfold complete in Ex. cbn in Ex. apply Nat.eqb_eq in Ex. subst n.
        apply after_ok; [exact C|exact P|exists id, total; split; [exact E|reflexivity]|intros _; exists id; exact E|reflexivity].
      + apply (keep _) in H; [exact H|]. cbn. split; [exact P|congruence].
      + apply (keep _) in H; [exact H|]. cbn. split; [exact P|exact E].
    - destruct alone; [|discriminate]. destruct P as (R & N). destruct (make_step s C N) as (C1 & L1).
      apply (move _ _ C1 L1 eq_refl) in H; [exact H|]. cbn. split; [exact R|]. split; [|split].
      + exists (sh_fresh s), (sh_known s). split; [reflexivity|]. apply Nat.eqb_eq.
      + intros f. exists (sh_fresh s). cbn. rewrite (HF f). reflexivity.
      + intros f. apply Nat.eqb_eq. exact (HF f).
    - destruct alone; [|discriminate]. destruct P as (R & N). destruct (sh_cg s) as [[id n]|] eqn:E; [|congruence].
      destruct (fill_step s id n C E) as (C1 & L1). apply (move _ _ C1 L1 eq_refl) in H; [exact H|]. cbn. split; [exact R|]. split; [|split].
      + exists id, (sh_known s). split; [reflexivity|]. apply Nat.eqb_eq.
      + intros f. exists id. cbn. rewrite (HF f). reflexivity.
      + intros f. apply Nat.eqb_eq. exact (HF f).
    - destruct P as (R & D & G & B). apply (keep _) in H; [exact H|]. apply after_ok; assumption.
    - destruct P as (Q & N & G). destruct (sh_obj q s) as [[id n]|] eqn:E; [destruct (complete total (id, n)) eqn:Ex|].
      + apply (keep _) in H; [exact H|]. unfold complete in Ex. cbn in Ex. apply Nat.eqb_eq in Ex. subst n. cbn. split; [exact (object_real q Q)|]. split; [|reflexivity].
        exists id, total. split; [exact E|reflexivity].
      + apply (keep _) in H; [exact H|]. cbn. split; [exact Q|]. split; [congruence|exact G].
      + destruct (match q with TFc => can_fc | _ => true end) eqn:Ec.
        * apply (keep _) in H; [exact H|]. cbn. split; [exact Q|]. split; [exact N|]. split; [exact G|]. intros _ id n X. congruence.
        * assert (Eq : q = TFc /\ can_fc = false) by (destruct Q as [->| ->]; [split; [reflexivity|exact Ec]|discriminate]).
          injection H as <- <-. split; [exact C|]. split; [apply later_refl|]. split; [exact HF|]. split; [exact I|]. cbn [tt_log]. split.
          -- apply log_app_ok; [exact Lg|]. intros _. left. split; [reflexivity|exact Eq].
          -- intros f. apply log_app_full; [exact (Lf f)|]. intros _. left. split; [reflexivity|exact Eq].
    - destruct alone; [|discriminate]. destruct P as (Q & N & G & B). destruct (sh_obj q s) as [[id n]|] eqn:E.
      + apply (keep _) in H; [exact H|]. cbn. split; [exact Q|]. split; [exists id, n; split; [exact E|unfold complete; cbn; apply Nat.eqb_eq]|].
        intros f. unfold complete. cbn. apply Nat.eqb_eq. exact (B f id n eq_refl).
      + destruct (sh_cg s) as [[id n]|] eqn:Ec; [|congruence].
        destruct (object_step s q id n C Q Ec (or_introl E)) as (C1 & L1). apply (move _ _ C1 L1 (set_known _ _ _)) in H; [exact H|]. cbn. split; [exact Q|]. split.
        * exists id, n. split; [apply set_same|unfold complete; cbn; apply Nat.eqb_eq].
        * intros f. unfold complete. cbn. apply Nat.eqb_eq. destruct (G f) as (id' & E'). congruence.
    - destruct alone; [|discriminate]. destruct P as (Q & N & G). destruct (sh_obj q s) as [[r n]|] eqn:E; [|congruence].
      destruct (Nat.eqb n total) eqn:En.
      + apply Nat.eqb_eq in En. subst n. apply (keep _) in H; [exact H|]. cbn. split; [exact Q|]. split; [exists r, total; split; [exact E|reflexivity]|reflexivity].
      + destruct (deref_ok s q r n C Q E) as (m & Ed & Ec & Lm). rewrite Ed in H.
        destruct (object_step s q r m C Q Ec (or_intror (ex_intro _ n E))) as (C1 & L1). apply (move _ _ C1 L1 (set_known _ _ _)) in H; [exact H|]. cbn. split; [exact Q|]. split.
        * exists r, m. split; [apply set_same|apply Nat.eqb_eq].
        * intros f. apply Nat.eqb_eq. destruct (G f) as (id' & E'). congruence.
    - destruct P as (Q & D & B). apply (keep _) in H; [exact H|]. cbn. split; [exact (object_real q Q)|]. split; [exact D|exact B].
    - destruct P as (R & D & B).
      assert (X : Some (mk_tt (tt_todo t) Idle (tt_log t ++ [(q, Some b)]), s) = Some (t', s')).
      { rewrite <- H. clear H. destruct D as (id & n & E & _).
        destruct (req_object q R) as [(-> & _)|(Q & _)]; [cbn in E |- *; rewrite E; reflexivity|].
        destruct (deref_ok s q id n C Q E) as (m & Ed & _). destruct Q as [->| ->]; cbn in E |- *; rewrite E, Ed; reflexivity. }
      injection X as <- <-. split; [exact C|]. split; [apply later_refl|]. split; [exact HF|]. split; [exact I|]. cbn [tt_log]. split.
      + apply log_app_ok; [exact Lg|]. intros _. right. exists b. split; [reflexivity|exact D].
      + intros f. apply log_app_full; [exact (Lf f)|]. intros _. right. rewrite (B f). reflexivity.
  Qed.
End P.
