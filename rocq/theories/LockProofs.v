From Coq Require Import List Arith Bool Lia.
From Verif Require Import ParModel ParProofs LockModel LockSpec.
Import ListNotations.

Section Lock.
  Context {S L : Type} (l0 : L).
  Implicit Types (m : S) (l : L).
  Notation seq := (sequential l0).

  Lemma seq_snoc m0 log m t o : seq m0 log m -> seq m0 (log ++ [(t, o, snd (run_lop l0 o m))]) (fst (run_lop l0 o m)).
  Proof. induction 1; cbn; [repeat constructor|]. now constructor. Qed.
  Lemma seq_fun m0 log m m' : seq m0 log m -> seq m0 log m' -> m = m'.
  Proof. induction 1; intros H'; inversion H'; subst; auto. Qed.

  Definition left_of (x : S * L) (rest : list (S * L -> S * L)) := fold_left (fun x f => f x) rest x.
  Lemma reads_run (rest : list (S * L -> S * L)) : (forall f, In f rest -> forall m l, fst (f (m, l)) = m) -> forall m l, fst (left_of (m, l) rest) = m.
  Proof.
    induction rest as [|f rest IH]; intros H m l; cbn; auto. unfold left_of in *. cbn. destruct (f (m, l)) as [m1 l1] eqn:E.
    pose proof (H f (or_introl eq_refl) m l) as H1. rewrite E in H1. cbn in H1. subst. apply IH. intros g G. apply H. now right.
  Qed.

  (** the invariant of executions; [ps] programs, [m0] initial memory *)
  Record linv (ps : list (prog S L)) (m0 : S) (st : lstate S L) : Prop := {
    li_len : length (l_ths st) = length ps;
    li_seq : exists m, seq m0 (l_log st) m /\
      (forall t o rest l k, nth_error (l_ths st) t = Some (TBusy o rest l k) ->
         left_of (l_mem st, l) rest = run_lop l0 o m /\ (lo_excl o = false -> l_mem st = m /\ forall f, In f rest -> forall m l, fst (f (m, l)) = m)) /\
      ((forall th, In th (l_ths st) -> busy_excl th = false) -> l_mem st = m);
    li_excl : forall t th u th', nth_error (l_ths st) t = Some th -> busy_excl th = true -> nth_error (l_ths st) u = Some th' -> u <> t -> busy th' = false;
    li_tids : Forall (fun e => fst (fst e) < length ps) (l_log st);
    li_prog : forall t th p, nth_error (l_ths st) t = Some th -> nth_error ps t = Some p ->
      follows t p (l_log st) /\ disciplined p /\
      exists q, remaining t p (l_log st) = Some q /\ match th with TIdle q' => q' = q | TBusy o _ _ k => q = POp o k end
  }.

  Lemma remaining_disc t : forall log (p q : prog S L), disciplined p -> remaining t p log = Some q -> disciplined q.
  Proof.
    induction log as [|[[t' o] l] log IH]; intros p q D; cbn; [now intros [= <-]|].
    destruct (Nat.eqb t' t); [|now apply IH]. inversion D; subst; [discriminate|]. now apply IH.
  Qed.
  Lemma remaining_snoc t u (o : lop S L) (l : L) : forall log p q, remaining t p log = Some q ->
    remaining t p (log ++ [(u, o, l)]) = if Nat.eqb u t then match q with POp _ k => Some (k l) | PDone _ => None end else Some q.
  Proof.
    induction log as [|[[t' o'] l'] log IH]; intros p q; cbn; [intros [= <-]; destruct (Nat.eqb u t); auto; destruct p; auto|].
    destruct (Nat.eqb t' t); [|now apply IH]. destruct p; [discriminate|]. now apply IH.
  Qed.
  Lemma follows_snoc t u (o : lop S L) (l : L) : forall log p q, follows t p log -> remaining t p log = Some q ->
    (u = t -> exists k, q = POp o k) -> follows t p (log ++ [(u, o, l)]).
  Proof.
    induction log as [|[[t' o'] l'] log IH]; intros p q F R K; cbn in *.
    - injection R as <-. destruct (Nat.eqb_spec u t); auto. destruct (K e) as [k ->]. auto.
    - destruct (Nat.eqb t' t); [|eauto]. destruct p; [discriminate|]. destruct F. eauto.
  Qed.

  Lemma start_linv ps m0 : Forall disciplined ps -> linv ps m0 (lstart ps m0).
  Proof.
    intros D. unfold lstart. constructor; cbn.
    - apply map_length.
    - exists m0. split; [constructor|]. split; [|auto]. intros t o rest l k H. rewrite nth_error_map in H. destruct (nth_error ps t); discriminate.
    - intros t th u th' H B. rewrite nth_error_map in H. destruct (nth_error ps t); [|discriminate]. injection H as <-. discriminate.
    - constructor.
    - intros t th p H P. rewrite nth_error_map, P in H. injection H as <-. split; [exact I|]. split; [rewrite Forall_forall in D; eauto using nth_error_In|]. eauto.
  Qed.

  Lemma in_nth {A} (x : A) xs : In x xs -> exists t, nth_error xs t = Some x.
  Proof. apply In_nth_error. Qed.

  Lemma step_linv ps m0 st t st' : linv ps m0 st -> lstep l0 st t st' -> linv ps m0 st'.
  Proof.
    intros [LEN (m & SQ & BUSY & FREE) EX TI PR] ST. destruct ST as [ths mm log t o k E X F|ths mm log t o k E X F|ths mm log t o f rest l k E|ths mm log t o l k E];
      cbn [l_ths l_mem l_log] in *.
    - (* shared *)
      assert (P : exists p, nth_error ps t = Some p).
      { destruct (nth_error ps t) eqn:N; eauto. apply nth_error_None in N. assert (t < length ths) by (apply nth_error_Some; congruence). lia. }
      destruct P as [p P]. destruct (PR t _ p E P) as (FO & DI & q & RE & <-).
      assert (RO : reads_only o) by (pose proof (remaining_disc _ _ _ _ DI RE) as D'; now inversion D').
      pose proof (FREE F) as ->.
      constructor; cbn [l_ths l_mem l_log].
      + now rewrite set_at_length.
      + exists m. split; auto. split; auto. intros u o' rest l k' H. rewrite set_at_nth, E in H. destruct (Nat.eqb_spec u t).
        * injection H as <- <- <- <-. split; [reflexivity|]. intros _. split; auto.
        * now apply (BUSY u _ _ _ k').
      + intros u th v th' H B H' NE. rewrite set_at_nth, E in H, H'. destruct (Nat.eqb_spec u t).
        * injection H as <-. cbn in B. congruence.
        * rewrite (F th) in B; [discriminate|eauto using nth_error_In].
      + exact TI.
      + intros u th p' H P'. rewrite set_at_nth, E in H. destruct (Nat.eqb_spec u t).
        * injection H as <-. subst. rewrite P in P'. injection P' as <-. split; auto. split; auto. exists (POp o k). auto.
        * now apply PR.
    - (* exclusive *)
      assert (P : exists p, nth_error ps t = Some p).
      { destruct (nth_error ps t) eqn:N; eauto. apply nth_error_None in N. assert (t < length ths) by (apply nth_error_Some; congruence). lia. }
      destruct P as [p P]. destruct (PR t _ p E P) as (FO & DI & q & RE & <-).
      assert (FF : forall th, In th ths -> busy_excl th = false).
      { intros th TH. specialize (F th TH). destruct th; cbn in *; congruence. }
      pose proof (FREE FF) as ->.
      constructor; cbn [l_ths l_mem l_log].
      + now rewrite set_at_length.
      + exists m. split; auto. split; auto. intros u o' rest l k' H. rewrite set_at_nth, E in H. destruct (Nat.eqb_spec u t).
        * injection H as <- <- <- <-. split; [reflexivity|]. congruence.
        * apply nth_error_In, F in H. discriminate.
      + intros u th v th' H B H' NE. rewrite set_at_nth, E in H, H'. destruct (Nat.eqb_spec u t).
        * destruct (Nat.eqb_spec v t); [congruence|]. apply F. eauto using nth_error_In.
        * rewrite (FF th) in B; [discriminate|eauto using nth_error_In].
      + exact TI.
      + intros u th p' H P'. rewrite set_at_nth, E in H. destruct (Nat.eqb_spec u t).
        * injection H as <-. subst. rewrite P in P'. injection P' as <-. split; auto. split; auto. exists (POp o k). auto.
        * now apply PR.
    - (* one action *)
      destruct (BUSY _ _ _ _ _ E) as [LF SH].
      assert (ME : lo_excl o = false -> fst (f (mm, l)) = mm) by (intros X; apply SH in X as [-> RO]; apply RO; now left).
      assert (OTH : forall u th, u <> t -> nth_error ths u = Some th -> busy th = true -> lo_excl o = false).
      { intros u th NE H B. destruct (lo_excl o) eqn:X; auto. rewrite (EX t _ u th E X H NE) in B. discriminate. }
      constructor; cbn [l_ths l_mem l_log].
      + now rewrite set_at_length.
      + exists m. split; auto. split.
        * intros u o' rest' l' k' H. rewrite set_at_nth, E in H. destruct (Nat.eqb_spec u t).
          -- injection H as <- <- <- <-. unfold left_of in *. cbn in LF. rewrite <- surjective_pairing. split; auto.
             intros X. rewrite (ME X). apply SH in X as [-> RO]. split; auto. intros g G. apply RO. now right.
          -- rewrite (ME (OTH u _ n H eq_refl)). now apply (BUSY u _ _ _ k').
        * intros H. destruct (lo_excl o) eqn:X.
          -- assert (I : In (TBusy o rest (snd (f (mm, l))) k) (set_at t (TBusy o rest (snd (f (mm, l))) k) ths)).
             { apply nth_error_In with t. now rewrite set_at_nth, Nat.eqb_refl, E. }
             apply H in I. cbn in I. congruence.
          -- rewrite (ME eq_refl). now apply SH.
      + intros u th v th' H B H' NE. rewrite set_at_nth, E in H, H'. destruct (Nat.eqb_spec u t).
        * injection H as <-. destruct (Nat.eqb_spec v t); [congruence|]. apply (EX t _ v th' E B H'). congruence.
        * destruct (Nat.eqb_spec v t); [|now apply (EX u th v th')]. subst v. pose proof (EX u th t _ H B E NE). discriminate.
      + exact TI.
      + intros u th p' H P'. rewrite set_at_nth, E in H. destruct (Nat.eqb_spec u t); [|now apply PR].
        injection H as <-. subst. now apply (PR t _ p') in E.
    - (* unlock *)
      destruct (BUSY _ _ _ _ _ E) as [LF SH]. cbn in LF.
      assert (P : exists p, nth_error ps t = Some p).
      { destruct (nth_error ps t) eqn:N; eauto. apply nth_error_None in N. assert (t < length ths) by (apply nth_error_Some; congruence). lia. }
      destruct P as [p P]. destruct (PR t _ p E P) as (FO & DI & q & RE & Q). subst q.
      constructor; cbn [l_ths l_mem l_log].
      + now rewrite set_at_length.
      + exists (fst (run_lop l0 o m)). replace l with (snd (run_lop l0 o m)) by now rewrite <- LF. split; [now apply seq_snoc|]. 
        rewrite <- LF. cbn [fst]. split; [|auto]. intros u o' rest' l' k' H. rewrite set_at_nth, E in H. destruct (Nat.eqb_spec u t); [discriminate|].
        destruct (lo_excl o) eqn:X.
        * pose proof (EX t _ u _ E X H n). discriminate.
        * destruct (SH eq_refl) as [-> _]. now apply (BUSY u _ _ _ k').
      + intros u th v th' H B H' NE. rewrite set_at_nth, E in H, H'. destruct (Nat.eqb_spec u t); [injection H as <-; discriminate|].
        destruct (Nat.eqb_spec v t); [injection H' as <-; reflexivity|]. now apply (EX u th v th').
      + apply Forall_app. split; auto. constructor; auto. cbn. apply nth_error_Some. congruence.
      + intros u th p' H P'. rewrite set_at_nth, E in H. destruct (Nat.eqb_spec u t).
        * injection H as <-. subst. rewrite P in P'. injection P' as <-. split; [eapply follows_snoc; eauto|]. split; auto.
          exists (k l). rewrite (remaining_snoc _ _ _ _ _ _ _ RE), Nat.eqb_refl. auto.
        * destruct (PR u th p' H P') as (FO' & DI' & q' & RE' & Q'). split; [eapply follows_snoc; eauto; congruence|]. split; auto.
          exists q'. rewrite (remaining_snoc _ _ _ _ _ _ _ RE'). destruct (Nat.eqb_spec t u); [congruence|]. auto.
  Qed.
  Lemma exec_linv ps m0 st : Forall disciplined ps -> lexec l0 (lstart ps m0) st -> linv ps m0 st.
  Proof. intros D E. remember (lstart ps m0) as s0. induction E; subst; eauto using start_linv, step_linv. Qed.

  (** every execution is a sequential history of the completed operations, in the order in which they gave up the lock *)
  Lemma linearizable ps m0 st : Forall disciplined ps -> lexec l0 (lstart ps m0) st ->
    exists m, sequential l0 m0 (l_log st) m /\ ((forall th, In th (l_ths st) -> busy th = false) -> l_mem st = m) /\
      Forall (fun e => fst (fst e) < length ps) (l_log st) /\ (forall t p, nth_error ps t = Some p -> follows t p (l_log st)).
  Proof.
    intros D E. destruct (exec_linv _ _ _ D E) as [LEN (m & SQ & BU & FR) EX TI PR]. exists m. split; auto. split; [|split; auto].
    - intros H. apply FR. intros th TH. specialize (H th TH). destruct th; cbn in *; congruence.
    - intros t p P. destruct (nth_error (l_ths st) t) eqn:N; [now apply (PR t _ p) in N|].
      apply nth_error_None in N. assert (t < length ps) by (apply nth_error_Some; congruence). lia.
  Qed.
  (** no deadlock: as long as some thread is not done, some thread can move *)
  Lemma no_deadlock (st : lstate S L) : (forall th, In th (l_ths st) -> exists r, th = TIdle (PDone r)) \/ exists t st', lstep l0 st t st'.
  Proof.
    destruct st as [ths m log]. cbn.
    assert (D : (forall th, In th ths -> busy th = false) \/ exists th, In th ths /\ busy th = true).
    { clear. induction ths as [|th ths [IH|(th' & I & B)]]; [left; intros _ []| |right; exists th'; split; auto; now right].
      destruct (busy th) eqn:B; [right; exists th; split; auto; now left|]. left. intros x [<-|X]; auto. }
    destruct D as [D|(th & I & B)].
    - assert (D2 : (forall th, In th ths -> exists r, th = TIdle (PDone r)) \/ exists t o k, nth_error ths t = Some (TIdle (POp o k))).
      { clear -D. induction ths as [|th ths IH]; [left; intros _ []|]. destruct IH as [IH|(t & o & k & N)]; [intros x X; apply D; now right| |right; exists (1 + t), o, k; exact N].
        destruct th as [[r|o k]|o rest l k]; [|right; exists 0, o, k; reflexivity|specialize (D _ (or_introl eq_refl)); discriminate].
        left. intros x [<-|X]; eauto. }
      destruct D2 as [D2|(t & o & k & N)]; [now left|]. right. exists t. destruct (lo_excl o) eqn:X; eexists.
      + apply l_lock_excl; eauto.
      + apply l_lock_shared; eauto. intros x XI. specialize (D x XI). destruct x; cbn in *; congruence.
    - right. apply in_nth in I as [t N]. exists t. destruct th as [|o [|f rest] l k]; [discriminate| |]; eexists; [eapply l_unlock|eapply l_act]; eauto.
  Qed.

  (** running a given schedule (for examples) *)
  Definition lnext (st : lstate S L) (t : nat) : option (lstate S L) :=
    let '(mk_lstate ths m log) := st in
    match nth_error ths t with
    | Some (TIdle (POp o k)) =>
        if (if lo_excl o then forallb (fun th => negb (busy th)) ths else forallb (fun th => negb (busy_excl th)) ths)
        then Some (mk_lstate (set_at t (TBusy o (lo_steps o) l0 k) ths) m log) else None
    | Some (TBusy o (f :: rest) l k) => Some (mk_lstate (set_at t (TBusy o rest (snd (f (m, l))) k) ths) (fst (f (m, l))) log)
    | Some (TBusy o [] l k) => Some (mk_lstate (set_at t (TIdle (k l)) ths) m (log ++ [(t, o, l)]))
    | _ => None
    end.
  Fixpoint lrun (sched : list nat) (st : lstate S L) : option (lstate S L) :=
    match sched with [] => Some st | t :: sched' => match lnext st t with Some st' => lrun sched' st' | None => None end end.
  Lemma lnext_step st t st' : lnext st t = Some st' -> lstep l0 st t st'.
  Proof.
    destruct st as [ths m log]. cbn. destruct (nth_error ths t) as [[[r|o k]|o [|f rest] l k]|] eqn:E; try discriminate.
    - destruct (lo_excl o) eqn:X.
      + destruct (forallb _ ths) eqn:F; [|discriminate]. intros [= <-]. rewrite forallb_forall in F. apply l_lock_excl; auto. intros th I. apply F in I. now destruct (busy th).
      + destruct (forallb _ ths) eqn:F; [|discriminate]. intros [= <-]. rewrite forallb_forall in F. apply l_lock_shared; auto. intros th I. apply F in I. now destruct (busy_excl th).
    - intros [= <-]. now apply l_unlock.
    - intros [= <-]. now apply l_act.
  Qed.
  Lemma lrun_exec sched : forall s st st', lexec l0 s st -> lrun sched st = Some st' -> lexec l0 s st'.
  Proof.
    induction sched as [|t sched IH]; intros s st st' E; cbn; [now intros [= <-]|]. destruct (lnext st t) eqn:N; [|discriminate].
    apply IH. eapply lexec_step; [exact E|]. exact (lnext_step _ _ _ N).
  Qed.
  Lemma lrun_test sched s (test : lstate S L -> bool) : match lrun sched s with Some st => test st | None => false end = true -> exists st, lexec l0 s st /\ test st = true.
  Proof.
    destruct (lrun sched s) as [st|] eqn:E; [|discriminate]. intros T. exists st. split; auto. eapply lrun_exec; [apply lexec_nil|exact E].
  Qed.
End Lock.
