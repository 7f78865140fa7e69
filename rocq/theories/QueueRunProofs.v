(** Runs of the shared queue. *)
From Coq Require Import List Arith Bool Lia.
From Verif Require Import QueueModel QueueSpec QueueProofs QueueStepProofs.
Import ListNotations.

Section Runs.
  Context {V : Type}.
  Notation thread := (qthread V).
  Notation shared := (qshared V).

  (** * Lists *)
  Lemma split_at {A} (l : list A) i t : nth_error l i = Some t -> l = firstn i l ++ t :: skipn (S i) l.
  Proof. revert l; induction i as [|i IH]; intros [|x l] H; cbn in H; try discriminate; [now injection H as ->|]. cbn [firstn app]. f_equal. exact (IH l H). Qed.
  Lemma put_nth {A} (l : list A) i t t' k : nth_error l i = Some t -> nth_error (firstn i l ++ t' :: skipn (S i) l) k = if k =? i then Some t' else nth_error l k.
  Proof.
    revert l k; induction i as [|i IH]; intros [|x l] k H; cbn in H; try discriminate.
    - destruct k; reflexivity.
    - destruct k as [|k]; [reflexivity|]. exact (IH l k H).
  Qed.
  (** * Waking threads *)
  Definition same_but_awake (t t' : thread) : Prop := t' = t \/ t' = awake t.
  Lemma woken_refl l : Forall2 same_but_awake l l.
  Proof. induction l as [|t l IH]; [constructor|]. constructor; [now left|exact IH]. Qed.
  Lemma woken_first l : Forall2 same_but_awake l (wake_first l).
  Proof. induction l as [|t l IH]; [constructor|]. cbn. destruct (asleep t); constructor; [now right|apply woken_refl|now left|exact IH]. Qed.
  Lemma woken_all l : Forall2 same_but_awake l (map awake l).
  Proof. induction l as [|t l IH]; [constructor|]. constructor; [now right|exact IH]. Qed.
  Lemma woken_at i l : Forall2 same_but_awake l (edit_at i awake l).
  Proof.
    unfold edit_at. destruct (nth_error l i) as [t|] eqn:E; [|apply woken_refl]. rewrite (split_at l i t E) at 1.
    apply Forall2_app; [apply woken_refl|]. constructor; [now right|apply woken_refl].
  Qed.
  Lemma woken_one j l : Forall2 same_but_awake l (wake_one j l).
  Proof. unfold wake_one. destruct (nth_error l j) as [t|]; [|apply woken_first]. destruct (asleep t); [apply woken_at|apply woken_first]. Qed.
  Lemma awake_same t : hreg (awake t) = hreg t /\ treg (awake t) = treg t /\ news (awake t) = news t /\ qt_todo (awake t) = qt_todo t /\ qt_log (awake t) = qt_log t /\
    forall (s : shared) l, fact s l t -> fact s l (awake t).
  Proof.
    destruct t as [todo pc log]. unfold awake, asleep. cbn [qt_pc]. destruct pc; (split; [reflexivity|]); (split; [reflexivity|]); (split; [reflexivity|]); (split; [reflexivity|]); (split; [reflexivity|]); intros s l H; try exact H.
  Qed.
  Lemma woken_inv (s : shared) l l' : Forall2 same_but_awake l l' -> inv s l -> inv s l'.
  Proof.
    intros F [(c & Hc & Hf) Hh Ht Hn Hfr Htf Hhf Hok].
    assert (K : map hreg l' = map hreg l /\ map treg l' = map treg l /\ flat_map news l' = flat_map news l /\ Forall (fact s c) l').
    { clear Hh Ht Hn. induction F as [|t t' l l' R F IH]; [repeat split; constructor|]. apply Forall_cons_iff in Hf. destruct Hf as (Hf1 & Hf2).
      destruct (IH Hf2) as (K1 & K2 & K3 & K4). destruct (awake_same t) as (A1 & A2 & A3 & _ & _ & A4). cbn.
      destruct R as [->| ->]; rewrite ?A1, ?A2, ?A3, K1, K2, K3; repeat split; constructor; auto. }
    destruct K as (K1 & K2 & K3 & K4). constructor; rewrite ?K1, ?K2, ?K3; auto. now exists c.
  Qed.

  (** * All states that can be reached *)
  Lemma start_inv (progs : list (list (qreq V))) : inv (qs_shared (qstart progs)) (qs_threads (qstart progs)).
  Proof.
    assert (H : forall l : list (list (qreq V)), list_sum (map hreg (map (fun p => mk_qt p QIdle []) l)) = 0 /\ list_sum (map treg (map (fun p => mk_qt p QIdle []) l)) = 0 /\
      flat_map news (map (fun p => mk_qt p QIdle []) l) = [] /\ Forall (fact q_new []) (map (fun p => mk_qt p QIdle []) l)).
    { induction l as [|p l (I1 & I2 & I3 & I4)]; [repeat split; constructor|]. cbn. repeat split; auto. constructor; [|exact I4]. split; [intros n []|exact I]. }
    destruct (H progs) as (H1 & H2 & H3 & H4). unfold qstart. cbn [qs_shared qs_threads]. constructor; cbn [q_new q_hlock q_tlock b2n]; auto.
    - exists []. split; [|exact H4]. split; [repeat constructor; intros []|]. split; [intros x [<-|[]]; cbn; lia|]. split; reflexivity.
    - rewrite H3. constructor.
  Qed.
  Lemma step_keeps (st st' : qstate V) lab : qstep lab st = Some st' -> inv (qs_shared st) (qs_threads st) -> inv (qs_shared st') (qs_threads st').
  Proof.
    destruct lab as [i j|i]; cbn [qstep].
    - destruct (nth_error (qs_threads st) i) as [t|] eqn:E; [|discriminate]. destruct (qthread_step i t (qs_shared st)) as [[[t' s'] w]|] eqn:Es; [|discriminate].
      intros [= <-] I. cbn [qs_shared qs_threads].
      assert (I' : inv s' (edit_at i (fun _ => t') (qs_threads st))).
      { unfold edit_at. rewrite E. rewrite (split_at _ _ _ E) in I. exact (thread_step_inv _ _ _ _ _ _ _ _ I Es). }
      destruct w; [exact I'|exact (woken_inv _ _ _ (woken_one j _) I')|exact (woken_inv _ _ _ (woken_all _) I')].
    - destruct (nth_error (qs_threads st) i) as [t|]; [|discriminate]. destruct (asleep t); [|discriminate]. intros [= <-] I. cbn [qs_shared qs_threads].
      exact (woken_inv _ _ _ (woken_at i _) I).
  Qed.
  Lemma run_ind (P : qstate V -> Prop) : (forall st st' lab, P st -> qstep lab st = Some st' -> P st') -> forall sched st, P st -> P (qrun sched st).
  Proof.
    intros H. induction sched as [|lab sched IH]; intros st Hp; [exact Hp|]. cbn [qrun]. apply IH. destruct (qstep lab st) as [st'|] eqn:E; [exact (H _ _ _ Hp E)|exact Hp].
  Qed.
  Lemma reachable_inv progs (st : qstate V) : reachable_from progs st -> inv (qs_shared st) (qs_threads st).
  Proof. intros (sched & ->). apply (run_ind (fun st : qstate V => inv (qs_shared st) (qs_threads st))); [|apply start_inv]. intros st st' lab I E. exact (step_keeps _ _ _ E I). Qed.

  Lemma first_in_first_out progs (st : qstate V) : reachable_from progs st -> exists rest, pushed st = popped st ++ rest.
  Proof. intros R. apply reachable_inv in R. destruct R as [(l & (_ & _ & _ & H) & _)]. now exists (map snd l). Qed.
  Lemma not_broken progs (st : qstate V) : reachable_from progs st -> q_broken (qs_shared st) = false.
  Proof. intros R. apply reachable_inv in R. exact (i_ok _ _ R). Qed.

  (** * What each thread did *)
  Definition pending (t : thread) : list V := match qt_pc t with PLock v _ | PDatum v _ | PNext v _ | PTail v _ => [v] | _ => [] end.
  Lemma by_app i (l l' : list (nat * V)) : by_thread i (l ++ l') = by_thread i l ++ by_thread i l'.
  Proof. unfold by_thread. now rewrite filter_app, map_app. Qed.
  Lemma by_own i v : by_thread i [(i, v)] = [v : V].
  Proof. unfold by_thread. cbn. now rewrite Nat.eqb_refl. Qed.
  Lemma by_other i j v : i <> j -> by_thread i [(j, v)] = @nil V.
  Proof. intros H. unfold by_thread. cbn. destruct (Nat.eqb_spec j i); [congruence|reflexivity]. Qed.
  Lemma somes_app (l l' : list (option V)) : somes (l ++ l') = somes l ++ somes l'.
  Proof. induction l as [|[v|] l IH]; cbn; [reflexivity|now rewrite IH|exact IH]. Qed.
  Lemma thread_history i t (s : shared) t' s' w : q_broken s' = false -> qthread_step i t s = Some (t', s', w) ->
    (exists dp, q_popped s' = q_popped s ++ dp /\ (forall j, j <> i -> by_thread j dp = []) /\
       exists dl, qt_log t' = qt_log t ++ dl /\ somes dl = by_thread i dp) /\
    (exists du, q_pushed s' = q_pushed s ++ du /\ (forall j, j <> i -> by_thread j du = []) /\
       pending t ++ pushes (qt_todo t) = by_thread i du ++ pending t' ++ pushes (qt_todo t')).
  Proof.
    destruct t as [todo pc log]. unfold qthread_step. cbn [qt_todo qt_pc qt_log]. intros Hok H.
    assert (K : forall (p : qpc V) dl, somes dl = [] -> (exists dp, q_popped s = q_popped s ++ dp /\ (forall j, j <> i -> by_thread j dp = []) /\
       exists dl', qt_log (mk_qt todo p (log ++ dl)) = log ++ dl' /\ somes dl' = by_thread i dp)).
    { intros p dl E. exists []. split; [now rewrite app_nil_r|]. split; [reflexivity|]. exists dl. auto. }
    assert (K0 : forall todo' (p : qpc V), exists dp, q_popped s = q_popped s ++ dp /\ (forall j, j <> i -> by_thread j dp = []) /\
       exists dl', qt_log (mk_qt todo' p log) = log ++ dl' /\ somes dl' = by_thread i dp).
    { intros todo' p. exists []. split; [now rewrite app_nil_r|]. split; [reflexivity|]. exists []. cbn. now rewrite app_nil_r. }
    assert (L : forall p q : qpc V, forall todo' log', pending (mk_qt todo p log) ++ pushes todo = pending (mk_qt todo' q log') ++ pushes todo' ->
      exists du, q_pushed s = q_pushed s ++ du /\ (forall j, j <> i -> by_thread j du = []) /\
       pending (mk_qt todo p log) ++ pushes todo = by_thread i du ++ pending (mk_qt todo' q log') ++ pushes todo').
    { intros p q todo' log' E. exists []. split; [now rewrite app_nil_r|]. split; [reflexivity|exact E]. }
    destruct pc as [ | v n | v n | v n | v n | | | | | | | | | | | | | | | ];
      repeat match type of H with
      | (match todo with _ => _ end) = _ => destruct todo as [|[v| | |] r]
      | (if ?c then _ else _) = _ => destruct c
      | None = _ => discriminate
      end; try discriminate;
      try (injection H as <- <- <-; cbn [with_abort alloc with_tlock with_hlock put_datum put_next pop_next q_popped q_pushed];
           split; [first [apply K0|apply K; reflexivity]|apply L; reflexivity]).
    - (* tail moved *)
      injection H as <- <- <-. unfold move_tail in *. destruct (q_next s (q_tail s)) as [m|]; [|discriminate Hok]. cbn [q_popped q_pushed].
      split; [apply K0|]. exists [(i, v)]. split; [reflexivity|]. split; [intros j Hj; now apply by_other|]. now rewrite by_own.
    - (* head moved *)
      unfold pop_swap in H. destruct (q_mid s) as [m|]; [|injection H as <- <- <-; discriminate Hok].
      destruct (q_datum s (q_head s)) as [v|]; [|injection H as <- <- <-; discriminate Hok]. injection H as <- <- <-. cbn [q_popped q_pushed].
      split; [|apply L; reflexivity]. exists [(i, v)]. split; [reflexivity|]. split; [intros j Hj; now apply by_other|]. exists [Some v]. split; [reflexivity|now rewrite by_own].
  Qed.
  Definition history (progs : list (list (qreq V))) (st : qstate V) : Prop :=
    length (qs_threads st) = length progs /\
    forall i p t, nth_error progs i = Some p -> nth_error (qs_threads st) i = Some t ->
      by_thread i (q_popped (qs_shared st)) = somes (qt_log t) /\
      pushes p = by_thread i (q_pushed (qs_shared st)) ++ pending t ++ pushes (qt_todo t).
  Lemma awake_pending t : pending (awake t) = pending t.
  Proof. destruct t as [todo pc log]. unfold awake, asleep. cbn. now destruct pc. Qed.
  Lemma woken_length l l' : Forall2 same_but_awake l l' -> length l' = length l.
  Proof. induction 1; cbn; congruence. Qed.
  Lemma woken_nth l l' : Forall2 same_but_awake l l' -> forall i t', nth_error l' i = Some t' -> exists t, nth_error l i = Some t /\ same_but_awake t t'.
  Proof. induction 1 as [|t t' l l' R F IH]; intros [|i] u H; cbn in H; try discriminate; [injection H as <-; now exists t|now apply IH]. Qed.
  Lemma woken_history progs (s : shared) l l' : Forall2 same_but_awake l l' -> history progs (mk_qst s l) -> history progs (mk_qst s l').
  Proof.
    intros F (Hl & H). split; cbn in *; [now rewrite (woken_length _ _ F)|]. intros i p t' Hp Ht'. destruct (woken_nth _ _ F _ _ Ht') as (t & Ht & R).
    destruct (H i p t Hp Ht) as (H1 & H2). destruct (awake_same t) as (_ & _ & _ & A1 & A2 & _).
    destruct R as [->| ->]; [auto|]. now rewrite A1, A2, awake_pending.
  Qed.
  Lemma step_history progs (st st' : qstate V) lab : inv (qs_shared st') (qs_threads st') -> history progs st -> qstep lab st = Some st' -> history progs st'.
  Proof.
    intros I Hh. destruct lab as [i j|i]; cbn [qstep].
    - destruct (nth_error (qs_threads st) i) as [t|] eqn:E; [|discriminate]. destruct (qthread_step i t (qs_shared st)) as [[[t' s'] w]|] eqn:Es; [|discriminate].
      intros [= Est].
      assert (Hok : q_broken s' = false) by (rewrite <- Est in I; exact (i_ok _ _ I)).
      assert (Hs : history progs (mk_qst s' (edit_at i (fun _ => t') (qs_threads st)))).
      { destruct (thread_history _ _ _ _ _ _ Hok Es) as ((dp & Hp & Hpo & dl & Hdl & Hs) & du & Hu & Huo & Hpe). destruct Hh as (Hl & Hh).
        unfold edit_at. rewrite E. split; cbn [qs_shared qs_threads].
        - rewrite <- Hl. rewrite (split_at _ _ _ E) at 3. rewrite !app_length. reflexivity.
        - intros k p u Hkp Hku. rewrite (put_nth _ _ _ _ _ E) in Hku. rewrite Hp, Hu, !by_app. destruct (Nat.eqb_spec k i) as [->|Hne].
          + injection Hku as <-. destruct (Hh i p t Hkp E) as (H1 & H2). rewrite H1, H2, Hdl, somes_app, Hs. split; [reflexivity|]. now rewrite Hpe, app_assoc.
          + rewrite (Hpo _ Hne), (Huo _ Hne), !app_nil_r. exact (Hh k p u Hkp Hku). }
      rewrite <- Est. destruct w; [exact Hs|exact (woken_history _ _ _ _ (woken_one j _) Hs)|exact (woken_history _ _ _ _ (woken_all _) Hs)].
    - destruct (nth_error (qs_threads st) i) as [t|] eqn:E; [|discriminate]. destruct (asleep t); [|discriminate]. intros [= <-].
      destruct st as [s l]. exact (woken_history _ _ _ _ (woken_at i _) Hh).
  Qed.
  Lemma reachable_history progs (st : qstate V) : reachable_from progs st -> history progs st.
  Proof.
    intros (sched & ->).
    apply (run_ind (fun st : qstate V => inv (qs_shared st) (qs_threads st) /\ history progs st) ); [|split; [apply start_inv|]].
    - intros st st' lab (I & H) E. assert (I' := step_keeps _ _ _ E I). split; [exact I'|exact (step_history _ _ _ _ I' H E)].
    - split; [cbn; apply map_length|]. intros i p t Hp Ht. cbn in *. rewrite nth_error_map, Hp in Ht. cbn in Ht. injection Ht as <-. auto.
  Qed.
  Lemma own_elements progs (st : qstate V) : reachable_from progs st -> forall i p t, nth_error progs i = Some p -> nth_error (qs_threads st) i = Some t ->
    somes (qt_log t) = by_thread i (q_popped (qs_shared st)) /\
    (exists rest, pushes p = by_thread i (q_pushed (qs_shared st)) ++ rest) /\ (finished t -> by_thread i (q_pushed (qs_shared st)) = pushes p).
  Proof.
    intros R i p t Hp Ht. destruct (reachable_history _ _ R) as (_ & H). destruct (H i p t Hp Ht) as (H1 & H2). split; [now symmetry|].
    split; [eexists; exact H2|]. intros (F1 & F2). rewrite H2. unfold pending. rewrite F1, F2. cbn. now rewrite app_nil_r.
  Qed.

  (** * Nothing is given only if there is nothing *)
  Lemma awake_log t t' : same_but_awake t t' -> qt_log t' = qt_log t.
  Proof. intros [->| ->]; [reflexivity|]. destruct (awake_same t) as (_ & _ & _ & _ & H & _). exact H. Qed.
  Lemma log_longer {A} (l : list A) x : l <> l ++ [x].
  Proof. intros H. apply (f_equal (@length A)) in H. rewrite app_length in H. cbn in H. lia. Qed.
  Lemma nothing_if_empty progs (st st' : qstate V) i j : reachable_from progs st -> qstep (Run i j) st = Some st' -> gives_nothing i st st' ->
    q_abort (qs_shared st) = true \/ pushed st = popped st.
  Proof.
    intros R E (t & t' & Ht & Ht' & Hlog). apply reachable_inv in R. cbn [qstep] in E. rewrite Ht in E.
    destruct (qthread_step i t (qs_shared st)) as [[[t1 s1] w]|] eqn:Es; [|discriminate]. injection E as <-. cbn [qs_threads] in Ht'.
    assert (Hl : qt_log t1 = qt_log t ++ [None]).
    { assert (F : Forall2 same_but_awake (edit_at i (fun _ => t1) (qs_threads st)) (match w with WakeNone => edit_at i (fun _ => t1) (qs_threads st)
        | WakeOne => wake_one j (edit_at i (fun _ => t1) (qs_threads st)) | WakeAll => map awake (edit_at i (fun _ => t1) (qs_threads st)) end))
        by (destruct w; [apply woken_refl|apply woken_one|apply woken_all]).
      destruct (woken_nth _ _ F _ _ Ht') as (t2 & Ht2 & R2). unfold edit_at in Ht2. rewrite Ht in Ht2. rewrite (put_nth _ _ _ _ _ Ht), Nat.eqb_refl in Ht2.
      injection Ht2 as <-. rewrite <- (awake_log _ _ R2). exact Hlog. }
    clear Ht' Hlog. destruct R as [(l & Hc & Hf) _ _ _ _ _ _ _]. assert (Hft : fact (qs_shared st) l t) by (rewrite Forall_forall in Hf; apply Hf; now apply nth_error_In in Ht).
    destruct t as [todo pc log]. unfold qthread_step in Es. cbn [qt_todo qt_pc qt_log] in *.
    destruct pc as [ | v n | v n | v n | v n | | | | | | | | | | | | | | | ];
      repeat match type of Es with
      | (match todo with _ => _ end) = _ => destruct todo as [|[v| | |] r]
      | (if ?c then _ else _) = _ => destruct c eqn:?
      | None = _ => discriminate
      end; try discriminate; try (injection Es as <- <- <-; cbn [qt_log] in Hl; exfalso; exact (log_longer _ _ Hl)); auto.
    - right. destruct Hft as (_ & Hm). cbn in Hm. destruct Hc as (Hnd & _ & Hp & Hv). rewrite Hm in Hp. apply Nat.eqb_eq in Heqb0. unfold pushed, popped. rewrite Hv.
      destruct l as [|[x v] r]; [now rewrite app_nil_r|]. destruct Hp as (<- & _). unfold ids in Hnd. cbn in Hnd. apply NoDup_cons_iff in Hnd. destruct Hnd as (Hnd & _).
      destruct Hnd. apply in_app_iff. right. left. now symmetry.
    - destruct Hft as (_ & Hm). cbn in Hm. destruct Hc as (_ & _ & Hp & _). unfold pop_swap in Es. destruct (q_mid (qs_shared st)) as [k|]; [|now destruct Hm].
      destruct Hp as (v & r & _ & D & _). rewrite D in Es. injection Es as <- <- <-. cbn [qt_log] in Hl. apply app_inv_head in Hl. discriminate.
  Qed.

  (** * Nobody waits for a mutex for ever *)
  Lemma count_one (f : thread -> nat) l : list_sum (map f l) <> 0 -> exists i t, nth_error l i = Some t /\ f t <> 0.
  Proof.
    induction l as [|t l IH]; cbn; intros H; [lia|]. destruct (Nat.eq_dec (f t) 0) as [E|E]; [|exists 0, t; auto].
    destruct IH as (i & u & Hi & Hu); [unfold list_sum; lia|]. exists (S i), u. auto.
  Qed.
  Lemma enabled_step (st : qstate V) i t : nth_error (qs_threads st) i = Some t -> qthread_step i t (qs_shared st) <> None -> ~ stuck st.
  Proof.
    intros Ht H S. specialize (S i 0). cbn [qstep] in S. rewrite Ht in S. destruct (qthread_step i t (qs_shared st)) as [[[t' s'] w]|]; [discriminate|now apply H].
  Qed.
  Lemma only_sleepers progs (st : qstate V) : reachable_from progs st -> stuck st -> forall t, In t (qs_threads st) -> finished t \/ asleep t = true.
  Proof.
    intros R S. apply reachable_inv in R. destruct R as [_ Hh Ht _ _ _ _ _].
    assert (Et : q_tlock (qs_shared st) = false).
    { destruct (q_tlock (qs_shared st)) eqn:E; [|reflexivity]. cbn in Ht. destruct (count_one treg (qs_threads st)) as (i & t & Hi & Hr); [lia|].
      exfalso. apply (enabled_step st i t Hi); [|exact S]. destruct t as [todo pc log]. unfold treg in Hr. cbn in Hr. unfold qthread_step. cbn. destruct pc; cbn in Hr; try contradiction; discriminate. }
    assert (Eh : q_hlock (qs_shared st) = false).
    { destruct (q_hlock (qs_shared st)) eqn:E; [|reflexivity]. cbn in Hh. destruct (count_one hreg (qs_threads st)) as (i & t & Hi & Hr); [lia|].
      exfalso. apply (enabled_step st i t Hi); [|exact S]. destruct t as [todo pc log]. unfold hreg in Hr. cbn in Hr. unfold qthread_step. cbn. rewrite Et.
      destruct pc; cbn in Hr; try contradiction; try discriminate; try (destruct (q_abort (qs_shared st)); discriminate);
        try (destruct (q_head (qs_shared st) =? q_tail (qs_shared st)); discriminate). destruct (pop_swap V i (qs_shared st)); discriminate. }
    intros t Hin. apply In_nth_error in Hin. destruct Hin as (i & Hi).
    assert (Hno : qthread_step i t (qs_shared st) = None).
    { destruct (qthread_step i t (qs_shared st)) as [x|] eqn:E; [|reflexivity]. exfalso. apply (enabled_step st i t Hi); [congruence|exact S]. }
    destruct t as [todo pc log]. unfold qthread_step in Hno. cbn in Hno. rewrite Et, Eh in Hno. unfold finished, asleep. cbn.
    destruct pc; try discriminate; auto.
    - destruct todo as [|[v| | |] r]; try discriminate. auto.
    - destruct (q_abort (qs_shared st)); discriminate.
    - destruct (q_head (qs_shared st) =? q_tail (qs_shared st)); discriminate.
    - destruct (q_head (qs_shared st) =? q_tail (qs_shared st)); discriminate.
    - destruct (q_abort (qs_shared st)); discriminate.
    - destruct (q_abort (qs_shared st)); discriminate.
    - destruct (pop_swap V i (qs_shared st)); discriminate.
  Qed.
End Runs.
