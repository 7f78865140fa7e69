(** Notifications; runs in which they are lost. *)
From Coq Require Import List Arith Bool Lia.
From Verif Require Import QueueModel QueueSpec QueueProofs QueueStepProofs QueueRunProofs.
Import ListNotations.

Section Waking.
  Context {V : Type}.
  Notation thread := (qthread V).
  Definition count (l : list thread) : nat := length (filter asleep l).
  Lemma count_app l l' : count (l ++ l') = count l + count l'.
  Proof. unfold count. now rewrite filter_app, app_length. Qed.
  Lemma awake_up t : asleep (awake t : thread) = false.
  Proof. unfold awake. destruct (asleep t) eqn:E; [reflexivity|exact E]. Qed.
  Lemma count_first l : count (wake_first l) = count l - 1.
  Proof.
    induction l as [|t l IH]; [reflexivity|]. unfold count in *. cbn. destruct (asleep t) eqn:E; cbn; [rewrite awake_up|rewrite E; exact IH].
    now rewrite Nat.sub_0_r.
  Qed.
  Lemma count_at i l t : nth_error l i = Some t -> asleep t = true -> count (edit_at i awake l) = count l - 1.
  Proof.
    intros E A. unfold edit_at. rewrite E. rewrite (split_at _ _ _ E) at 3. rewrite !count_app. unfold count at 2 4. cbn. rewrite awake_up, A. cbn.
    fold (count (skipn (S i) l)). lia.
  Qed.
  Lemma count_one_less j l : count (wake_one j l) = count l - 1.
  Proof.
    unfold wake_one. destruct (nth_error l j) as [t|] eqn:E; [|apply count_first]. destruct (asleep t) eqn:A; [exact (count_at j l t E A)|apply count_first].
  Qed.
  Lemma count_all l : count (map awake l) = 0.
  Proof. unfold count. induction l as [|t l IH]; [reflexivity|]. cbn. rewrite awake_up. exact IH. Qed.
  Lemma count_put i l t t' : nth_error l i = Some t -> asleep t = asleep t' -> count (edit_at i (fun _ => t') l) = count l.
  Proof.
    intros E A. unfold edit_at. rewrite E. rewrite (split_at _ _ _ E) at 3. rewrite !count_app. f_equal. unfold count. cbn. rewrite A. now destruct (asleep t').
  Qed.
  Lemma push_wakes (st st' : qstate V) i j : announces i st -> qstep (Run i j) st = Some st' -> sleepers st' = sleepers st - 1.
  Proof.
    intros (t & E & P) S. cbn [qstep] in S. rewrite E in S. unfold qthread_step in S. rewrite P in S. injection S as <-. unfold sleepers. cbn [qs_threads].
    change (count (wake_one j (edit_at i (fun _ => mk_qt (qt_todo t) QIdle (qt_log t)) (qs_threads st))) = count (qs_threads st) - 1).
    rewrite count_one_less, (count_put _ _ _ _ E); [reflexivity|]. unfold asleep. rewrite P. reflexivity.
  Qed.
  Lemma abort_wakes (st st' : qstate V) i j : announces_abort i st -> qstep (Run i j) st = Some st' -> sleepers st' = 0.
  Proof.
    intros (t & E & P) S. cbn [qstep] in S. rewrite E in S. unfold qthread_step in S. rewrite P in S. injection S as <-. unfold sleepers. cbn [qs_threads]. apply count_all.
  Qed.
  Lemma announce_possible (st : qstate V) i j : announces i st \/ announces_abort i st -> exists st', qstep (Run i j) st = Some st'.
  Proof. intros [(t & E & P)|(t & E & P)]; cbn [qstep]; rewrite E; unfold qthread_step; rewrite P; eexists; reflexivity. Qed.
  Lemma wait_ends (st : qstate V) : stuck st -> sleepers st = 0 -> forall progs, reachable_from progs st -> forall t, In t (qs_threads st) -> finished t.
  Proof.
    intros S H progs R t Hin. destruct (only_sleepers progs st R S t Hin) as [F|A]; [exact F|]. unfold sleepers in H. apply length_zero_iff_nil in H.
    assert (K : In t (filter asleep (qs_threads st))) by (apply filter_In; auto). rewrite H in K. destruct K.
  Qed.
End Waking.

(** * Lost notifications *)
Definition runs (l : list nat) : list qlabel := map (fun i => Run i 0) l.
(** thread 0 waits; thread 1 pushes *)
Definition lost_progs : list (list (qreq nat)) := [[QWait]; [QPush 5]].
Definition lost_push : qstate nat := qrun (runs [0;0;0;0; 1;1;1;1;1;1;1; 0]) (qstart lost_progs).
Definition lost_abort_progs : list (list (qreq nat)) := [[QWait]; [QAbort]].
Definition lost_abort : qstate nat := qrun (runs [0;0;0;0; 1;1; 0]) (qstart lost_abort_progs).
Lemma stuck_of {V} (st : qstate V) : forallb (fun i => match qstep (Run i 0) st with None => true | Some _ => false end) (seq 0 (length (qs_threads st))) = true -> stuck st.
Proof.
  intros H i j. rewrite forallb_forall in H. destruct (nth_error (qs_threads st) i) as [t|] eqn:E.
  - assert (K : In i (seq 0 (length (qs_threads st)))) by (apply in_seq; split; [lia|]; cbn; apply nth_error_Some; congruence).
    specialize (H i K). cbn [qstep] in *. rewrite E in *. destruct (qthread_step i t (qs_shared st)) as [[[t' s'] w]|]; [discriminate|reflexivity].
  - cbn [qstep]. now rewrite E.
Qed.
Lemma push_lost : exists progs (st : qstate nat), reachable_from progs st /\ stuck st /\ waiting_elements st /\ exists t, In t (qs_threads st) /\ asleep t = true.
Proof.
  exists lost_progs, lost_push. split; [eexists; reflexivity|]. split; [apply stuck_of; vm_compute; reflexivity|]. split; [vm_compute; discriminate|].
  exists (mk_qt [] WAsleep []). split; [vm_compute; now left|reflexivity].
Qed.
Lemma abort_lost : exists progs (st : qstate nat), reachable_from progs st /\ stuck st /\ q_abort (qs_shared st) = true /\ exists t, In t (qs_threads st) /\ asleep t = true.
Proof.
  exists lost_abort_progs, lost_abort. split; [eexists; reflexivity|]. split; [apply stuck_of; vm_compute; reflexivity|]. split; [vm_compute; reflexivity|].
  exists (mk_qt [] WAsleep []). split; [vm_compute; now left|reflexivity].
Qed.
(** the logger: events are reported, then the logger is destroyed before the writer takes them *)
Definition dropped : qstate nat := qrun (runs [1;1;1;1;1;1;1; 1;1; 0;0;0;0;0]) (qstart [[QWait]; [QPush 5; QAbort]]).
Lemma elements_lost : exists progs (st : qstate nat), reachable_from progs st /\ (forall t, In t (qs_threads st) -> finished t) /\ waiting_elements st.
Proof.
  exists [[QWait]; [QPush 5; QAbort]], dropped. split; [eexists; reflexivity|]. split; [|vm_compute; discriminate].
  assert (E : map (fun t => (qt_pc t, qt_todo t)) (qs_threads dropped) = [(QIdle, []); (QIdle, [])]) by (vm_compute; reflexivity).
  intros t Hin. apply (in_map (fun t => (qt_pc t, qt_todo t))) in Hin. rewrite E in Hin. destruct Hin as [[= A B]|[[= A B]|[]]]; now split.
Qed.

(** * A run with two producers and two consumers *)
Definition busy_progs : list (list (qreq nat)) := [[QPush 1; QPush 2]; [QPush 7]; [QWait; QTry]; [QTry; QWait; QAbort; QWait]].
Definition busy : qstate nat :=
  qrun (runs (flat_map (fun _ => [0; 3; 1; 2; 2; 0; 1; 3]) (seq 0 9))) (qstart busy_progs).
Definition busy_end : qstate nat :=
  qrun (runs (flat_map (fun _ => [0; 3; 1; 2; 2; 0; 1; 3]) (seq 0 30))) (qstart busy_progs).
Lemma busy_reach : reachable_from busy_progs busy.
Proof. eexists. reflexivity. Qed.
Lemma busy_end_reach : reachable_from busy_progs busy_end.
Proof. eexists. reflexivity. Qed.
Lemma busy_end_stuck : stuck busy_end.
Proof. apply stuck_of. vm_compute. reflexivity. Qed.
(** one that tries an empty queue *)
Definition early : qstate nat := qrun (runs [0;0;0]) (qstart [[QTry]; [QPush 3]]).
Definition early' : qstate nat := qrun (runs [0]) early.
Lemma early_step : qstep (Run 0 0) early = Some early'.
Proof. vm_compute. reflexivity. Qed.
Lemma early_nothing : gives_nothing 0 early early'.
Proof. exists (mk_qt [] TTail []), (mk_qt [] ORelease [None]). split; [|split]; vm_compute; reflexivity. Qed.
(** one that sleeps while another announces *)
Definition sleepy : qstate nat := qrun (runs [0;0;0;0;0;2;2;2;2;2; 1;1;1;1;1;1]) (qstart [[QWait]; [QPush 3]; [QWait]]).
Definition sleepy_abort : qstate nat := qrun (runs [0;0;0;0;0;2;2;2;2;2; 1]) (qstart [[QWait]; [QAbort]; [QWait]]).
Lemma dropped_stuck : stuck dropped.
Proof. apply stuck_of. vm_compute. reflexivity. Qed.
Lemma sleepy_announces : announces 1 sleepy.
Proof. exists (mk_qt [] PNotify []). split; vm_compute; reflexivity. Qed.
Lemma sleepy_two : sleepers sleepy = 2.
Proof. vm_compute. reflexivity. Qed.
Lemma sleepy_goes : exists st', qstep (Run 1 0) sleepy = Some st'.
Proof. apply (announce_possible sleepy 1 0). left. exact sleepy_announces. Qed.
Lemma sleepy_abort_announces : announces_abort 1 sleepy_abort.
Proof. exists (mk_qt [] ANotify []). split; vm_compute; reflexivity. Qed.
Lemma sleepy_abort_two : sleepers sleepy_abort = 2.
Proof. vm_compute. reflexivity. Qed.
Lemma sleepy_abort_goes : exists st', qstep (Run 1 0) sleepy_abort = Some st'.
Proof. apply (announce_possible sleepy_abort 1 0). right. exact sleepy_abort_announces. Qed.
