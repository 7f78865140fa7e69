(** C73: a queue shared by threads gives each element once, in order. *)
From Coq Require Import List Arith Bool.
From Verif Require Import QueueModel QueueSpec QueueRunProofs QueueWitnessProofs.
Import ListNotations.

(** Whatever the threads do, and however their steps interleave: elements come out in the order in which they went in, each at most once, and nothing else
    comes out. *)
Theorem C73_first_in_first_out : forall (V : Type) (progs : list (list (qreq V))) (st : qstate V),
  reachable_from progs st -> exists rest, pushed st = popped st ++ rest.
Proof. exact (@first_in_first_out). Qed.
Print Assumptions C73_first_in_first_out.
Example C73_first_in_first_out_holds : reachable_from busy_progs busy /\ pushed busy = [1; 7; 2] /\ popped busy = [1].
Proof. split; [exact busy_reach|]. split; vm_compute; reflexivity. Qed.

(** What the requests of a thread gave it is what it took from the queue, in that order; what it has put in is the first of what it was to put in, and all of it
    when it has finished. *)
Theorem C73_own_elements : forall (V : Type) (progs : list (list (qreq V))) (st : qstate V), reachable_from progs st ->
  forall i p t, nth_error progs i = Some p -> nth_error (qs_threads st) i = Some t ->
  somes (qt_log t) = by_thread i (q_popped (qs_shared st)) /\
  (exists rest, pushes p = by_thread i (q_pushed (qs_shared st)) ++ rest) /\ (finished t -> by_thread i (q_pushed (qs_shared st)) = pushes p).
Proof. exact (@own_elements). Qed.
Print Assumptions C73_own_elements.
Example C73_own_elements_holds : reachable_from busy_progs busy_end /\ map (@qt_log nat) (qs_threads busy_end) = [[]; []; [Some 1; Some 2]; [Some 7]] /\
  q_popped (qs_shared busy_end) = [(2, 1); (3, 7); (2, 2)].
Proof. split; [exact busy_end_reach|]. split; vm_compute; reflexivity. Qed.

(** No null pointer is followed, and no element is read that is not there. *)
Theorem C73_safe : forall (V : Type) (progs : list (list (qreq V))) (st : qstate V), reachable_from progs st -> q_broken (qs_shared st) = false.
Proof. exact (@not_broken). Qed.
Print Assumptions C73_safe.
Example C73_safe_holds : reachable_from busy_progs busy_end.
Proof. exact busy_end_reach. Qed.

(** A request gives nothing only when the queue is aborted or empty. *)
Theorem C73_nothing_if_empty : forall (V : Type) (progs : list (list (qreq V))) (st st' : qstate V) i j,
  reachable_from progs st -> qstep (Run i j) st = Some st' -> gives_nothing i st st' -> q_abort (qs_shared st) = true \/ pushed st = popped st.
Proof. exact (@nothing_if_empty). Qed.
Print Assumptions C73_nothing_if_empty.
Example C73_nothing_if_empty_holds : reachable_from [[QTry]; [QPush 3]] early /\ qstep (Run 0 0) early = Some early' /\ gives_nothing 0 early early'.
Proof. split; [eexists; reflexivity|]. split; [exact early_step|exact early_nothing]. Qed.

(** No deadlock: when no thread can go on, each has finished or waits for an element. *)
Theorem C73_no_deadlock : forall (V : Type) (progs : list (list (qreq V))) (st : qstate V), reachable_from progs st -> stuck st ->
  forall t, In t (qs_threads st) -> finished t \/ asleep t = true.
Proof. exact (@only_sleepers). Qed.
Print Assumptions C73_no_deadlock.
Example C73_no_deadlock_holds : reachable_from busy_progs busy_end /\ stuck busy_end.
Proof. split; [exact busy_end_reach|exact busy_end_stuck]. Qed.

(** A thread that has put in an element wakes one thread that waits, if there is one; one that aborts wakes all. *)
Theorem C73_push_wakes : forall (V : Type) (st st' : qstate V) i j, announces i st -> qstep (Run i j) st = Some st' -> sleepers st' = sleepers st - 1.
Proof. exact (@push_wakes). Qed.
Print Assumptions C73_push_wakes.
Example C73_push_wakes_holds : announces 1 sleepy /\ sleepers sleepy = 2 /\ exists st', qstep (Run 1 0) sleepy = Some st'.
Proof. split; [exact sleepy_announces|]. split; [exact sleepy_two|exact sleepy_goes]. Qed.
Theorem C73_abort_wakes : forall (V : Type) (st st' : qstate V) i j, announces_abort i st -> qstep (Run i j) st = Some st' -> sleepers st' = 0.
Proof. exact (@abort_wakes). Qed.
Print Assumptions C73_abort_wakes.
Example C73_abort_wakes_holds : announces_abort 1 sleepy_abort /\ sleepers sleepy_abort = 2 /\ exists st', qstep (Run 1 0) sleepy_abort = Some st'.
Proof. split; [exact sleepy_abort_announces|]. split; [exact sleepy_abort_two|exact sleepy_abort_goes]. Qed.

(** But a thread that has found the queue empty, and does not wait yet, is not woken: it waits for ever though there is an element. *)
Theorem C73_waiting_ends_refuted : exists progs (st : qstate nat),
  reachable_from progs st /\ stuck st /\ waiting_elements st /\ exists t, In t (qs_threads st) /\ asleep t = true.
Proof. exact push_lost. Qed.
Print Assumptions C73_waiting_ends_refuted.
(** ... or though the queue was aborted. *)
Theorem C73_abort_ends_refuted : exists progs (st : qstate nat),
  reachable_from progs st /\ stuck st /\ q_abort (qs_shared st) = true /\ exists t, In t (qs_threads st) /\ asleep t = true.
Proof. exact abort_lost. Qed.
Print Assumptions C73_abort_ends_refuted.
(** Without such a thread, all threads finish. *)
Theorem C73_waiting_ends_partial : forall (V : Type) (st : qstate V), stuck st -> sleepers st = 0 ->
  forall progs, reachable_from progs st -> forall t, In t (qs_threads st) -> finished t.
Proof. exact (@wait_ends). Qed.
Print Assumptions C73_waiting_ends_partial.
Example C73_waiting_ends_partial_holds : stuck dropped /\ sleepers dropped = 0 /\ reachable_from [[QWait]; [QPush 5; QAbort]] dropped.
Proof. split; [exact dropped_stuck|]. split; [reflexivity|]. eexists. reflexivity. Qed.

(** Elements put in before the queue is aborted may never be taken out, though a thread waits for them. *)
Theorem C73_all_taken_refuted : exists progs (st : qstate nat), reachable_from progs st /\ (forall t, In t (qs_threads st) -> finished t) /\ waiting_elements st.
Proof. exact elements_lost. Qed.
Print Assumptions C73_all_taken_refuted.
