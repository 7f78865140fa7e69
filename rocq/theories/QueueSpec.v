(** What a queue shared by threads promises. *)
From Coq Require Import List Arith Bool.
From Verif Require Import QueueModel.
Import ListNotations.

Section Spec.
  Context {V : Type}.
  (** states that can be reached *)
  Definition reachable_from (progs : list (list (qreq V))) (st : qstate V) : Prop := exists sched, st = qrun sched (qstart progs).
  (** elements pushed, and elements taken out, in the order in which this happened *)
  Definition pushed (st : qstate V) : list V := map snd (q_pushed (qs_shared st)).
  Definition popped (st : qstate V) : list V := map snd (q_popped (qs_shared st)).
  (** ... by one thread *)
  Definition by_thread (i : nat) (l : list (nat * V)) : list V := map snd (filter (fun x => fst x =? i) l).
  Fixpoint somes (l : list (option V)) : list V := match l with [] => [] | Some v :: r => v :: somes r | None :: r => somes r end.
  (** elements a program pushes *)
  Fixpoint pushes (p : list (qreq V)) : list V := match p with [] => [] | QPush v :: r => v :: pushes r | _ :: r => pushes r end.
  (** there are elements in the queue *)
  Definition waiting_elements (st : qstate V) : Prop := popped st <> pushed st.
  Definition finished (t : qthread V) : Prop := qt_pc t = QIdle /\ qt_todo t = [].
  (** no thread can go on (unless one is woken for no reason) *)
  Definition stuck (st : qstate V) : Prop := forall i j, qstep (Run i j) st = None.
  (** the step of thread [i] gives it nothing for a request *)
  Definition gives_nothing (i : nat) (st st' : qstate V) : Prop :=
    exists t t', nth_error (qs_threads st) i = Some t /\ nth_error (qs_threads st') i = Some t' /\ qt_log t' = qt_log t ++ [None].
End Spec.

Section Waking.
  Context {V : Type}.
  (** how many threads wait to be woken *)
  Definition sleepers (st : qstate V) : nat := length (filter asleep (qs_threads st)).
  (** thread [i] is about to announce a new element, or the abortion *)
  Definition announces (i : nat) (st : qstate V) : Prop := exists t, nth_error (qs_threads st) i = Some t /\ qt_pc t = PNotify.
  Definition announces_abort (i : nat) (st : qstate V) : Prop := exists t, nth_error (qs_threads st) i = Some t /\ qt_pc t = ANotify.
End Waking.
