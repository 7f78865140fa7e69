(** A queue shared by threads: multithreading/queue.h.  A linked list of nodes with a dummy node at the end, a mutex for the head, one for the tail,
    and a condition variable.  One step per access to something shared; get_tail (205-208), which holds the tail mutex for one read, is one step.
    Nodes are numbered as they are allocated.  emplace_back and push_back (93-120) differ in how the element is built only.  A thread that was waiting on the condition variable is woken by a
    notification (which of several: the schedule says), or for no reason ([Spurious]); then it takes the head mutex again. *)
From Coq Require Import List Arith Bool.
Import ListNotations.

Section Queue.
  Variable V : Type.
  Inductive qreq := QPush (v : V) | QTry | QWait | QAbort.
  (** where a thread is; the numbers are lines of queue.h *)
  Inductive qpc :=
  | QIdle
  | PLock (v : V) (new : nat)      (* 111: next_node made, about to take the tail mutex *)
  | PDatum (v : V) (new : nat)     (* 114 *)
  | PNext (v : V) (new : nat)      (* 115 *)
  | PTail (v : V) (new : nat)      (* 116 *)
  | PUnlock                        (* 117 *)
  | PNotify                        (* 118 *)
  | TLock                          (* 134 *)
  | TAbort                         (* 137 *)
  | TTail                          (* 142 *)
  | WLock                          (* 171, and after being woken *)
  | WTail                          (* 175: the first half of the condition *)
  | WAbort                         (* 175: the second half *)
  | WSleep                         (* 174: about to release the mutex and wait, in one step *)
  | WAsleep                        (* 174: waiting *)
  | WFlag                          (* 178 *)
  | OPop                           (* 188-189: the next node is moved out of the head *)
  | OSwap                          (* 190 *)
  | ORelease                       (* the head mutex is released *)
  | ANotify.                       (* 124 *)
  (** a thread: what it will do, where it is, what it got from its requests for elements (None: nothing) *)
  Record qthread := mk_qt { qt_todo : list qreq; qt_pc : qpc; qt_log : list (option V) }.
  (** [q_mid]: the local variable of pop_head (188) between its two steps; only the owner of the head mutex has one.  [q_pushed], [q_popped]: history,
      with the number of the thread; not in the program.  [q_broken]: a null pointer or an empty optional was dereferenced. *)
  Record qshared := mk_qs {
    q_datum : nat -> option V; q_next : nat -> option nat; q_head : nat; q_tail : nat; q_fresh : nat;
    q_hlock : bool; q_tlock : bool; q_abort : bool; q_mid : option nat;
    q_pushed : list (nat * V); q_popped : list (nat * V); q_broken : bool }.
  Definition upd {A} (f : nat -> A) (n : nat) (x : A) : nat -> A := fun m => if m =? n then x else f m.
  Definition q_new : qshared := mk_qs (fun _ => None) (fun _ => None) 0 0 1 false false false None [] [] false.

  Definition with_hlock (b : bool) (s : qshared) := mk_qs (q_datum s) (q_next s) (q_head s) (q_tail s) (q_fresh s) b (q_tlock s) (q_abort s) (q_mid s) (q_pushed s) (q_popped s) (q_broken s).
  Definition with_tlock (b : bool) (s : qshared) := mk_qs (q_datum s) (q_next s) (q_head s) (q_tail s) (q_fresh s) (q_hlock s) b (q_abort s) (q_mid s) (q_pushed s) (q_popped s) (q_broken s).
  Definition with_abort (s : qshared) := mk_qs (q_datum s) (q_next s) (q_head s) (q_tail s) (q_fresh s) (q_hlock s) (q_tlock s) true (q_mid s) (q_pushed s) (q_popped s) (q_broken s).
  Definition alloc (s : qshared) := mk_qs (q_datum s) (q_next s) (q_head s) (q_tail s) (S (q_fresh s)) (q_hlock s) (q_tlock s) (q_abort s) (q_mid s) (q_pushed s) (q_popped s) (q_broken s).
  Definition put_datum (v : V) (s : qshared) := mk_qs (upd (q_datum s) (q_tail s) (Some v)) (q_next s) (q_head s) (q_tail s) (q_fresh s) (q_hlock s) (q_tlock s) (q_abort s) (q_mid s) (q_pushed s) (q_popped s) (q_broken s).
  Definition put_next (n : nat) (s : qshared) := mk_qs (q_datum s) (upd (q_next s) (q_tail s) (Some n)) (q_head s) (q_tail s) (q_fresh s) (q_hlock s) (q_tlock s) (q_abort s) (q_mid s) (q_pushed s) (q_popped s) (q_broken s).
  (** tail = tail->next.get() *)
  Definition move_tail (i : nat) (v : V) (s : qshared) :=
    match q_next s (q_tail s) with
    | Some n => mk_qs (q_datum s) (q_next s) (q_head s) n (q_fresh s) (q_hlock s) (q_tlock s) (q_abort s) (q_mid s) (q_pushed s ++ [(i, v)]) (q_popped s) (q_broken s)
    | None => mk_qs (q_datum s) (q_next s) (q_head s) (q_tail s) (q_fresh s) (q_hlock s) (q_tlock s) (q_abort s) (q_mid s) (q_pushed s) (q_popped s) true
    end.
  Definition pop_next (s : qshared) :=
    mk_qs (q_datum s) (upd (q_next s) (q_head s) None) (q_head s) (q_tail s) (q_fresh s) (q_hlock s) (q_tlock s) (q_abort s) (q_next s (q_head s)) (q_pushed s) (q_popped s) (q_broken s).
  (** the swap, and the element of the node that comes out *)
  Definition pop_swap (i : nat) (s : qshared) : option V * qshared :=
    match q_mid s, q_datum s (q_head s) with
    | Some n, Some v => (Some v, mk_qs (q_datum s) (q_next s) n (q_tail s) (q_fresh s) (q_hlock s) (q_tlock s) (q_abort s) None (q_pushed s) (q_popped s ++ [(i, v)]) (q_broken s))
    | _, _ => (None, mk_qs (q_datum s) (q_next s) (q_head s) (q_tail s) (q_fresh s) (q_hlock s) (q_tlock s) (q_abort s) None (q_pushed s) (q_popped s) true)
    end.

  (** what a step does besides: nothing, wake one, wake all *)
  Inductive wake := WakeNone | WakeOne | WakeAll.
  Definition qthread_step (i : nat) (t : qthread) (s : qshared) : option (qthread * qshared * wake) :=
    let go p s' := Some (mk_qt (qt_todo t) p (qt_log t), s', WakeNone) in
    let got o p s' := Some (mk_qt (qt_todo t) p (qt_log t ++ [o]), s', WakeNone) in
    match qt_pc t with
    | QIdle =>
        match qt_todo t with
        | [] => None
        | QPush v :: r => Some (mk_qt r (PLock v (q_fresh s)) (qt_log t), alloc s, WakeNone)
        | QTry :: r => Some (mk_qt r TLock (qt_log t), s, WakeNone)
        | QWait :: r => Some (mk_qt r WLock (qt_log t), s, WakeNone)
        | QAbort :: r => Some (mk_qt r ANotify (qt_log t), with_abort s, WakeNone)
        end
    | PLock v n => if q_tlock s then None else go (PDatum v n) (with_tlock true s)
    | PDatum v n => go (PNext v n) (put_datum v s)
    | PNext v n => go (PTail v n) (put_next n s)
    | PTail v n => go PUnlock (move_tail i v s)
    | PUnlock => go PNotify (with_tlock false s)
    | PNotify => Some (mk_qt (qt_todo t) QIdle (qt_log t), s, WakeOne)
    | ANotify => Some (mk_qt (qt_todo t) QIdle (qt_log t), s, WakeAll)
    | TLock => if q_hlock s then None else go TAbort (with_hlock true s)
    | TAbort => if q_abort s then got None ORelease s else go TTail s
    | TTail => if q_tlock s then None else if q_head s =? q_tail s then got None ORelease s else go OPop s
    | WLock => if q_hlock s then None else go WTail (with_hlock true s)
    | WTail => if q_tlock s then None else if q_head s =? q_tail s then go WAbort s else go WFlag s
    | WAbort => if q_abort s then go WFlag s else go WSleep s
    | WSleep => go WAsleep (with_hlock false s)
    | WAsleep => None
    | WFlag => if q_abort s then got None ORelease s else go OPop s
    | OPop => go OSwap (pop_next s)
    | OSwap => let (o, s') := pop_swap i s in got o ORelease s'
    | ORelease => go QIdle (with_hlock false s)
    end.

  Definition asleep (t : qthread) : bool := match qt_pc t with WAsleep => true | _ => false end.
  Definition awake (t : qthread) : qthread := if asleep t then mk_qt (qt_todo t) WLock (qt_log t) else t.
  Definition edit_at (i : nat) (f : qthread -> qthread) (l : list qthread) : list qthread :=
    match nth_error l i with Some t => firstn i l ++ f t :: skipn (S i) l | None => l end.
  (** the first that waits *)
  Fixpoint wake_first (l : list qthread) : list qthread :=
    match l with [] => [] | t :: r => if asleep t then awake t :: r else t :: wake_first r end.
  Definition wake_one (j : nat) (l : list qthread) : list qthread :=
    match nth_error l j with Some t => if asleep t then edit_at j awake l else wake_first l | None => wake_first l end.
  Record qstate := mk_qst { qs_shared : qshared; qs_threads : list qthread }.
  (** [Run i j]: thread [i] takes a step; if it wakes one thread, it is [j] (or the first that waits, if [j] does not) *)
  Inductive qlabel := Run (i j : nat) | Spurious (i : nat).
  Definition qstep (l : qlabel) (st : qstate) : option qstate :=
    match l with
    | Run i j =>
        match nth_error (qs_threads st) i with
        | None => None
        | Some t =>
            match qthread_step i t (qs_shared st) with
            | None => None
            | Some (t', s', w) =>
                let l' := edit_at i (fun _ => t') (qs_threads st) in
                Some (mk_qst s' (match w with WakeNone => l' | WakeOne => wake_one j l' | WakeAll => map awake l' end))
            end
        end
    | Spurious i =>
        match nth_error (qs_threads st) i with
        | Some t => if asleep t then Some (mk_qst (qs_shared st) (edit_at i awake (qs_threads st))) else None
        | None => None
        end
    end.
  Fixpoint qrun (sched : list qlabel) (st : qstate) : qstate :=
    match sched with [] => st | l :: r => qrun r (match qstep l st with Some st' => st' | None => st end) end.
  Definition qstart (progs : list (list qreq)) : qstate := mk_qst q_new (map (fun p => mk_qt p QIdle []) progs).
End Queue.
Arguments QPush {V}. Arguments QTry {V}. Arguments QWait {V}. Arguments QAbort {V}.
Arguments qs_shared {V}. Arguments qs_threads {V}. Arguments qt_todo {V}. Arguments qt_pc {V}. Arguments qt_log {V}. Arguments mk_qt {V}. Arguments mk_qst {V}.
Arguments q_datum {V}. Arguments q_next {V}. Arguments q_head {V}. Arguments q_tail {V}. Arguments q_fresh {V}. Arguments q_hlock {V}. Arguments q_tlock {V}.
Arguments q_abort {V}. Arguments q_mid {V}. Arguments q_pushed {V}. Arguments q_popped {V}. Arguments q_broken {V}.
Arguments QIdle {V}. Arguments PLock {V}. Arguments PDatum {V}. Arguments PNext {V}. Arguments PTail {V}. Arguments PUnlock {V}. Arguments PNotify {V}.
Arguments TLock {V}. Arguments TAbort {V}. Arguments TTail {V}. Arguments WLock {V}. Arguments WTail {V}. Arguments WAbort {V}. Arguments WSleep {V}.
Arguments WAsleep {V}. Arguments WFlag {V}. Arguments OPop {V}. Arguments OSwap {V}. Arguments ORelease {V}. Arguments ANotify {V}.
Arguments qstep {V}. Arguments qrun {V}. Arguments qstart {V}. Arguments asleep {V}. Arguments awake {V}. Arguments edit_at {V}. Arguments wake_one {V}. Arguments wake_first {V}.
Arguments qthread_step {V}. Arguments q_new {V}. Arguments upd {A}.
