(** Threads that share memory and wait for one another: an interleaving semantics.

    The library's parallel sections all have this form: a main thread and workers run straight-line programs over shared
    memory, and synchronise by signals that are given once and never withdrawn (std::atomic_flag with wait/notify_all,
    std::promise / std::future, std::thread::join, a monotone atomic level).  A memory action is one step: C++ makes programs
    without data races sequentially consistent, and absence of data races is proved separately where it is claimed. *)
From Coq Require Import List Arith Bool.
Import ListNotations.

Definition set_at {A} (n : nat) (x : A) (l : list A) : list A := firstn n l ++ match skipn n l with [] => [] | _ :: r => x :: r end.

Section Par.
  Variables S E : Type.
  (** one instruction: blocks until all signals in [needs] were given, acts on memory, gives the signals in [emits] *)
  Record instr := mk_instr { needs : list E; emits : list E; act : S -> S }.
  (** threads (what is left to run of each), signals given, memory *)
  Record cstate := mk_cstate { c_progs : list (list instr); c_evs : list E; c_mem : S }.
  Inductive step : cstate -> nat -> cstate -> Prop :=
  | step_thread : forall ps evs m t i rest, nth_error ps t = Some (i :: rest) -> (forall e, In e (needs i) -> In e evs) ->
      step (mk_cstate ps evs m) t (mk_cstate (set_at t rest ps) (emits i ++ evs) (act i m)).
  (** runs, with the schedule: which thread moved at each step *)
  Inductive exec : cstate -> list nat -> cstate -> Prop :=
  | exec_nil : forall s, exec s [] s
  | exec_cons : forall s t s1 l s2, step s t s1 -> exec s1 l s2 -> exec s (t :: l) s2.
  Definition finished (s : cstate) : Prop := forall p, In p (c_progs s) -> p = [].
  Definition stuck (s : cstate) : Prop := forall t s', ~ step s t s'.
  Definition start (ps : list (list instr)) (m : S) : cstate := mk_cstate ps [] m.

  (** instruction number [snd p] of thread [fst p] *)
  Definition at_pos (ps : list (list instr)) (p : nat * nat) : option instr :=
    match nth_error ps (fst p) with Some l => nth_error l (snd p) | None => None end.
  (** happens-before: program order, and giving a signal before waiting for it (if nothing else gives it) *)
  Inductive hb (ps : list (list instr)) : nat * nat -> nat * nat -> Prop :=
  | hb_po : forall t i j, i < j -> hb ps (t, i) (t, j)
  | hb_sync : forall a b x y e, at_pos ps a = Some x -> at_pos ps b = Some y -> In e (emits x) -> In e (needs y) ->
      (forall c z, at_pos ps c = Some z -> In e (emits z) -> c = a) -> hb ps a b
  | hb_trans : forall a b c, hb ps a b -> hb ps b c -> hb ps a c.
  (** actions of different threads commute or are ordered *)
  Definition ordered_conflicts (ps : list (list instr)) : Prop :=
    forall a b x y, at_pos ps a = Some x -> at_pos ps b = Some y -> fst a <> fst b ->
      (forall m, act x (act y m) = act y (act x m)) \/ hb ps a b \/ hb ps b a.
End Par.
Arguments mk_instr {S E}. Arguments needs {S E}. Arguments emits {S E}. Arguments act {S E}.
Arguments mk_cstate {S E}. Arguments c_progs {S E}. Arguments c_evs {S E}. Arguments c_mem {S E}.
Arguments step {S E}. Arguments exec {S E}. Arguments finished {S E}. Arguments stuck {S E}. Arguments start {S E}.
Arguments at_pos {S E}. Arguments hb {S E}. Arguments ordered_conflicts {S E}.
