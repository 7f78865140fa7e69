(** The cache of dictionary levels shared by threads: Dictionary, dictionary.cpp:17-67. *)
From Coq Require Import List Arith Bool.
Import ListNotations.

(** A generator is represented by the level it was made for (new_osg is a function of the level alone).
    [c_osgs] is osgs, [c_map] is npa_level_to_offset. *)
Record cache := mk_cache { c_osgs : list nat; c_map : list (nat * nat) }.
(** constructor 17-26: a generator for level 0, not entered in the map *)
Definition cache_start : cache := mk_cache [0] [].
Fixpoint map_find (k : nat) (m : list (nat * nat)) : option nat :=
  match m with [] => None | (a, b) :: m' => if Nat.eqb a k then Some b else map_find k m' end.

(** Where a call of Level(level) is, 29-67.  Each constructor names the next step, which runs under a lock or touches only
    local data, so that the steps are atomic. *)
Inductive call :=
| CRead (level : nat)             (* 31-38, under the read lock *)
| CCreate (level : nat)           (* 41-45, no lock, local *)
| CWrite (level : nat)            (* 48-66, under the write lock *)
| CDone (level : nat) (offset : nat)  (* returned osgs[offset] *)
| CUndefined (level : nat).       (* line 54: offset_iter->second with offset_iter = cend() *)
Definition call_step (c : cache) (t : call) : cache * call :=
  match t with
  | CRead l => match map_find l (c_map c) with Some o => (c, CDone l o) | None => (c, CCreate l) end
  | CCreate l => (c, CWrite l)
  | CWrite l =>
      match map_find l (c_map c) with
      | Some _ => (c, CUndefined l)
      | None => let osgs := c_osgs c ++ [l] in
                let index := length osgs - 1 in
                (mk_cache osgs (c_map c ++ [(l, index)]), CDone l index)
      end
  | CDone _ _ | CUndefined _ => (c, t)
  end.
(** threads, each making one call; a schedule picks whose step is next *)
Fixpoint step_thread (i : nat) (c : cache) (ts : list call) {struct ts} : cache * list call :=
  match ts with
  | [] => (c, [])
  | t :: ts' => match i with
                | O => let (c', t') := call_step c t in (c', t' :: ts')
                | S i' => let (c', ts'') := step_thread i' c ts' in (c', t :: ts'')
                end
  end.
Fixpoint run_schedule (sched : list nat) (c : cache) (ts : list call) : cache * list call :=
  match sched with [] => (c, ts) | i :: s => let (c', ts') := step_thread i c ts in run_schedule s c' ts' end.
(** one thread calling Level again and again: each call runs to its end (three steps suffice) *)
Definition call_level (c : cache) (l : nat) : cache * call :=
  let (c1, t1) := call_step c (CRead l) in let (c2, t2) := call_step c1 t1 in call_step c2 t2.
Fixpoint call_all (c : cache) (ls : list nat) : cache * list call :=
  match ls with [] => (c, []) | l :: ls' => let (c', t) := call_level c l in let (c'', ts) := call_all c' ls' in (c'', t :: ts) end.
