(** Making representations with several threads, scenarios/symmetrized/group_rep_generation_worker.cpp.

    A step of a thread is one of: a worker waits and takes its parents; a worker makes one matrix; a worker signals that it is done with a level; the main
    thread sees that one worker is done with a level; the main thread publishes a representation and raises the level; join.  Atomic counters with
    release/acquire order, wait and notify_all are modelled by steps that block until the counter has the value. *)
From Coq Require Import List Arith NArith Bool.
From Verif Require Import CoreModel AlgModel RepModel ParModel.
Import ListNotations.

Section Par.
  Variables (K : Type) (k0 k1 : K) (kadd kmul : K -> K -> K).
  Notation mat := (mat K). Notation rep := (rep K).
  (** the build list, the mappers, the number of elements of the group, the number of workers *)
  Variables (todo : list N) (maps : N -> option mapper) (size workers : nat).

  (** GroupRepGenerationWorker::execute, 31-75: last_generated_index is the first argument *)
  Inductive wpc := WWait (last : nat) | WWork (last : nat) (elem : nat) (left right : rep) | WDone (last : nat).
  Definition last_of (w : wpc) : nat := match w with WWait k => k | WWork k _ _ _ => k | WDone k => k end.
  (** GroupRepGenerationBundle::execute, 104-142: waiting for worker [j] at level [k]; joining worker [j]; finished *)
  Inductive mpc := MWait (k j : nat) | MJoin (j : nat) | MEnd.
  Record pstate := mk_p { p_reps : N -> option rep; p_raw : list (list (option mat)); p_global : nat; p_main : mpc; p_work : list wpc }.
  (** blocked; null pointer, missing matrix or other fault; next state *)
  Inductive pout := PBlocked | PBad | PNext (s : pstate).

  (** one step of worker [w] *)
  Definition worker_step (s : pstate) (w : nat) : pout :=
    let set pc := mk_p (p_reps s) (p_raw s) (p_global s) (p_main s) (set_at w pc (p_work s)) in
    match nth_error (p_work s) w with
    | None => PBlocked
    | Some (WDone _) => PBlocked
    | Some (WWait k) =>
        match nth_error todo k with
        | None => PNext (set (WDone k))
        | Some wl =>
            if p_global s <? k then PBlocked
            else let (a, b) := parents wl in
                 match p_reps s a, p_reps s b with
                 | Some ra, Some rb => PNext (set (WWork k w ra rb))
                 | _, _ => PBad
                 end
        end
    | Some (WWork k e ra rb) =>
        if e <? size then
          match nth_error todo k with
          | None => PBad
          | Some wl =>
              match maps wl, nth_error ra e, nth_error rb e, nth_error (p_raw s) k with
              | Some m, Some x, Some y, Some raw =>
                  if e <? length raw then
                    PNext (mk_p (p_reps s) (set_at k (set_at e (Some (apply_mapper k0 k1 kadd kmul m x y)) raw) (p_raw s)) (p_global s) (p_main s) (set_at w (WWork k (e + workers) ra rb) (p_work s)))
                  else PBad
              | _, _, _, _ => PBad
              end
          end
        else PNext (set (WWait (S k)))
    end.
  (** one step of the main thread; a matrix that was not made counts as a fault *)
  Definition main_step (s : pstate) : pout :=
    let set pc := mk_p (p_reps s) (p_raw s) (p_global s) pc (p_work s) in
    match p_main s with
    | MWait k j =>
        match nth_error todo k with
        | None => PNext (set (MJoin 0))
        | Some wl =>
            if j <? workers then
              match nth_error (p_work s) j with
              | Some w => if k <? last_of w then PNext (set (MWait k (S j))) else PBlocked
              | None => PBad
              end
            else match nth_error (p_raw s) k with
                 | None => PBad
                 | Some raw =>
                     match sequence raw with
                     | None => PBad
                     | Some r => PNext (mk_p (upd (p_reps s) wl r) (set_at k [] (p_raw s)) (S (p_global s)) (MWait (S k) 0) (p_work s))
                     end
                 end
        end
    | MJoin j =>
        if j <? workers then match nth_error (p_work s) j with Some (WDone _) => PNext (set (MJoin (S j))) | Some _ => PBlocked | None => PBad end
        else PNext (set MEnd)
    | MEnd => PBlocked
    end.
  (** thread 0 is the main thread *)
  Definition pstep (s : pstate) (t : nat) : pout := match t with 0 => main_step s | S w => worker_step s w end.
  (** GroupRepGenerationBundle constructor, 84-102, and launch *)
  Definition pstart (reps : N -> option rep) : pstate := mk_p reps (map (fun _ => repeat None size) todo) 0 (MWait 0 0) (repeat (WWait 0) workers).
  (** a run; the schedule says which thread is tried next, a blocked thread stays where it is *)
  Fixpoint prun (s : pstate) (order : list nat) : option pstate :=
    match order with
    | [] => Some s
    | t :: rest => match pstep s t with PBad => None | PBlocked => prun s rest | PNext s' => prun s' rest end
    end.
  (** the steps of a schedule that did something *)
  Fixpoint moved (s : pstate) (order : list nat) : nat :=
    match order with
    | [] => 0
    | t :: rest => match pstep s t with PNext s' => S (moved s' rest) | _ => moved s rest end
    end.
End Par.
Arguments WWait {K}. Arguments WWork {K}. Arguments WDone {K}. Arguments last_of {K}. Arguments mk_p {K}. Arguments p_reps {K}. Arguments p_raw {K}. Arguments p_global {K}. Arguments p_main {K}. Arguments p_work {K}.
Arguments PBlocked {K}. Arguments PBad {K}. Arguments PNext {K}. Arguments worker_step {K}. Arguments main_step {K}. Arguments pstep {K}. Arguments pstart {K}. Arguments prun {K}. Arguments moved {K}.
