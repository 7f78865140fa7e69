(** C70: tensors made on first use by several threads. *)
From Coq Require Import List Arith Bool Lia.
From Verif Require Import MtenModel MtenSpec MtenProofs MtenRunProofs MtenWitnessProofs.
Import ListNotations.

(** If the Collins-Gisin tensor exists before the threads start, or if there is one thread, then under every schedule no thread ever uses a null
    pointer or a destroyed tensor, and the three tensors remain consistent. *)
Theorem C70_safe total can_fc s progs sched : consistent total s -> sh_cg s <> None \/ length progs <= 1 ->
  consistent total (st_shared (trun total can_fc sched (tstart s progs))).
Proof. exact (safe total can_fc s progs sched). Qed.
Print Assumptions C70_safe.
Example C70_safe_example : consistent 4 warm /\ sh_cg warm <> None /\ consistent 4 (ts_new 2) /\ length [three] <= 1.
Proof. split; [exact warm_consistent|]. split; [discriminate|]. split; [apply new_consistent; lia|apply le_n]. Qed.

(** A thread that uses a tensor, holding the lock, finds it; what it refers to exists; and if it was told that all symbols are there, they are. *)
Theorem C70_usable total can_fc s progs sched i q b : consistent total s -> sh_cg s <> None \/ length progs <= 1 ->
  in_use (trun total can_fc sched (tstart s progs)) i q b -> usable total q b (st_shared (trun total can_fc sched (tstart s progs))).
Proof. exact (use_ok total can_fc s progs sched i q b). Qed.
Print Assumptions C70_usable.
Example C70_usable_example : consistent 4 warm /\ sh_cg warm <> None /\ in_use (trun 4 true [1; 1; 1; 1; 1; 1; 1] (tstart warm three)) 1 TFc false.
Proof. split; [exact warm_consistent|]. split; [discriminate|]. eexists. split; [vm_compute; reflexivity|reflexivity]. Qed.

(** The answers stay right: a tensor reported complete is complete from then on. *)
Theorem C70_answers total can_fc s progs sched i q o : consistent total s -> sh_cg s <> None \/ length progs <= 1 -> (q = TCg \/ q = TFc \/ q = TPt) ->
  answers (trun total can_fc sched (tstart s progs)) i q o ->
  (o = None /\ q = TFc /\ can_fc = false) \/ exists b, o = Some b /\ usable total q b (st_shared (trun total can_fc sched (tstart s progs))).
Proof. exact (answer_true total can_fc s progs sched i q o). Qed.
Print Assumptions C70_answers.
Example C70_answers_example : consistent 4 warm /\ sh_cg warm <> None /\ answers (trun 4 true (robin 40 3) (tstart warm three)) 1 TFc (Some true).
Proof. split; [exact warm_consistent|]. split; [discriminate|]. eexists. split; [vm_compute; reflexivity|right; left; reflexivity]. Qed.

(** If all symbols are registered before the threads start, every request reports a complete tensor (or is refused, if the scenario has no full
    correlator). *)
Theorem C70_complete total can_fc s progs sched i q o : consistent total s -> sh_cg s <> None \/ length progs <= 1 -> sh_known s = total -> (q = TCg \/ q = TFc \/ q = TPt) ->
  answers (trun total can_fc sched (tstart s progs)) i q o -> o = Some true \/ o = None /\ q = TFc /\ can_fc = false.
Proof. exact (answer_full total can_fc s progs sched i q o). Qed.
Print Assumptions C70_complete.
Example C70_complete_example : consistent 4 warm_full /\ sh_cg warm_full <> None /\ sh_known warm_full = 4 /\ answers (trun 4 true (robin 40 3) (tstart warm_full three)) 0 TPt (Some true).
Proof. split; [exact warm_full_consistent|]. split; [discriminate|]. split; [reflexivity|]. eexists. split; [vm_compute; reflexivity|left; reflexivity]. Qed.

(** Each tensor is made once: later steps neither replace it nor lose a symbol. *)
Theorem C70_once total can_fc s progs sched more q id n : consistent total s -> sh_cg s <> None \/ length progs <= 1 ->
  sh_obj q (st_shared (trun total can_fc sched (tstart s progs))) = Some (id, n) ->
  exists n', sh_obj q (st_shared (trun total can_fc (sched ++ more) (tstart s progs))) = Some (id, n') /\ n <= n'.
Proof. exact (kept total can_fc s progs sched more q id n). Qed.
Print Assumptions C70_once.
Example C70_once_example : consistent 4 warm /\ sh_cg warm <> None /\ sh_obj TPt (st_shared (trun 4 true (robin 20 3) (tstart warm three))) <> None.
Proof. split; [exact warm_consistent|]. split; [discriminate|]. vm_compute. discriminate. Qed.

(** Otherwise not: two threads that both find no Collins-Gisin tensor each make one, and the second one destroys the first, to which the full
    correlator made in between refers; its next user reads a destroyed object.  [C70_safe], [C70_usable] and [C70_once] without their second
    hypothesis are false. *)
Theorem C70_first_use_refuted : exists total s progs sched i q b, consistent total s /\ sh_known s = total /\
  in_use (trun total true sched (tstart s progs)) i q b /\ ~ usable total q b (st_shared (trun total true sched (tstart s progs))) /\
  sh_bad (st_shared (trun total true (sched ++ [i]) (tstart s progs))) = true.
Proof. exact race_refuted. Qed.
Print Assumptions C70_first_use_refuted.

(** Nobody waits forever: as long as some thread has not finished, some thread can go. *)
Theorem C70_no_deadlock total can_fc st : (exists i t, nth_error (st_threads st) i = Some t /\ ~ finished t) -> exists i st', tstep total can_fc i st = Some st'.
Proof. exact (progress total can_fc st). Qed.
Print Assumptions C70_no_deadlock.
Example C70_no_deadlock_example : exists i t, nth_error (st_threads (trun 4 true [0; 0; 1; 2] (tstart warm three))) i = Some t /\ ~ finished t.
Proof. exists 0. eexists. split; [vm_compute; reflexivity|]. intros (E & _). discriminate. Qed.

(** Every request takes at most eight steps, whatever the schedule. *)
Theorem C70_bounded total can_fc s progs sched : taken total can_fc sched (tstart s progs) <= request_steps * length (concat progs).
Proof. exact (bounded total can_fc s progs sched). Qed.
Print Assumptions C70_bounded.
Example C70_bounded_example : taken 4 true (robin 40 3) (tstart warm three) = 44 /\ request_steps * length (concat three) = 56.
Proof. split; vm_compute; reflexivity. Qed.

(** A thread gets its answers in order; when nothing can go any more, each thread has an answer to each request. *)
Theorem C70_in_order total can_fc s progs sched i t : nth_error (st_threads (trun total can_fc sched (tstart s progs))) i = Some t ->
  exists p, nth_error progs i = Some p /\ (exists rest, p = map fst (tt_log t) ++ rest) /\ (finished t -> map fst (tt_log t) = p).
Proof. exact (in_order total can_fc s progs sched i t). Qed.
Print Assumptions C70_in_order.
Theorem C70_ends total can_fc s progs sched : (forall i st', tstep total can_fc i (trun total can_fc sched (tstart s progs)) <> Some st') ->
  forall i t, nth_error (st_threads (trun total can_fc sched (tstart s progs))) i = Some t -> finished t.
Proof. exact (ends total can_fc s progs sched). Qed.
Print Assumptions C70_ends.
Example C70_ends_example : map (fun t => (tt_todo t, tt_log t)) (st_threads (trun 4 true (robin 40 3) (tstart warm three))) =
  [([], [(TPt, Some false); (TGrow 1, Some true); (TPt, Some true)]); ([], [(TFc, Some false); (TFc, Some true)]); ([], [(TCg, Some false); (TPt, Some true)])].
Proof. exact robin_ends. Qed.
