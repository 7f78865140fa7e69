(** C71: the bases of a matrix, made on first use by several threads. *)
From Coq Require Import List Arith Bool Lia.
From Verif Require Import LazyModel LazySpec LazyProofs LazyRunProofs LazyWitnessProofs.
Import ListNotations.

(** Whatever the schedule, each request is answered with the basis of the kind asked for, or with the exception that making it throws. *)
Theorem C71_answers W make infer progs sched i t k o : nth_error (bs_threads (brun W make infer sched (bstart W progs))) i = Some t -> In (k, o) (bt_log t) ->
  o = as_returned W (basis_of W make infer k).
Proof. exact (right_answer W make infer progs sched i t k o). Qed.
Print Assumptions C71_answers.
Example C71_answers_example : map bt_log (bs_threads fin) =
  [[(dm, Some (Some 11, Some 12)); (dc, Some (Some 1, Some 2))]; [(dc, Some (Some 1, Some 2)); (dr, None)]; [(dm, Some (Some 11, Some 12)); (dm, Some (Some 11, Some 12))]].
Proof. exact fin_log. Qed.

(** The references a thread was given stay good: what they refer to is never changed afterwards. *)
Theorem C71_references W make infer progs sched i t k v more : nth_error (bs_threads (brun W make infer sched (bstart W progs))) i = Some t -> In (k, Some v) (bt_log t) ->
  s_done (b_slot (bs_shared (brun W make infer (sched ++ more) (bstart W progs))) k) = true /\ parts W (b_slot (bs_shared (brun W make infer (sched ++ more) (bstart W progs))) k) = v.
Proof. exact (answer_lasts W make infer progs sched i t k v more). Qed.
Print Assumptions C71_references.
(** A basis called done is the right one and is never changed. *)
Theorem C71_done W make infer progs sched more k : s_done (b_slot (bs_shared (brun W make infer sched (bstart W progs))) k) = true ->
  (exists v, basis_of W make infer k = Some v /\ parts W (b_slot (bs_shared (brun W make infer sched (bstart W progs))) k) = (Some (fst v), Some (snd v))) /\
  b_slot (bs_shared (brun W make infer (sched ++ more) (bstart W progs))) k = b_slot (bs_shared (brun W make infer sched (bstart W progs))) k.
Proof. exact (lasting W make infer progs sched more k). Qed.
Print Assumptions C71_done.
Example C71_done_example : s_done (b_slot (bs_shared mid) dc) = true /\ s_done (b_slot (bs_shared mid) dm) = false.
Proof. split; vm_compute; reflexivity. Qed.

(** Each basis is made at most once. *)
Theorem C71_once W make infer progs sched k : s_made (b_slot (bs_shared (brun W make infer sched (bstart W progs))) k) <= 1.
Proof. exact (made_once W make infer progs sched k). Qed.
Print Assumptions C71_once.
Example C71_once_example : s_made (b_slot (bs_shared fin) dm) = 1 /\ s_made (b_slot (bs_shared fin) dr) = 0.
Proof. split; vm_compute; reflexivity. Qed.

(** Nobody waits forever, and every schedule ends: at most nine steps for a cellular basis, seventeen for a monolithic one. *)
Theorem C71_no_deadlock W make infer progs sched : (exists i t, nth_error (bs_threads (brun W make infer sched (bstart W progs))) i = Some t /\ ~ bfinished W t) ->
  exists i st', bstep W make infer i (brun W make infer sched (bstart W progs)) = Some st'.
Proof. exact (progress W make infer progs sched). Qed.
Print Assumptions C71_no_deadlock.
Example C71_no_deadlock_example : exists i t, nth_error (bs_threads mid) i = Some t /\ ~ bfinished nat t.
Proof. exists 0. eexists. split; [vm_compute; reflexivity|]. intros (E & _). discriminate E. Qed.
Theorem C71_bounded W make infer progs sched : btaken W make infer sched (bstart W progs) <= list_sum (map kind_steps (concat progs)).
Proof. exact (bounded W make infer progs sched). Qed.
Print Assumptions C71_bounded.
Theorem C71_ends W make infer progs sched : (forall i st', bstep W make infer i (brun W make infer sched (bstart W progs)) <> Some st') ->
  forall i t, nth_error (bs_threads (brun W make infer sched (bstart W progs))) i = Some t -> bfinished W t.
Proof. exact (ends W make infer progs sched). Qed.
Print Assumptions C71_ends.
(** A thread gets its answers in order, one for each request. *)
Theorem C71_in_order W make infer progs sched i t : nth_error (bs_threads (brun W make infer sched (bstart W progs))) i = Some t ->
  exists p, nth_error progs i = Some p /\ (exists rest, p = map fst (bt_log t) ++ rest) /\ (bfinished W t -> map fst (bt_log t) = p).
Proof. exact (in_order W make infer progs sched i t). Qed.
Print Assumptions C71_in_order.
Example C71_in_order_example : map (fun t => (bt_todo t, bt_loc t)) (bs_threads fin) = [([], Out); ([], Out); ([], Out)].
Proof. vm_compute. reflexivity. Qed.
