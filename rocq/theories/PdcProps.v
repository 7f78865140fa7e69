(** C81: the dictionaries of a Pauli scenario, shared by threads. *)
From Coq Require Import List Arith Bool.
From Verif Require Import PdcModel PdcSpec PdcProofs PdcRunProofs PdcFinalProofs.
Import ListNotations.

(** Any programs, any schedule: words and counts that are read belong to the dictionary asked for, and an exception is thrown only if that
    dictionary cannot be made. *)
Theorem C81_right : forall G make size zero grow, growing grow -> forall sched progs (e : pevent G),
  saw (prun make size grow sched (pbegin zero grow progs)) e -> right_event make size e.
Proof. exact right_events. Qed.
Print Assumptions C81_right.

(** A reference to the list of words itself stays usable for ever. *)
Theorem C81_generators_stay : forall G make size (zero : G) grow, growing grow -> forall sched progs k,
  ~ saw (prun make size grow sched (pbegin zero grow progs)) (ELost k).
Proof. exact generators_stay. Qed.
Print Assumptions C81_generators_stay.

(** Whoever asks for a dictionary, and how often, opens the same list; different dictionaries are different lists. *)
Theorem C81_one_generator : forall G make size (zero : G) grow, growing grow -> forall sched progs k k' a a',
  saw (prun make size grow sched (pbegin zero grow progs)) (EOpened k a) -> saw (prun make size grow sched (pbegin zero grow progs)) (EOpened k' a') ->
  (a = a' <-> k = k').
Proof. exact one_generator. Qed.
Print Assumptions C81_one_generator.

(** No thread waits for ever: with enough turns its program ends, whatever the others do. *)
Theorem C81_finishes : forall G make size (zero : G) grow i sched progs p, nth_error progs i = Some p -> 5 * length p <= turns i sched ->
  exists t, nth_error (ps_threads (prun make size grow sched (pbegin zero grow progs))) i = Some t /\ finished t.
Proof. exact finishes. Qed.
Print Assumptions C81_finishes.

(** If nothing stopped it, everything it asked was answered. *)
Theorem C81_all_answered : forall G make size (zero : G) grow i sched progs p t, nth_error progs i = Some p ->
  nth_error (ps_threads (prun make size grow sched (pbegin zero grow progs))) i = Some t -> finished t -> (forall e, In e (pt_log t) -> ~ stopping_event e) ->
  length (pt_log t) = length p.
Proof. exact all_answered. Qed.
Print Assumptions C81_all_answered.

(** If no two threads ask for the same dictionary, and the vector has room for all, no schedule meets undefined behaviour. *)
Theorem C81_defined_partial : forall G make size (zero : G) grow, growing grow -> forall sched progs e, apart progs -> length (flat_map asks progs) < grow 0 ->
  saw (prun make size grow sched (pbegin zero grow progs)) e -> ~ undefined_event e.
Proof. exact good_schedule. Qed.
Print Assumptions C81_defined_partial.
(** Each of the two conditions on its own excludes one of the two kinds of undefined behaviour. *)
Theorem C81_apart_partial : forall G make size (zero : G) grow, growing grow -> forall sched progs k, apart progs ->
  ~ saw (prun make size grow sched (pbegin zero grow progs)) (ERaced k).
Proof. exact apart_fine. Qed.
Print Assumptions C81_apart_partial.
Theorem C81_room_partial : forall G make size (zero : G) grow, growing grow -> forall sched progs k, length (flat_map asks progs) < grow 0 ->
  ~ saw (prun make size grow sched (pbegin zero grow progs)) (EDangling k).
Proof. exact room_fine. Qed.
Print Assumptions C81_room_partial.
(** One thread that opens a pair before it asks for a dictionary new to it meets none, however the vector grows. *)
Theorem C81_careful_partial : forall G make size (zero : G) grow, growing grow -> forall sched p e, careful [] 0 [] 0 p = true ->
  saw (prun make size grow sched (pbegin zero grow [p])) e -> ~ undefined_event e /\ e <> EBad.
Proof. exact careful_fine. Qed.
Print Assumptions C81_careful_partial.

(** Two threads that ask for the same new nearest-neighbour dictionary: one dereferences an end iterator. *)
Theorem C81_near_race_refuted : forall G make size (zero : G) grow g, make (1, 1) = Some g ->
  saw (prun make size grow [0;0;1;1;0;0;1;1] (pbegin zero grow [[Ask (1, 1)]; [Ask (1, 1)]])) (ERaced (1, 1)).
Proof. exact near_race. Qed.
Print Assumptions C81_near_race_refuted.
(** One thread that keeps the pair of level 1 while it asks for level 2. *)
Theorem C81_kept_pair_refuted : forall G make size (zero : G) g1 g2, make (1, 0) = Some g1 -> make (2, 0) = Some g2 ->
  saw (prun make size doubling (repeat 0 9) (pbegin zero doubling [[Ask (1, 0); Ask (2, 0); Open 0]])) (EDangling (1, 0)).
Proof. exact kept_pair. Qed.
Print Assumptions C81_kept_pair_refuted.
(** Two threads that only count words. *)
Theorem C81_count_refuted : forall G make size (zero : G) g1 g2, make (1, 0) = Some g1 -> make (2, 0) = Some g2 ->
  saw (prun make size doubling [0;0;0;0;1;1;1;1;0] (pbegin zero doubling [[Count (1, 0)]; [Count (2, 0)]])) (EDangling (1, 0)).
Proof. exact count_race. Qed.
Print Assumptions C81_count_refuted.

Example C81_growing : growing doubling.
Proof. exact doubling_grows. Qed.
Example C81_nonvacuous :
  let p := [Ask (2, 1); Open 0; Count (2, 0); Words 0; Ask (2, 1); Open 1; Ask (1, 9); Open 0] in
  map pt_log (ps_threads (prun keys fst doubling (repeat 0 40) (pbegin (0, 0) doubling [p]))) =
    [[EAsked (2, 1); EOpened (2, 1) 1; ECount (2, 0) 2; EWords (2, 1) (2, 1); EAsked (2, 1); EOpened (2, 1) 1; EThrown (1, 9)]] /\
  careful [] 0 [] 0 (firstn 7 p) = true /\ careful [] 0 [] 0 p = false.
Proof. repeat split. Qed.
Example C81_nonvacuous_threads :
  let grow n := n + 5 in
  let progs := [[Ask (2, 1); Open 0; Words 0]; [Count (3, 0); Count (3, 0)]] in
  growing grow /\ length (flat_map asks progs) < grow 0 /\
  map pt_log (ps_threads (prun keys fst grow [0;1;0;1;0;1;0;1;0;1;0;1;0;1;1;1;1] (pbegin (0, 0) grow progs))) =
    [[EAsked (2, 1); EOpened (2, 1) 1; EWords (2, 1) (2, 1)]; [ECount (3, 0) 3; ECount (3, 0) 3]].
Proof. split; [intro n; apply Nat.lt_add_pos_r, Nat.lt_0_succ|]. split; [repeat constructor|reflexivity]. Qed.
Example C81_apart : apart [[Ask (2, 1); Open 0; Words 0]; [Count (3, 0); Count (3, 0)]].
Proof.
  intros i j p q k P Q A B. destruct i as [|[|i]], j as [|[|j]]; cbn in P, Q; try reflexivity; try discriminate; try (destruct i; discriminate); try (destruct j; discriminate);
    injection P as <-; injection Q as <-; cbn in A, B; intuition congruence.
Qed.
