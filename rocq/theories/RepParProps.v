(** C64: making representations with several threads. *)
From Coq Require Import List Arith NArith ZArith Bool.
From Verif Require Import CoreModel AlgModel RepModel ParModel RepParModel RepSpec RepWitnessProofs RepParFinalProofs.
Import ListNotations.

(** Whatever the schedule, no thread meets a missing representation or a missing matrix, and when the call returns the representations are those that one
    thread makes and all workers have ended. *)
Theorem C64_same_result : forall (K : Type) (k0 k1 : K) (kadd kmul : K -> K -> K) (todo : list N) (maps : N -> option mapper) (size workers : nat) (reps0 final : N -> option (rep K)),
  1 <= workers -> build_reps k0 k1 kadd kmul maps size reps0 todo = Some final ->
  forall order, exists s, prun k0 k1 kadd kmul todo maps size workers (pstart todo size workers reps0) order = Some s /\
    (p_main s = MEnd -> p_reps s = final /\ forall w pc, nth_error (p_work s) w = Some pc -> exists k, pc = WDone k).
Proof. exact f_result. Qed.
Print Assumptions C64_same_result.

(** The call returns: the number of steps is bounded, and as long as the main thread has not finished some thread can go on. *)
Theorem C64_finishes : forall (K : Type) (k0 k1 : K) (kadd kmul : K -> K -> K) (todo : list N) (maps : N -> option mapper) (size workers : nat) (reps0 final : N -> option (rep K)),
  1 <= workers -> build_reps k0 k1 kadd kmul maps size reps0 todo = Some final ->
  forall order, moved k0 k1 kadd kmul todo maps size workers (pstart todo size workers reps0) order <= length todo * (workers + 2) + 2 * workers + 3 + workers * (length todo * (size + 2) + 1) /\
    forall s, prun k0 k1 kadd kmul todo maps size workers (pstart todo size workers reps0) order = Some s -> p_main s <> MEnd -> exists t s', pstep k0 k1 kadd kmul todo maps size workers s t = PNext s'.
Proof. exact f_finishes. Qed.
Print Assumptions C64_finishes.

(** When the main thread publishes a level no worker is at work; two workers at work are at the same level and at different elements; the level at which a
    worker is at work is the one the main thread waits for. *)
Theorem C64_no_race : forall (K : Type) (k0 k1 : K) (kadd kmul : K -> K -> K) (todo : list N) (maps : N -> option mapper) (size workers : nat) (reps0 final : N -> option (rep K)),
  1 <= workers -> build_reps k0 k1 kadd kmul maps size reps0 todo = Some final ->
  forall order s, prun k0 k1 kadd kmul todo maps size workers (pstart todo size workers reps0) order = Some s ->
    (forall k w pc, p_main s = MWait k workers -> k < length todo -> nth_error (p_work s) w = Some pc -> forall l e ra rb, pc <> WWork l e ra rb) /\
    (forall v w l m e f ra rb qa qb, v <> w -> nth_error (p_work s) v = Some (WWork l e ra rb) -> nth_error (p_work s) w = Some (WWork m f qa qb) -> l = m /\ e <> f) /\
    (forall w l e ra rb, nth_error (p_work s) w = Some (WWork l e ra rb) -> exists j, p_main s = MWait l j).
Proof. exact f_no_race. Qed.
Print Assumptions C64_no_race.

(** The group of the example of C63 with two elements, words of lengths 2 and 3, two workers. *)
Example C64_case : 1 <= 2 /\ build_reps 0%Z 1%Z Z.add Z.mul maps3 2 (g_reps start2) [2; 3]%N = Some final3 /\
  ended (prun 0%Z 1%Z Z.add Z.mul [2; 3]%N maps3 2 2 (pstart [2; 3]%N 2 2 (g_reps start2)) fair3) = true.
Proof. exact f_par_case. Qed.
