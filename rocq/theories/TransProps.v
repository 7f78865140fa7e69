(** C74: transforming the elements of a matrix by several threads gives what one thread gives. *)
From Coq Require Import List Arith Bool.
From Verif Require Import TransModel TransSpec TransRunProofs.
Import ListNotations.

(** When no element makes the function throw, several threads give what one gives: the values of the function, each in its place. *)
Theorem C74_same_as_one : forall (A B : Type) (f : A -> option B) fresh dim input m st, computation f fresh dim input m st ->
  forall l, never_throws f input -> join st = Some l -> transform_st f input = Some l /\ elementwise f input l.
Proof. exact (@same_as_one). Qed.
Print Assumptions C74_same_as_one.
Example C74_same_as_one_holds : computation small_only 0 2 quad' 8 fine /\ never_throws small_only quad' /\ join fine = Some [11; 14; 12; 13].
Proof. exact (conj fine_state (conj fine_never fine_join)). Qed.

(** At no time do two threads write the same element, or one element twice, or read or write outside the matrix. *)
Theorem C74_no_race : forall (A B : Type) (f : A -> option B) fresh dim input m st, computation f fresh dim input m st ->
  NoDup (map snd (ts_writes st)) /\ (forall k o, In (k, o) (ts_writes st) -> o < dim * dim) /\ (forall w, In w (ts_work st) -> w_stat w <> OutOfBounds).
Proof. exact (@in_bounds_once). Qed.
Print Assumptions C74_no_race.
Example C74_no_race_holds : computation small_only 0 2 quad' 8 fine /\ ts_writes fine = [(1, 2); (0, 0); (1, 3); (0, 1)].
Proof. split; [exact fine_state|vm_compute; reflexivity]. Qed.

(** The computation ends: until it has, some thread can go on, and only so many steps are possible, whatever the schedule. *)
Theorem C74_goes_on : forall (A B : Type) (f : A -> option B) dim input m st, join st = None -> exists k, tstep f dim input (num_threads dim m) k st <> None.
Proof. exact (@ends_sometime). Qed.
Print Assumptions C74_goes_on.
Example C74_goes_on_holds : join (tstart 0 2 2) = None.
Proof. reflexivity. Qed.
Theorem C74_ends : forall (A B : Type) (f : A -> option B) fresh dim input m, length input = dim * dim -> 0 < m ->
  forall sched, effective f dim input (num_threads dim m) sched (tstart fresh dim (num_threads dim m)) <= num_threads dim m * (S dim * S dim).
Proof. exact (@few_steps). Qed.
Print Assumptions C74_ends.
Example C74_ends_holds : length quad = 2 * 2 /\ effective small_only 2 quad 2 [0; 1; 0; 1; 1; 1; 1; 1; 1; 0] (tstart 0 2 2) = 6.
Proof. split; vm_compute; reflexivity. Qed.

(** With exceptions, one thread throws. *)
Theorem C74_one_throws : forall (A B : Type) (f : A -> option B) l, transform_st f l = None <-> exists x, In x l /\ f x = None.
Proof. exact (@TransProofs.st_throws). Qed.
Print Assumptions C74_one_throws.
Example C74_one_throws_holds : transform_st small_only quad = None.
Proof. reflexivity. Qed.

(** Several do not: the call returns normally, with elements that were never computed. *)
Theorem C74_exception_refuted : exists (f : nat -> option nat) fresh dim input m st l,
  computation f fresh dim input m st /\ transform_st f input = None /\ join st = Some l.
Proof. exact lost_exception. Qed.
Print Assumptions C74_exception_refuted.
(** What holds: an element of the result is right, or it is the one that was there before; always the latter if the function throws on it. *)
Theorem C74_exception_partial : forall (A B : Type) (f : A -> option B) fresh dim input m st, computation f fresh dim input m st ->
  forall o x, nth_error input o = Some x ->
  (f x = None -> nth_error (ts_out st) o = Some fresh) /\ (nth_error (ts_out st) o = Some fresh \/ exists y, f x = Some y /\ nth_error (ts_out st) o = Some y).
Proof. exact (@right_or_fresh). Qed.
Print Assumptions C74_exception_partial.
Example C74_exception_partial_holds : computation small_only 0 2 quad 8 silent /\ nth_error quad 1 = Some 7 /\ small_only 7 = None /\ join silent = Some [11; 0; 12; 13].
Proof. split; [exact silent_state|]. split; [reflexivity|]. split; vm_compute; reflexivity. Qed.
