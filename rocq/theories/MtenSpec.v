(** What threads that ask for tensors rely on. *)
From Coq Require Import List Arith Bool.
From Verif Require Import MtenModel.
Import ListNotations.

(** A consistent system: at most [total] symbols; the tensors refer to the Collins-Gisin tensor that exists and have found no more than it has. *)
Record consistent (total : nat) (s : tshared) : Prop := mk_consistent {
  co_known : sh_known s <= total;
  co_cg : forall id n, sh_cg s = Some (id, n) -> id < sh_fresh s /\ n <= sh_known s;
  co_obj : forall q r n, q = TFc \/ q = TPt -> sh_obj q s = Some (r, n) -> exists m, sh_cg s = Some (r, m) /\ n <= m;
  co_good : sh_bad s = false }.
(** the thread has an answer to each of its requests *)
Definition finished (t : tthread) : Prop := tt_todo t = [] /\ tt_pc t = Idle.
(** all answers of a thread *)
Definition answers (st : tstate) (i : nat) (q : treq) (o : option bool) : Prop := exists t, nth_error (st_threads st) i = Some t /\ In (q, o) (tt_log t).
(** thread [i] is using the tensor it asked for, having been told [b] *)
Definition in_use (st : tstate) (i : nat) (q : treq) (b : bool) : Prop := exists t, nth_error (st_threads st) i = Some t /\ tt_pc t = Use q b.
(** the tensor is there, refers to something that exists, and is complete if [b] *)
Definition usable (total : nat) (q : treq) (b : bool) (s : tshared) : Prop :=
  exists id n m, sh_obj q s = Some (id, n) /\ sh_cg s = Some (id, m) /\ (b = true -> n = total).
(** the number of steps a request can take *)
Definition request_steps : nat := 8.
(** number of steps in [sched] that are taken *)
Fixpoint taken (total : nat) (can_fc : bool) (sched : list nat) (st : tstate) : nat :=
  match sched with [] => 0 | i :: r => match tstep total can_fc i st with Some st' => S (taken total can_fc r st') | None => taken total can_fc r st end end.
