(** Tensors made on first use, by several threads: probability/maintains_tensors.cpp, with CollinsGisin::fill_missing_symbols,
    collins_gisin.cpp:126-160, and PolynomialTensor::fill_missing_polynomials, polynomial_tensor.cpp:28-51.

    The Collins-Gisin tensor has [total] elements; [known] of their symbols are registered so far (registering more is another
    operation of the matrix system), and a tensor is complete if it has found all.  FullCorrelator and ProbabilityTensor keep a reference to
    the Collins-Gisin tensor they were made from (polynomial_tensor.h:46): its number.  The system's lock is a shared_mutex; what a thread does while it
    holds the write lock is one step, possible if no thread holds a read lock.  What the tensors contain is in [ProbModel] and not here. *)
From Coq Require Import List Arith Bool.
Import ListNotations.

(** requests: RefreshCollinsGisin, RefreshFullCorrelator, RefreshProbabilityTensor with a read lock, each followed by use of the tensor under the
    same lock; registration of [n] more symbols *)
Inductive treq := TCg | TFc | TPt | TGrow (n : nat).
(** where a thread is; [b] is the value to be returned *)
Inductive tpc :=
| Idle
| CgTest (q : treq)             (** holds a read lock; 41, 54-56 *)
| CgMake (q : treq)             (** released it, waits for the write lock to make a Collins-Gisin tensor; 42-47 *)
| CgFill (q : treq)             (** ... to fill in missing symbols; 59-66 *)
| CgBack (q : treq) (b : bool)  (** waits for a read lock; 49, 67 *)
| ObTest (q : treq)             (** holds a read lock; 82-86, 104-106, 132, 148-150 *)
| ObMake (q : treq)             (** 89-97, 134-141 *)
| ObFill (q : treq)             (** 109-116, 153-160 *)
| ObBack (q : treq) (b : bool)  (** 99, 117, 143, 161 *)
| Use (q : treq) (b : bool).    (** the caller, with the read lock *)
Definition holds (p : tpc) : bool := match p with CgTest _ | ObTest _ | Use _ _ => true | _ => false end.
(** Collins-Gisin tensor: its number and how many symbols it has found; the others: which Collins-Gisin tensor they refer to, how many found.
    [sh_bad]: a reference to a destroyed tensor, or a null pointer, was used *)
Record tshared := mk_ts { sh_known : nat; sh_cg : option (nat * nat); sh_fresh : nat; sh_fc : option (nat * nat); sh_pt : option (nat * nat); sh_bad : bool }.
(** a thread: requests to come, where it is, the answers so far ([None]: exception) *)
Record tthread := mk_tt { tt_todo : list treq; tt_pc : tpc; tt_log : list (treq * option bool) }.

Section Mten.
  Variable total : nat.
  (** CanHaveFullCorrelator *)
  Variable can_fc : bool.
  Definition sh_obj (q : treq) (s : tshared) : option (nat * nat) := match q with TFc => sh_fc s | TPt => sh_pt s | _ => sh_cg s end.
  Definition set_obj (q : treq) (x : option (nat * nat)) (s : tshared) : tshared :=
    match q with
    | TFc => mk_ts (sh_known s) (sh_cg s) (sh_fresh s) x (sh_pt s) (sh_bad s)
    | TPt => mk_ts (sh_known s) (sh_cg s) (sh_fresh s) (sh_fc s) x (sh_bad s)
    | _ => mk_ts (sh_known s) x (sh_fresh s) (sh_fc s) (sh_pt s) (sh_bad s)
    end.
  Definition break (s : tshared) : tshared := mk_ts (sh_known s) (sh_cg s) (sh_fresh s) (sh_fc s) (sh_pt s) true.
  Definition complete (x : nat * nat) : bool := Nat.eqb (snd x) total.
  (** the Collins-Gisin tensor a reference refers to, if it still exists *)
  Definition deref (r : nat) (s : tshared) : option (nat * nat) := match sh_cg s with Some (id, n) => if Nat.eqb id r then Some (id, n) else None | None => None end.
  Definition after_cg (q : treq) (b : bool) : tpc := match q with TFc | TPt => ObTest q | _ => Use q b end.
  (** one step of a thread; [alone]: no read lock is held *)
  Definition thread_step (alone : bool) (t : tthread) (s : tshared) : option (tthread * tshared) :=
    let go p s' := Some (mk_tt (tt_todo t) p (tt_log t), s') in
    let answer q o s' := Some (mk_tt (tt_todo t) Idle (tt_log t ++ [(q, o)]), s') in
    match tt_pc t with
    | Idle =>
        match tt_todo t with
        | [] => None
        | TGrow n :: r => if alone then Some (mk_tt r Idle (tt_log t ++ [(TGrow n, Some true)]), mk_ts (Nat.min total (sh_known s + n)) (sh_cg s) (sh_fresh s) (sh_fc s) (sh_pt s) (sh_bad s)) else None
        | q :: r => Some (mk_tt r (CgTest q) (tt_log t), s)
        end
    | CgTest q =>
        match sh_cg s with
        | None => go (CgMake q) s
        | Some x => if complete x then go (after_cg q true) s else go (CgFill q) s
        end
    | CgMake q =>
        if alone then go (CgBack q (Nat.eqb (sh_known s) total)) (mk_ts (sh_known s) (Some (sh_fresh s, sh_known s)) (S (sh_fresh s)) (sh_fc s) (sh_pt s) (sh_bad s)) else None
    | CgFill q =>
        if alone then match sh_cg s with
                      | Some (id, _) => go (CgBack q (Nat.eqb (sh_known s) total)) (set_obj TCg (Some (id, sh_known s)) s)
                      | None => go (CgBack q false) (break s)
                      end
        else None
    | CgBack q b => go (after_cg q b) s
    | ObTest q =>
        match sh_obj q s with
        | None => if (match q with TFc => can_fc | _ => true end) then go (ObMake q) s else answer q None s
        | Some x => if complete x then go (Use q true) s else go (ObFill q) s
        end
    | ObMake q =>
        if alone then match sh_obj q s, sh_cg s with
                      | Some x, _ => go (ObBack q (complete x)) s
                      | None, Some x => go (ObBack q (complete x)) (set_obj q (Some x) s)
                      | None, None => go (ObBack q false) (break s)
                      end
        else None
    | ObFill q =>
        if alone then match sh_obj q s with
                      | Some (r, n) =>
                          if Nat.eqb n total then go (ObBack q true) s
                          else match deref r s with
                               | Some (_, m) => go (ObBack q (Nat.eqb m total)) (set_obj q (Some (r, m)) s)
                               | None => go (ObBack q false) (break s)
                               end
                      | None => go (ObBack q false) (break s)
                      end
        else None
    | ObBack q b => go (Use q b) s
    | Use q b =>
        match q, sh_obj q s with
        | TCg, Some _ => answer q (Some b) s
        | _, Some (r, _) => answer q (Some b) (match deref r s with Some _ => s | None => break s end)
        | _, None => answer q (Some b) (break s)
        end
    end.
  (** all threads *)
  Record tstate := mk_tstate { st_shared : tshared; st_threads : list tthread }.
  Definition no_reader (l : list tthread) : bool := forallb (fun t => negb (holds (tt_pc t))) l.
  Definition tstep (i : nat) (st : tstate) : option tstate :=
    match nth_error (st_threads st) i with
    | None => None
    | Some t => match thread_step (no_reader (st_threads st)) t (st_shared st) with
                | None => None
                | Some (t', s') => Some (mk_tstate s' (firstn i (st_threads st) ++ t' :: skipn (S i) (st_threads st)))
                end
    end.
  (** a schedule: which thread goes next; a thread that cannot go is passed over *)
  Fixpoint trun (sched : list nat) (st : tstate) : tstate :=
    match sched with [] => st | i :: r => trun r (match tstep i st with Some st' => st' | None => st end) end.
  Definition tstart (s : tshared) (progs : list (list treq)) : tstate := mk_tstate s (map (fun p => mk_tt p Idle []) progs).
End Mten.
(** a new system *)
Definition ts_new (known : nat) : tshared := mk_ts known None 0 None None false.
