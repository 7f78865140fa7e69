(** Transforming the elements of a matrix, by one thread or by several: multithreading/matrix_transformation_worker.h, and its callers
    matrix/substituted_matrix.cpp:22-45 and matrix/operator_matrix/operator_matrix_transformation.h:54-106. *)
From Coq Require Import List Arith Bool.
Import ListNotations.

Section Trans.
  Context {A B : Type}.
  (** the functor; [None]: it throws *)
  Variable f : A -> option B.
  (** what the output holds before: output_elem{} (substituted_matrix.cpp:35), or create_uninitialized_vector (operator_matrix_transformation.h:98) *)
  Variable fresh : B.
  Variable dim : nat.
  Variable input : list A.

  (** One thread: substituted_matrix.cpp:38-42, std::transform in operator_matrix_transformation.h:81; [None]: the exception of the functor *)
  Fixpoint transform_st (l : list A) : option (list B) :=
    match l with
    | [] => Some []
    | x :: r => match f x with None => None | Some y => match transform_st r with None => None | Some t => Some (y :: t) end end
    end.

  (** Several threads.  A worker: the loop variables of execute (60-73); running, returned, stopped by an exception (kept in [exception], 69), or reading outside the data *)
  Inductive wstat := Running | Ended | Failed | OutOfBounds.
  Record worker := mk_w { w_col : nat; w_row : nat; w_stat : wstat }.
  (** [ts_writes]: history (worker, offset); not in the program *)
  Record tstate := mk_ts { ts_out : list B; ts_work : list worker; ts_writes : list (nat * nat) }.
  Definition put (o : nat) (y : B) (l : list B) : list B := firstn o l ++ y :: skipn (S o) l.
  (** number of workers, 88 *)
  Definition num_threads (max_threads : nat) : nat := Nat.min max_threads dim.
  Section Workers.
    Variable workers : nat.
    (** one step of execute, 60-73: the loop over the columns of a worker, and over rows *)
    Definition wstep (k : nat) (w : worker) (out : list B) : option (worker * list B * list (nat * nat)) :=
      match w_stat w with
      | Running =>
          if w_col w <? dim then
            if w_row w <? dim then
              let offset := w_col w * dim + w_row w in
              match nth_error input offset with
              | None => Some (mk_w (w_col w) (w_row w) OutOfBounds, out, [])
              | Some x =>
                  match f x with
                  | None => Some (mk_w (w_col w) (w_row w) Failed, out, [])
                  | Some y => Some (mk_w (w_col w) (S (w_row w)) Running, put offset y out, [(k, offset)])
                  end
              end
            else Some (mk_w (w_col w + workers) 0 Running, out, [])
          else Some (mk_w (w_col w) (w_row w) Ended, out, [])
      | _ => None
      end.
    Definition tstep (k : nat) (st : tstate) : option tstate :=
      match nth_error (ts_work st) k with
      | None => None
      | Some w =>
          match wstep k w (ts_out st) with
          | None => None
          | Some (w', out', h) => Some (mk_ts out' (firstn k (ts_work st) ++ w' :: skipn (S k) (ts_work st)) (ts_writes st ++ h))
          end
      end.
    Fixpoint trun (sched : list nat) (st : tstate) : tstate :=
      match sched with [] => st | k :: r => trun r (match tstep k st with Some st' => st' | None => st end) end.
    (** 93-97; a worker that has not been created yet is one that has not taken a step yet *)
    Definition tstart : tstate := mk_ts (repeat fresh (dim * dim)) (map (fun k => mk_w k 0 Running) (seq 0 workers)) [].
  End Workers.
  (** 100-108: all workers are joined, and the caller takes the output.  The operand of noexcept (103) is the name of the functor, not a call of it:
      noexcept(the_functor) is true for every functor, and the exception of a worker is never thrown again. *)
  Definition join (st : tstate) : option (list B) :=
    if existsb (fun w => match w_stat w with Running => true | _ => false end) (ts_work st) then None else Some (ts_out st).
End Trans.
