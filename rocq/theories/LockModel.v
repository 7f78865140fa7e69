(** Operations under a std::shared_mutex: an interleaving semantics.

    Several of the library's classes guard their data with one std::shared_mutex and run every public operation with the lock held
    (shared for reading, exclusive for writing) from beginning to end (for example utilities/persistent_storage.h:96-139, 186-285).
    An operation is a list of memory actions on the shared state and on a thread-local result; the threads are interleaved action
    by action, and the lock is what std::shared_mutex promises: exclusive ownership excludes every other owner, shared ownership
    excludes exclusive owners.  What a thread does next may depend on the result of its last operation. *)
From Coq Require Import List Arith Bool.
From Verif Require Import ParModel.
Import ListNotations.

Section Lock.
  Variables S L : Type.
  Record lop := mk_lop { lo_excl : bool; lo_steps : list (S * L -> S * L) }.
  Inductive prog := PDone (r : L) | POp (o : lop) (k : L -> prog).
  Inductive thread := TIdle (p : prog) | TBusy (o : lop) (rest : list (S * L -> S * L)) (l : L) (k : L -> prog).
  Definition busy (t : thread) : bool := match t with TIdle _ => false | TBusy _ _ _ _ => true end.
  Definition busy_excl (t : thread) : bool := match t with TIdle _ => false | TBusy o _ _ _ => lo_excl o end.
  (** threads, memory, and the operations that have been completed so far (thread, operation, result), oldest first *)
  Record lstate := mk_lstate { l_ths : list thread; l_mem : S; l_log : list (nat * lop * L) }.
  Variable l0 : L.
  Inductive lstep : lstate -> nat -> lstate -> Prop :=
  | l_lock_shared : forall ths m log t o k, nth_error ths t = Some (TIdle (POp o k)) -> lo_excl o = false ->
      (forall th, In th ths -> busy_excl th = false) ->
      lstep (mk_lstate ths m log) t (mk_lstate (set_at t (TBusy o (lo_steps o) l0 k) ths) m log)
  | l_lock_excl : forall ths m log t o k, nth_error ths t = Some (TIdle (POp o k)) -> lo_excl o = true ->
      (forall th, In th ths -> busy th = false) ->
      lstep (mk_lstate ths m log) t (mk_lstate (set_at t (TBusy o (lo_steps o) l0 k) ths) m log)
  | l_act : forall ths m log t o f rest l k, nth_error ths t = Some (TBusy o (f :: rest) l k) ->
      lstep (mk_lstate ths m log) t (mk_lstate (set_at t (TBusy o rest (snd (f (m, l))) k) ths) (fst (f (m, l))) log)
  | l_unlock : forall ths m log t o l k, nth_error ths t = Some (TBusy o [] l k) ->
      lstep (mk_lstate ths m log) t (mk_lstate (set_at t (TIdle (k l)) ths) m (log ++ [(t, o, l)])).
  Inductive lexec : lstate -> lstate -> Prop :=
  | lexec_nil : forall s, lexec s s
  | lexec_step : forall s s1 t s2, lexec s s1 -> lstep s1 t s2 -> lexec s s2.
  Definition lstart (ps : list prog) (m : S) : lstate := mk_lstate (map TIdle ps) m [].

  (** running an operation with nobody else about *)
  Definition run_lop (o : lop) (m : S) : S * L := fold_left (fun x f => f x) (lo_steps o) (m, l0).
End Lock.
Arguments mk_lop {S L}. Arguments lo_excl {S L}. Arguments lo_steps {S L}. Arguments PDone {S L}. Arguments POp {S L}.
Arguments TIdle {S L}. Arguments TBusy {S L}. Arguments busy {S L}. Arguments busy_excl {S L}. Arguments mk_lstate {S L}.
Arguments l_ths {S L}. Arguments l_mem {S L}. Arguments l_log {S L}. Arguments lstep {S L}. Arguments lexec {S L}. Arguments lstart {S L}.
Arguments run_lop {S L}. Arguments l_lock_shared {S L}. Arguments l_lock_excl {S L}. Arguments l_act {S L}. Arguments l_unlock {S L}.
