(** One thread at a time: what the completed operations would have done if each had run alone, in the given order. *)
From Coq Require Import List Arith Bool.
From Verif Require Import LockModel.
Import ListNotations.

Section Lock.
  Variables S L : Type.
  Variable l0 : L.
  (** operations that only hold the lock shared must not write *)
  Definition reads_only (o : lop S L) : Prop := lo_excl o = false -> forall f, In f (lo_steps o) -> forall m l, fst (f (m, l)) = m.
  Inductive disciplined : prog S L -> Prop :=
  | disc_done : forall r, disciplined (PDone r)
  | disc_op : forall o k, reads_only o -> (forall l, disciplined (k l)) -> disciplined (POp o k).
  (** [log] is a sequential history from memory [m] to memory [m']: each operation ran alone and gave the recorded result *)
  Inductive sequential : S -> list (nat * lop S L * L) -> S -> Prop :=
  | seq_nil : forall m, sequential m [] m
  | seq_cons : forall m t o log m', sequential (fst (run_lop l0 o m)) log m' -> sequential m ((t, o, snd (run_lop l0 o m)) :: log) m'.
  (** what thread [t] has left to do after the operations it completed in [log] *)
  Fixpoint remaining (t : nat) (p : prog S L) (log : list (nat * lop S L * L)) : option (prog S L) :=
    match log with
    | [] => Some p
    | (t', o, l) :: log' => if Nat.eqb t' t then match p with POp _ k => remaining t (k l) log' | PDone _ => None end else remaining t p log'
    end.
  (** the operations of thread [t] in [log] are those its program asks for *)
  Fixpoint follows (t : nat) (p : prog S L) (log : list (nat * lop S L * L)) : Prop :=
    match log with
    | [] => True
    | (t', o, l) :: log' => if Nat.eqb t' t then match p with POp o' k => o' = o /\ follows t (k l) log' | PDone _ => False end else follows t p log'
    end.
End Lock.
Arguments reads_only {S L}. Arguments disciplined {S L}. Arguments sequential {S L}. Arguments remaining {S L}. Arguments follows {S L}.
