(** What transforming a matrix means. *)
From Coq Require Import List Arith Bool.
From Verif Require Import TransModel.
Import ListNotations.

Section Spec.
  Context {A B : Type}.
  (** [l] are the values of [f] on [input] *)
  Definition elementwise (f : A -> option B) (input : list A) (l : list B) : Prop := Forall2 (fun x y => f x = Some y) input l.
  Definition never_throws (f : A -> option B) (input : list A) : Prop := forall x, In x input -> f x <> None.
  (** states of a computation with [m] threads allowed *)
  Definition computation (f : A -> option B) (fresh : B) (dim : nat) (input : list A) (m : nat) (st : tstate (B := B)) : Prop :=
    length input = dim * dim /\ 0 < m /\ exists sched, st = trun f dim input (num_threads dim m) sched (tstart fresh dim (num_threads dim m)).
  (** how many steps of a schedule happen *)
  Fixpoint effective (f : A -> option B) (dim : nat) (input : list A) (w : nat) (sched : list nat) (st : tstate (B := B)) : nat :=
    match sched with
    | [] => 0
    | k :: r => match tstep f dim input w k st with Some st' => S (effective f dim input w r st') | None => effective f dim input w r st end
    end.
End Spec.
