(** What a user of the dictionaries of a Pauli scenario may rely on. *)
From Coq Require Import List Arith Bool.
From Verif Require Import PdcModel.
Import ListNotations.

(** a vector that is extended gets room for at least one more element *)
Definition growing (grow : nat -> nat) : Prop := forall n, n < grow n.
(** std::vector of the usual libraries *)
Definition doubling (n : nat) : nat := if Nat.eqb n 0 then 1 else 2 * n.

Section Spec.
  Variable G : Type.
  Variable make : dkey -> option G.
  Variable size : G -> nat.
  (** what was seen is right: words and counts belong to the dictionary asked for; an exception is thrown only if it cannot be made *)
  Definition right_event (e : pevent G) : Prop :=
    match e with
    | EWords k g => make k = Some g
    | ECount k n => exists g, make k = Some g /\ n = size g
    | EThrown k => make k = None
    | _ => True
    end.
  (** undefined behaviour was met *)
  Definition undefined_event (e : pevent G) : Prop := match e with ERaced _ | EDangling _ | ELost _ => True | _ => False end.
End Spec.
Arguments right_event {G}. Arguments undefined_event {G}.

(** the dictionaries a program asks for *)
Definition asks (p : list pop) : list dkey := flat_map (fun o => match o with Ask k | Count k => [k] | _ => [] end) p.
Definition apart (progs : list (list pop)) : Prop :=
  forall i j p q k, nth_error progs i = Some p -> nth_error progs j = Some q -> In k (asks p) -> In k (asks q) -> i = j.
(** A program that opens a pair only while no dictionary new to it has been asked for since it got the pair, and only uses what it has.
    [seen]: asked for so far; [refs]: number of references; [live]: those got since the last new dictionary; [gens]: number of generators. *)
Fixpoint careful (seen : list dkey) (refs : nat) (live : list nat) (gens : nat) (p : list pop) : bool :=
  match p with
  | [] => true
  | Ask k :: p' => let old := existsb (dkey_eqb k) seen in careful (k :: seen) (S refs) (refs :: (if old then live else [])) gens p'
  | Count k :: p' => let old := existsb (dkey_eqb k) seen in careful (k :: seen) refs (if old then live else []) gens p'
  | Open i :: p' => existsb (Nat.eqb i) live && careful seen refs live (S gens) p'
  | Words j :: p' => Nat.ltb j gens && careful seen refs live gens p'
  end.
(** an exception or undefined behaviour ends a thread *)
Definition stopping_event {G} (e : pevent G) : Prop := match e with EThrown _ | ERaced _ | EDangling _ | ELost _ | EBad => True | _ => False end.
Definition finished {G} (t : pthread G) : Prop := pt_todo t = [] /\ pt_pc t = PIdle.
Definition turns (i : nat) (sched : list nat) : nat := count_occ Nat.eq_dec sched i.
(** some thread has seen [e] *)
Definition saw {G} (s : pstate G) (e : pevent G) : Prop := exists t, In t (ps_threads s) /\ In e (pt_log t).
