(** What an inflation scenario is, independently of the code.

    A causal network has observables (given by their numbers of outcomes; 0 marks an observable that is not a measurement but a
    number) and sources (each the list of the observables it influences).  Inflating it to level L makes L independent copies of every
    source.  A copy of an observable is chosen by choosing one copy of each of its sources; an observable without sources has one
    copy, with a randomness of its own. *)
From Coq Require Import List Arith Bool Permutation.
From Verif Require Import FieldModel InfModel.
Import ListNotations.

(** An operator: the observable, the chosen copy of each of its sources (in ascending order of the sources) and the outcome *)
Record label := mk_label { lb_obs : nat; lb_copies : list nat; lb_outcome : nat }.

Section Network.
  Variables (outcomes : list nat) (srcs : list (list nat)) (L : nat).
  Definition well_formed : Prop := forall s o, In s srcs -> In o s -> o < length outcomes.
  (** the sources of an observable, ascending *)
  Definition influences (s o : nat) : bool := if in_dec Nat.eq_dec o (nth s srcs []) then true else false.
  Definition sources (o : nat) : list nat := filter (fun s => influences s o) (seq 0 (length srcs)).
  (** a measurement with k outcomes has k-1 operators: the last outcome follows from the others *)
  Definition exists_label (l : label) : Prop :=
    lb_obs l < length outcomes /\
    length (lb_copies l) = length (sources (lb_obs l)) /\ (forall i, In i (lb_copies l) -> i < L) /\
    lb_outcome l < match nth (lb_obs l) outcomes 0 with 0 => 1 | S k => k end.
  Definition measured (l : label) : Prop := nth (lb_obs l) outcomes 0 <> 0.
  (** the order of the operators: by observable, then by copies (the last source counting most), then by outcome *)
  Fixpoint lex_less (a b : list nat) : Prop :=
    match a, b with x :: a', y :: b' => x < y \/ (x = y /\ lex_less a' b') | _, _ => False end.
  Definition before (x y : label) : Prop :=
    lb_obs x < lb_obs y \/
    (lb_obs x = lb_obs y /\
     (lex_less (rev (lb_copies x)) (rev (lb_copies y)) \/ (lb_copies x = lb_copies y /\ lb_outcome x < lb_outcome y))).

  (** ** Hidden variables: source copies, numbered (source, copy).  An observable without sources has the private variable
      (number of sources + observable, 0). *)
  Definition causes (l : label) : list (nat * nat) :=
    match sources (lb_obs l) with [] => [(length srcs + lb_obs l, 0)] | ss => List.combine ss (lb_copies l) end.
  Definition share (x y : label) : Prop := exists h, In h (causes x) /\ In h (causes y).
  Definition hidden : list (nat * nat) :=
    flat_map (fun s => map (fun i => (s, i)) (seq 0 L)) (seq 0 (length srcs)) ++ map (fun o => (length srcs + o, 0)) (seq 0 (length outcomes)).

  (** ** Classical explanations: all copies of a source have the same distribution and all copies of an observable respond to their
      sources in the same way. *)
  Variable R : rfield.
  Record explanation := mk_expl {
    ex_values : nat -> nat;                        (* how many values the source takes *)
    ex_weight : nat -> nat -> R;              (* the weight of a value *)
    ex_outcome : nat -> list nat -> nat;           (* the outcome of a measurement, given the values of its sources *)
    ex_number : nat -> list nat -> R          (* the value of an observable that is not a measurement *)
  }.
  Variable M : explanation.
  Fixpoint rsum (f : nat -> R) (n : nat) : R := match n with 0 => r0 R | S k => radd R (rsum f k) (f k) end.
  Definition normalized : Prop := forall s, rsum (ex_weight M s) (ex_values M s) = r1 R.
  (** the value of an operator when the hidden variables have the values [lam] *)
  Definition op_value (lam : nat * nat -> nat) (l : label) : R :=
    if Nat.eqb (nth (lb_obs l) outcomes 0) 0 then ex_number M (lb_obs l) (map lam (causes l))
    else if Nat.eqb (ex_outcome M (lb_obs l) (map lam (causes l))) (lb_outcome l) then r1 R else r0 R.
  Definition word_value (lam : nat * nat -> nat) (w : list label) : R := fold_right (fun l acc => rmul R (op_value lam l) acc) (r1 R) w.
  (** the average over independent hidden variables *)
  Definition set_hidden (lam : nat * nat -> nat) (h : nat * nat) (x : nat) : nat * nat -> nat :=
    fun h' => if Nat.eqb (fst h) (fst h') && Nat.eqb (snd h) (snd h') then x else lam h'.
  Fixpoint average (hs : list (nat * nat)) (lam : nat * nat -> nat) (f : (nat * nat -> nat) -> R) : R :=
    match hs with
    | [] => f lam
    | h :: hs' => rsum (fun x => rmul R (ex_weight M (fst h) x) (average hs' (set_hidden lam h x) f)) (ex_values M (fst h))
    end.
  Definition expectation (w : list label) : R := average hidden (fun _ => 0) (fun lam => word_value lam w).
End Network.

(** A joint outcome of several copies of observables, each given as ((observable, copy), outcome), and its number: mixed radix, the last
    outcome counting least *)
Definition outcome_exists (outcomes : list nat) (srcs : list (list nat)) (L : nat) (x : nat * nat * nat) : Prop :=
  fst (fst x) < length outcomes /\ snd (fst x) < L ^ length (sources srcs (fst (fst x))) /\ snd x < nth (fst (fst x)) outcomes 0.
Definition joint_number (outcomes : list nat) (xs : list (nat * nat * nat)) : nat :=
  fold_left (fun n x => n * nth (fst (fst x)) outcomes 0 + snd x) xs 0.
Definition joint_count (outcomes : list nat) (xs : list (nat * nat)) : nat := fold_right (fun x n => nth (fst x) outcomes 0 * n) 1 xs.

(** Relabelling the copies of each source *)
Definition permutes (L : nat) (f : nat -> nat) : Prop :=
  (forall i, i < L -> f i < L) /\ (forall i j, i < L -> j < L -> f i = f j -> i = j).
Definition relabel (srcs : list (list nat)) (sigma : nat -> nat -> nat) (l : label) : label :=
  mk_label (lb_obs l) (map (fun x => sigma (fst x) (snd x)) (List.combine (sources srcs (lb_obs l)) (lb_copies l))) (lb_outcome l).

(** A word is connected if its operators are linked by shared sources *)
Inductive linked (srcs : list (list nat)) (w : list label) : label -> label -> Prop :=
| linked_refl : forall x, In x w -> linked srcs w x x
| linked_step : forall x y z, In x w -> share srcs x y -> linked srcs w y z -> linked srcs w x z.
Definition connected (srcs : list (list nat)) (w : list label) : Prop := forall x y, In x w -> In y w -> linked srcs w x y.

(** The label the library gives to an operator number *)
Definition label_of (c : ictx) (op : nat) : label :=
  mk_label (oi_obs (info c op)) (if ob_single (io_obs (obs_of c op)) then [] else cp_indices (copy_of c op)) (oi_outcome (info c op)).
(** Words of existing operators, and those the library leaves as they are *)
Definition word_exists (c : ictx) (w : list nat) : Prop := forall x, In x w -> x < length (ic_ops c).
Definition simplified (c : ictx) (w : list nat) : Prop := word_exists c w /\ simplify c w = Some w.
(** Two words that differ by the order of their operators and the numbering of the copies of the sources *)
Definition alike (srcs : list (list nat)) (c : ictx) (L : nat) (u w : list nat) : Prop :=
  exists sigma, (forall s, s < length srcs -> permutes L (sigma s)) /\ Permutation (map (label_of c) u) (map (relabel srcs sigma) (map (label_of c) w)).
(** No observable occurs twice *)
Definition observables_distinct (c : ictx) (w : list nat) : Prop := NoDup (map (fun x => lb_obs (label_of c x)) w).
