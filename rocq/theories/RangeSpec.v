(** Requests for measurements, some with an outcome, and the joint reports they describe. *)
From Coq Require Import List Arith Bool.
From Verif Require Import TensorSpec ProbSpec.
Import ListNotations.

Definition size (ms : party) : nat := length ms.
(** Measurements are numbered party by party: measurement [m] of party [p], which is [x], has the number [g] *)
Definition numbered (sc : list party) (g p m : nat) (x : nat * bool) : Prop :=
  exists before ms after, sc = before ++ ms :: after /\ length before = p /\ nth_error ms m = Some x /\
    g = list_sum (map size before) + m.
Definition measurements (sc : list party) : nat := list_sum (map size sc).

(** A request: the number of a measurement, and an outcome unless that is left free *)
Notation request := (nat * option nat)%type.
(** Two places in the list ask for measurements of one party *)
Definition clash (sc : list party) (qs : list request) : Prop :=
  exists i j g o g' o' p m m' x x', i <> j /\ nth_error qs i = Some (g, o) /\ nth_error qs j = Some (g', o') /\
    numbered sc g p m x /\ numbered sc g' p m' x'.
(** Every request is for a measurement there is, with at least one outcome of the kind counted by [len], and the outcome (if given) is one of
    these; and no two for one party *)
Definition sound_requests (len : nat * bool -> nat) (sc : list party) (qs : list request) : Prop :=
  (forall g o, In (g, o) qs -> exists p m x, numbered sc g p m x /\ 0 < len x /\ (forall a, o = Some a -> a < len x)) /\
  ~ clash sc qs.
(** The joint report [es] answers the requests: a party that is not asked reports nothing, the others report an outcome of the measurement
    asked for -- the one given, if one is given *)
Definition answers_requests (sc : list party) (qs : list request) (es : list report) : Prop :=
  length es = length sc /\
  forall p e, nth_error es p = Some e ->
    match e with
    | None => forall g o m x, In (g, o) qs -> ~ numbered sc g p m x
    | Some (m, a) => exists g o x, In (g, o) qs /\ numbered sc g p m x /\ (o = None \/ o = Some a)
    end.
(** The corners are inside the tensor and the range between them has exactly the places of the reports that answer the requests *)
Definition range_of (ok : list report -> Prop) (place : party -> report -> nat) (dim : party -> nat) (sc : list party)
    (qs : list request) (lo hi : list nat) : Prop :=
  corners (map dim sc) lo hi /\
  forall index, between lo hi index <-> exists es, ok es /\ answers_requests sc qs es /\ index = places place sc es.
(** requests that all have an outcome *)
Definition fixed (qs : list (nat * nat)) : list request := map (fun q => (fst q, Some (snd q))) qs.
(** a party with one measurement *)
Definition single (v : nat * bool) : party := [v].
