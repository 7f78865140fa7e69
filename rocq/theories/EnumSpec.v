(** What an enumeration is. *)
From Coq Require Import List NArith Arith Bool Sorted.
From Verif Require Import CoreModel CoreSpec.
Import ListNotations.

(** The list holds exactly the elements with property [P], each once, in strictly increasing order [R]. *)
Definition lists_in_order {X} (R : X -> X -> Prop) (P : X -> Prop) (l : list X) : Prop :=
  StronglySorted R l /\ (forall x, In x l <-> P x).
(** [x] is a tuple with [lo_i <= x_i < hi_i] *)
Definition in_box (range : list (nat * nat)) (x : list nat) : Prop := Forall2 (fun r a => fst r <= a < snd r) range x.
(** [x] has [k] entries that add up to [s] *)
Definition composition (s k : nat) (x : list nat) : Prop := length x = k /\ list_sum x = s.
