(** What offsets and index ranges mean. *)
From Coq Require Import List NArith Arith Bool.
From Verif Require Import CoreSpec EnumSpec.
Import ListNotations.

(** [index] has one entry below each dimension *)
Definition index_of (dims index : list nat) : Prop := Forall2 lt index dims.
(** Number of such indices *)
Definition volume (dims : list nat) : nat := fold_right Nat.mul 1 dims.
(** Position of an index when the first index moves fastest (column-major in two dimensions), and when the last one does. *)
Fixpoint column_position (dims index : list nat) : nat :=
  match dims, index with
  | d :: dims', i :: index' => i + d * column_position dims' index'
  | _, _ => 0
  end.
Fixpoint row_position (dims index : list nat) : nat :=
  match dims, index with
  | _ :: dims', i :: index' => i * volume dims' + row_position dims' index'
  | _, _ => 0
  end.
Definition position (last_major : bool) (dims index : list nat) : nat :=
  if last_major then column_position dims index else row_position dims index.
(** All offsets fit in 64 bits. *)
Definition small (dims : list nat) : Prop := (N.of_nat (volume dims) < 2 ^ 64)%N.
(** [index] lies between two corners *)
Definition between (lo hi index : list nat) : Prop := in_box (List.combine lo hi) index.
(** Corners of a range inside a tensor *)
Definition corners (dims lo hi : list nat) : Prop := index_of dims lo /\ Forall2 le lo hi /\ Forall2 le hi dims.
