(** Triangles of a square matrix. *)
From Coq Require Import List Arith Bool.
From Verif Require Import EnumSpec.

(** The matrix has all its entries. *)
Definition full_matrix {E} (d : nat) (data : list E) : Prop := length data = d * d.
(** (row, column) lies in the triangle *)
Definition in_triangle (upper inclusive : bool) (d : nat) (rc : nat * nat) : Prop :=
  fst rc < d /\ snd rc < d /\
  (if upper then (if inclusive then fst rc <= snd rc else fst rc < snd rc)
   else (if inclusive then snd rc <= fst rc else snd rc < fst rc)).
(** Column by column, from top to bottom *)
Definition column_order (a b : nat * nat) : Prop := snd a < snd b \/ (snd a = snd b /\ fst a < fst b).
