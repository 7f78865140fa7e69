(** What a tree of objects promises. *)
From Coq Require Import ZArith Arith Bool List Sorted.
From Verif Require Import RecModel.
Import ListNotations.
Local Open Scope list_scope.

(** the object at a path *)
Definition object_at {T} (t : rtree T) (p : list Z) : option T := option_map r_object (subtree p t).
(** indices are 64-bit words *)
Definition word64 (i : Z) : Prop := (0 <= i < 2 ^ 64)%Z.
(** numbers of children and offsets far from the limits of 64 bits *)
Inductive modest {T} : rtree T -> Prop :=
| modest_node : forall x o ks, (- 2 ^ 61 <= o <= 2 ^ 61)%Z -> (Z.of_nat (length ks) <= 2 ^ 61)%Z -> Forall modest ks -> modest (RNode x o ks).
(** which chunk an index belongs to, when the indices are handed out chunk by chunk *)
Fixpoint chunk_of (chunks : list nat) (i : nat) : option nat :=
  match chunks with [] => None | c :: r => if i <? c then Some 0 else option_map S (chunk_of r (i - c)) end.
(** a path that takes at most one index of each chunk, from left to right *)
Definition monotonic (chunks : list nat) (p : list nat) : Prop := exists cs, map (chunk_of chunks) p = map Some cs /\ StronglySorted lt cs.
Definition total (chunks : list nat) : nat := fold_right Nat.add 0 chunks.
