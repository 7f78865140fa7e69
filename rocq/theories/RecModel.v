(** RecursiveStorage, utilities/recursive_index.h: a tree of objects, read and written at paths of indices.

    An object stands for itself (moves and copies of objects are exact).  Indices are 64-bit words, offsets are signed 64-bit numbers. *)
From Coq Require Import ZArith Arith Bool List.
Import ListNotations.
Local Open Scope list_scope.

Definition w64 : Z := (2 ^ 64)%Z.
(** static_cast<ptrdiff_t> of a size_t *)
Definition to_signed (i : Z) : Z := if (i <? 2 ^ 63)%Z then i else (i - w64)%Z.

Section Rec.
  Variable T : Type.
  (** recursive_index.h:26-28 *)
  Inductive rtree := RNode (object : T) (offset : Z) (kids : list rtree).
  Definition r_object (t : rtree) : T := let (x, _, _) := t in x.
  Definition r_offset (t : rtree) : Z := let (_, o, _) := t in o.
  Definition r_kids (t : rtree) : list rtree := let (_, _, k) := t in k.
  (** 39-41 *)
  Definition num_children (t : rtree) : nat := length (r_kids t).
  (** 54-57 and 71-74: which child; None: an assertion fails (without assertions: the vector is accessed outside its elements) *)
  Definition child_of (t : rtree) (i : Z) : option nat :=
    let front := to_signed i in
    if (- r_offset t <=? front)%Z && (front + r_offset t <? Z.of_nat (num_children t))%Z then Some (Z.to_nat (front + r_offset t)) else None.
  (** 48-58 and 65-75 *)
  Fixpoint subtree (p : list Z) (t : rtree) : option rtree :=
    match p with
    | [] => Some t
    | i :: r => match child_of t i with
                | None => None
                | Some k => match nth_error (r_kids t) k with None => None | Some s => subtree r s end
                end
    end.
  (** 81-83 *)
  Definition set_here (x : T) (t : rtree) : rtree := let (_, o, k) := t in RNode x o k.
  Fixpoint replace_nth {A} (k : nat) (a : A) (l : list A) : list A :=
    match l, k with [], _ => [] | _ :: r, O => a :: r | b :: r, S k' => b :: replace_nth k' a r end.
  (** 90-93: the subtree is found and its object overwritten in place *)
  Fixpoint set (p : list Z) (x : T) (t : rtree) : option rtree :=
    match p with
    | [] => Some (set_here x t)
    | i :: r => match child_of t i with
                | None => None
                | Some k => match nth_error (r_kids t) k with
                            | None => None
                            | Some s => match set r x s with None => None | Some s' => Some (RNode (r_object t) (r_offset t) (replace_nth k s' (r_kids t))) end
                            end
                end
    end.
  (** A reference to an object: in the tree, or in a local copy of a node that no longer exists *)
  Inductive rref := InTree (p : list Z) | Gone.
  Definition deref (r : rref) (t : rtree) : option T := match r with InTree p => option_map r_object (subtree p t) | Gone => None end.
  (** 106-108 *)
  Definition access_here : rref := InTree [].
  (** 115-118: [auto place = subtree(indices)] copies the node, and the reference returned is into the copy *)
  Definition access (p : list Z) (t : rtree) : option rref := match subtree p t with None => None | Some _ => Some Gone end.
  (** 147-157 and 160-171: the objects shown to the visitor, with the indices; and the stack of indices afterwards *)
  Definition pop (st : list Z) : list Z := match st with [] => [] | _ => removelast st end.
  Fixpoint do_visit (t : rtree) (st : list Z) : list (list Z * T) * list Z :=
    let (x, o, kids) := t in
    let fix loop (c : Z) (ks : list rtree) (st : list Z) : list (list Z * T) * list Z :=
      match ks with
      | [] => ([], st)
      | k :: ks' => let (v, st1) := do_visit k (st ++ [((c - o) mod w64)%Z]) in
                    let (v', st2) := loop (c + 1)%Z ks' st1 in (v ++ v', st2)
      end in
    let (v, st') := loop 0%Z kids st in ((st, x) :: v, pop st').
  (** 131-142 *)
  Definition visit (t : rtree) : list (list Z * T) := fst (do_visit t []).

  (** WidthByDepthRecursiveStorage, 176-185 *)
  Fixpoint wide (width depth : nat) (zero : T) : rtree :=
    RNode zero 0 (match depth with O => [] | S d => repeat (wide width d zero) width end).
  (** MonotonicChunkRecursiveStorage, 193-216; [next] is next_offset before the chunk *)
  Fixpoint chunky (depth : nat) (chunks : list nat) (zero : T) (offset : Z) : rtree :=
    RNode zero offset
      (match depth with
       | O => []
       | S d =>
           (fix loop (cs : list nat) (next : Z) : list rtree :=
              match cs with
              | [] => []
              | c :: rest => let next' := (next - Z.of_nat c)%Z in
                             repeat (match rest with [] => RNode zero next' [] | _ => chunky d rest zero next' end) c ++ loop rest next'
              end) chunks offset
       end).
End Rec.
Arguments RNode {T}. Arguments r_object {T}. Arguments r_offset {T}. Arguments r_kids {T}. Arguments num_children {T}. Arguments child_of {T}.
Arguments subtree {T}. Arguments set_here {T}. Arguments set {T}. Arguments deref {T}. Arguments access {T}. Arguments do_visit {T}. Arguments visit {T}.
Arguments wide {T}. Arguments chunky {T}.
