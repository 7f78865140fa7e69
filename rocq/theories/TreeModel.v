(** IndexTree, utilities/index_tree.h:21-430.  Indices are integers; the per-node counter of the iterator does not overflow. *)
From Coq Require Import List ZArith Arith Bool.
Import ListNotations.

Section Tree.
  Variable V : Type.
  (** id, _value, children, 26-29 *)
  Inductive itree := Node (id : Z) (value : option V) (children : list itree).
  Definition t_id (t : itree) : Z := match t with Node i _ _ => i end.
  Definition t_value (t : itree) : option V := match t with Node _ v _ => v end.
  Definition t_children (t : itree) : list itree := match t with Node _ _ c => c end.
  (** constructors, 185-189; the root's id is immaterial *)
  Definition t_leaf (x : Z) : itree := Node x None [].
  Definition t_root : itree := t_leaf 0.
  (** std::lower_bound in the children, then the test for a perfect match: 257-264, 284-292, 309-316, 342-351 *)
  Fixpoint child (x : Z) (l : list itree) : option itree :=
    match l with
    | [] => None
    | c :: l' => if Z.ltb (t_id c) x then child x l' else if Z.eqb (t_id c) x then Some c else None
    end.
  (** add_node, 255-273, and the change [f] then made to the node found or added; [f] also gets whether it was added *)
  Fixpoint with_child (x : Z) (f : bool -> itree -> itree) (l : list itree) : list itree :=
    match l with
    | [] => [f true (t_leaf x)]
    | c :: l' => if Z.ltb (t_id c) x then c :: with_child x f l' else if Z.eqb (t_id c) x then f false c :: l' else f true (t_leaf x) :: c :: l'
    end.
  Definition t_add_node (t : itree) (x : Z) : itree := Node (t_id t) (t_value t) (with_child x (fun _ c => c) (t_children t)).
  (** add, 203-216 *)
  Fixpoint t_add (p : list Z) (v : V) (t : itree) : itree :=
    match p with
    | [] => Node (t_id t) (Some v) (t_children t)
    | x :: p' => Node (t_id t) (t_value t) (with_child x (fun _ c => t_add p' v c) (t_children t))
    end.
  (** add_if_new, 223-247: the new tree; then the pair returned *)
  Fixpoint t_add_if_new (did : bool) (p : list Z) (v : V) (t : itree) : itree :=
    match p with
    | [] =>
        if did then Node (t_id t) (Some v) (t_children t)
        else match t_value t with None => Node (t_id t) (Some v) (t_children t) | Some _ => t end
    | x :: p' => Node (t_id t) (t_value t) (with_child x (fun added c => t_add_if_new (did || added) p' v c) (t_children t))
    end.
  Fixpoint t_add_if_new_result (did : bool) (p : list Z) (v : V) (t : itree) : V * bool :=
    match p with
    | [] => if did then (v, true) else match t_value t with None => (v, true) | Some w => (w, false) end
    | x :: p' => match child x (t_children t) with
                 | Some c => t_add_if_new_result did p' v c
                 | None => t_add_if_new_result true p' v (t_leaf x)
                 end
    end.
  (** find, 278-295 *)
  Fixpoint t_find (p : list Z) (t : itree) : option V :=
    match p with
    | [] => t_value t
    | x :: p' => match child x (t_children t) with Some c => t_find p' c | None => None end
    end.
  (** find_node_or_return_hint, 300-321 *)
  Fixpoint t_hint (p : list Z) (t : itree) : itree * list Z :=
    match p with
    | [] => (t, [])
    | x :: p' => match child x (t_children t) with Some c => t_hint p' c | None => (t, p) end
    end.
  (** find_node, 326-354 *)
  Fixpoint t_find_node (p : list Z) (t : itree) : option itree :=
    match p with
    | [] => Some t
    | x :: p' => match child x (t_children t) with Some c => t_find_node p' c | None => None end
    end.
  (** merge_in, 359-391 *)
  Fixpoint t_merge (t o : itree) {struct t} : itree :=
    match t with
    | Node i v ch =>
        Node i (match t_value o with Some w => Some w | None => v end)
          ((fix loop (l1 : list itree) : list itree -> list itree :=
              match l1 with
              | [] => fun l2 => l2
              | c :: l1' =>
                  fix inner (l2 : list itree) : list itree :=
                    match l2 with
                    | [] => l1
                    | c' :: l2' =>
                        if Z.ltb (t_id c) (t_id c') then c :: loop l1' l2
                        else if Z.ltb (t_id c') (t_id c) then c' :: inner l2'
                        else t_merge c c' :: loop l1' l2'
                    end
              end) ch (t_children o))
    end.
  (** leaf, 397-399 *)
  Definition t_is_leaf (t : itree) : bool := match t_children t with [] => true | _ => false end.

  (** Iterator, 33-180: stack of nodes with the next child to visit; top of the stack first *)
  Definition stack := list (itree * nat).
  Definition it_begin (t : itree) : stack := [(t, 0)].
  (** operator++ with try_descend, 139-179: unwind to the first frame with a next child and go there *)
  Fixpoint it_next (s : stack) : stack :=
    match s with
    | [] => []
    | (n, i) :: s' => match nth_error (t_children n) i with Some c => (c, 0) :: (n, S i) :: s' | None => it_next s' end
    end.
  (** lookup_index, 114-124 *)
  Definition it_index (s : stack) : list Z := rev (map (fun x => t_id (nth (snd x - 1) (t_children (fst x)) t_root)) (tl s)).
  (** for (auto it = begin(); it != end(); ++it); [None] = out of fuel *)
  Fixpoint it_run (fuel : nat) (s : stack) : option (list (list Z * itree)) :=
    match s with
    | [] => Some []
    | (n, i) :: s' => match fuel with O => None | S fuel' => option_map (cons (it_index s, n)) (it_run fuel' (it_next s)) end
    end.

  (** every tree a program can build *)
  Inductive texp := TNew | TAdd (e : texp) (p : list Z) (v : V) | TAddIfNew (e : texp) (p : list Z) (v : V) | TAddNode (e : texp) (x : Z) | TMerge (a b : texp).
  Fixpoint t_eval (e : texp) : itree :=
    match e with
    | TNew => t_root
    | TAdd e p v => t_add p v (t_eval e)
    | TAddIfNew e p v => t_add_if_new false p v (t_eval e)
    | TAddNode e x => t_add_node (t_eval e) x
    | TMerge a b => t_merge (t_eval a) (t_eval b)
    end.
End Tree.
Arguments Node {V}. Arguments t_id {V}. Arguments t_value {V}. Arguments t_children {V}. Arguments t_find {V}. Arguments t_find_node {V}.
Arguments t_hint {V}. Arguments t_eval {V}. Arguments it_begin {V}. Arguments it_run {V}. Arguments TNew {V}. Arguments TAdd {V}. Arguments TAddIfNew {V}.
Arguments TAddNode {V}. Arguments TMerge {V}. Arguments t_leaf {V}. Arguments t_root {V}. Arguments child {V}. Arguments with_child {V}. Arguments t_add {V}.
Arguments t_add_if_new {V}. Arguments t_add_if_new_result {V}. Arguments t_add_node {V}. Arguments t_merge {V}. Arguments it_next {V}. Arguments it_index {V}.
Arguments t_is_leaf {V}.
