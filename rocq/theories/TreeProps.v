(** C36: an IndexTree behaves as a finite map from sequences of integers, over every history of additions and merges; iterating visits every
    node exactly once in lexicographic order. *)
From Coq Require Import List ZArith Bool Sorted.
From Verif Require Import TreeModel TreeSpec TreeProofs.
Import ListNotations.

(** Looking up any sequence gives the entry the history leaves there. *)
Theorem C36_find_is_map_lookup : forall V (e : texp V) p, t_find p (t_eval e) = entry e p.
Proof. exact find_entry. Qed.
Print Assumptions C36_find_is_map_lookup.

(** Adding if new tells whether there was an entry, and returns the entry that is there afterwards. *)
Theorem C36_add_if_new_result : forall V (e : texp V) p v,
  t_add_if_new_result false p v (t_eval e) = match entry e p with Some w => (w, false) | None => (v, true) end.
Proof. exact add_if_new_returns. Qed.
Print Assumptions C36_add_if_new_result.

(** There is a node for a sequence exactly when the sequence is a prefix of one that was used; it carries the entry. *)
Theorem C36_find_node : forall V (e : texp V) p, (t_find_node p (t_eval e) <> None <-> present e p) /\
  (forall n, t_find_node p (t_eval e) = Some n -> t_value n = entry e p).
Proof. exact node_of_history. Qed.
Print Assumptions C36_find_node.

(** The hint is the node of the longest prefix that has one, with the rest of the sequence. *)
Theorem C36_hint : forall V (e : texp V) p, let '(n, r) := t_hint p (t_eval e) in
  exists p', p = p' ++ r /\ t_find_node p' (t_eval e) = Some n /\ match r with [] => True | x :: _ => ~ present e (p' ++ [x]) end.
Proof. exact hint_of_history. Qed.
Print Assumptions C36_hint.

(** Iteration stops; it visits every node once, in strictly increasing lexicographic order, with its own sequence and entry. *)
Theorem C36_iteration : forall V (e : texp V), exists visits,
  (forall fuel, length visits <= fuel -> it_run fuel (it_begin (t_eval e)) = Some visits) /\
  StronglySorted (fun a b => lex (fst a) (fst b)) visits /\
  (forall p n, In (p, n) visits -> t_find_node p (t_eval e) = Some n /\ t_value n = entry e p) /\
  (forall p, present e p -> exists n, In (p, n) visits).
Proof. exact iteration. Qed.
Print Assumptions C36_iteration.

Definition ex_left : texp nat := TAddIfNew (TAddIfNew (TAdd (TAdd TNew [3; 1]%Z 10) [1]%Z 11) [3; 1]%Z 12) [3]%Z 13.
Definition ex_right : texp nat := TAddNode (TAdd (TAdd TNew [3; 0; 5]%Z 20) [1]%Z 21) 2%Z.
Example C36_nonvacuous : map (fun p => t_find p (t_eval (TMerge ex_left ex_right))) [[3; 1]; [1]; [3]; [3; 0]; [3; 0; 5]; [2]; [4]]%Z =
  [Some 10; Some 21; Some 13; None; Some 20; None; None].
Proof. reflexivity. Qed.
Example C36_nonvacuous_iteration : option_map (map fst) (it_run 10 (it_begin (t_eval (TMerge ex_left ex_right)))) =
  Some [[]; [1]; [2]; [3]; [3; 0]; [3; 0; 5]; [3; 1]]%Z /\ present ex_right [3; 0]%Z /\ snd (t_hint [3; 0; 7]%Z (t_eval ex_right)) = [7]%Z.
Proof. repeat split; try reflexivity. cbn. right. right. left. exists [5%Z]. reflexivity. Qed.
