(** C37: small vectors behave as lists under every history of operations, wherever their elements are kept. *)
From Coq Require Import List Arith Bool.
From Verif Require Import SmallVecModel SmallVecSpec SmallVecProofs.
Import ListNotations.

(** In every state a program can reach, every operation that makes sense for the lists the vectors hold is defined (no access outside the memory
    owned) and does what it does on lists. *)
Theorem C37_small_vector_is_list : forall V dflt N s, sreach V dflt N s -> exists r, views V s r /\
  forall o, can V r o -> exists s' r', sv_step V dflt N s o = Some s' /\ list_step V r o r' /\ views V s' r'.
Proof. exact vector_is_list. Qed.
Print Assumptions C37_small_vector_is_list.

(** Size, capacity, reverse iteration, indexing, first and last element. *)
Theorem C37_small_vector_reads : forall V dflt N s v, sreach V dflt N s -> In v s ->
  exists l, sv_contents v = Some l /\ v_size v = length l /\ v_size v <= v_cap v /\
  sv_reversed v = Some (rev l) /\ (forall k, k < length l -> sv_get v k = nth_error l k) /\
  (forall x l', l = x :: l' -> sv_front v = Some x) /\ (forall x l', l = l' ++ [x] -> sv_back v = Some x).
Proof. exact vector_reads. Qed.
Print Assumptions C37_small_vector_reads.

(** Emplacing an element of the vector itself is the same as pushing it, unless the vector is on the heap and full. *)
Theorem C37_emplace_own_element : forall V (dflt : V) N s, sreach V dflt N s -> forall i k v x,
  nth_error s i = Some v -> sv_get v k = Some x -> k < v_size v ->
  sv_step V dflt N s (VEmplaceOwn i k) = if Nat.leb (v_cap v) (v_size v) && v_on_heap v then None else sv_step V dflt N s (VPush i x).
Proof. exact emplace_own. Qed.
Print Assumptions C37_emplace_own_element.

(** A full vector on the heap: the element is freed before it is copied. *)
Theorem C37_emplace_own_element_refuted : exists s v, sv_run nat 0 2 [] own_history = Some s /\ nth_error s 0 = Some v /\ sv_get v 0 = Some 5 /\
  sv_step nat 0 2 s (VPush 0 5) <> None /\ sv_step nat 0 2 s (VEmplaceOwn 0 0) = None.
Proof. exact emplace_own_refuted. Qed.
Print Assumptions C37_emplace_own_element_refuted.

Example C37_nonvacuous : exists s v, sreach nat 0 2 s /\ In v s /\ sv_contents v = Some [1; 2; 3] /\ v_on_heap v = true.
Proof. exact cross_reach. Qed.
Example C37_nonvacuous_history : option_map (map sv_contents) (sv_run nat 0 2 [] cross_history) = Some [Some []; Some [9; 2; 3]] /\
  option_map (map v_on_heap) (sv_run nat 0 2 [] cross_history) = Some [false; true].
Proof. exact cross_contents. Qed.
