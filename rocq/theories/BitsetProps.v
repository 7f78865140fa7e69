(** C35: a DynamicBitset behaves as a finite set of indices below its size, for every chain of operations, every size (multiples of the page
    size included) and every page width. *)
From Coq Require Import List NArith Arith Bool.
From Verif Require Import BitsetModel BitsetSpec BitsetProofs.
Import ListNotations.

(** After any chain of operations within the asserted bounds, testing an index tells membership of the corresponding set. *)
Theorem C35_bitset_is_finite_set : forall W, 0 < W -> forall e, e_ok e -> e_nonempty e ->
  exists b, bs_eval W e = Some b /\ b_size b = e_size e /\ forall i, i < e_size e -> bs_test W b i = e_has e i.
Proof. exact bitset_test. Qed.
Print Assumptions C35_bitset_is_finite_set.

(** Emptiness, the count, the first index (the size if there is none) and the iteration are those of the increasing list of members. *)
Theorem C35_bitset_queries : forall W, 0 < W -> forall e b, e_ok e -> e_nonempty e -> bs_eval W e = Some b -> let ms := members (e_size e) (e_has e) in
  (bs_empty b = true <-> ms = []) /\ bs_count W b = length ms /\ bs_first W b = hd (e_size e) ms /\
  forall fuel, e_size e < fuel -> bs_iterate W fuel b = Some ms.
Proof. exact bitset_queries. Qed.
Print Assumptions C35_bitset_queries.

(** Bitsets of the same size compare equal exactly when they hold the same indices, however they were built. *)
Theorem C35_bitset_equality : forall W, 0 < W -> forall e e' b b', e_ok e -> e_ok e' -> e_nonempty e -> e_nonempty e' -> e_size e = e_size e' ->
  bs_eval W e = Some b -> bs_eval W e' = Some b' -> (bs_eqb b b' = true <-> forall i, i < e_size e -> e_has e i = e_has e' i).
Proof. exact bitset_equality. Qed.
Print Assumptions C35_bitset_equality.

(** A short range read as one page. *)
Theorem C35_bitset_small_subset : forall W, 0 < W -> forall e b first len, e_ok e -> e_nonempty e -> bs_eval W e = Some b ->
  first + len <= e_size e -> len <= W ->
  forall k, N.testbit (bs_small_subset W b first len) (N.of_nat k) = (k <? len) && e_has e (first + k).
Proof. exact bitset_small_subset. Qed.
Print Assumptions C35_bitset_small_subset.

(** The complement of a bitset of size zero, and the full bitset of size zero, write outside the storage. *)
Theorem C35_empty_complement_refuted : forall W, 0 < W -> bs_eval W (ENot (EMake 0)) = None /\ bs_eval W (EAll 0) = None.
Proof. exact empty_complement. Qed.
Print Assumptions C35_empty_complement_refuted.

(** Pages of 4 bits: a full set of 12 without 5, its complement over a range that straddles pages. *)
Definition ex_e : bexp := EOr (ENot (ESubset (EUnset (EAll 12) 5) 2 8)) (ESet (EMake 8) 7).
Example C35_nonvacuous : e_ok ex_e /\ e_nonempty ex_e /\ members (e_size ex_e) (e_has ex_e) = [3; 7] /\
  option_map (bs_iterate 4 9) (bs_eval 4 ex_e) = Some (Some [3; 7]) /\ option_map (fun b => bs_small_subset 4 b 2 4) (bs_eval 4 ex_e) = Some 2%N.
Proof. cbn; repeat split; auto with arith; try (repeat constructor). Qed.
Example C35_nonvacuous_equal : e_size ex_e = e_size (ESet (ESet (EMake 8) 3) 7) /\ e_ok (ESet (ESet (EMake 8) 3) 7) /\
  match bs_eval 4 ex_e, bs_eval 4 (ESet (ESet (EMake 8) 3) 7) with Some a, Some b => bs_eqb a b | _, _ => false end = true.
Proof. cbn; repeat split; auto with arith; repeat constructor. Qed.
