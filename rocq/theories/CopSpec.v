(** What the average of a polynomial over translations is. *)
From Coq Require Import NArith ZArith Arith Bool List.
From Verif Require Import CoreModel FieldModel SiteModel SiteSpec CopModel.
Import ListNotations.
Local Open Scope list_scope.
Local Open Scope nat_scope.

Section Spec.
  Context {R : rfield}.
  Notation poly := (list (word * cx R)).
  (** value of a polynomial, given values of words *)
  Definition word_value (E : word -> cx R) (p : poly) : cx R := fold_right (fun x s => cadd (cmul (snd x) (E (fst x))) s) c0 p.
  (** [p'] has, for each term of [p], one term for each translation in [all], with the weight divided among them; [mv k w w'] is that [w'] is [w] moved by [k] *)
  Definition averaged {K} (mv : K -> word -> word -> Prop) (all : list K) (p p' : poly) : Prop := exists blocks, p' = concat blocks /\
    Forall2 (fun x b => exists ws, b = map (fun w => (w, cdiv (snd x) (cnat (length all)))) ws /\ Forall2 (fun k w => mv k (fst x) w) all ws) p blocks.
  (** values that translations do not change *)
  Definition invariant {K} (mv : K -> word -> word -> Prop) (E : word -> cx R) : Prop := forall k w w', mv k w w' -> E w' = E w.
  (** [p'] is [p] moved: each word is, the weights stay *)
  Definition moved (mv : word -> word -> Prop) (p p' : poly) : Prop := Forall2 (fun x y => mv (fst x) (fst y) /\ snd y = snd x) p p'.
  (** words of the context *)
  Definition over_qubits (n : nat) (p : poly) : Prop := Forall (fun x => pauli_word n (fst x)) p.
  (** counts are not zero: characteristic 0 *)
  Definition counting : Prop := forall n, cnat (R:=R) (S n) <> c0.
End Spec.
(** all positions on a lattice, (row, column) *)
Definition grid (rows cols : nat) : list (nat * nat) := flat_map (fun c => map (fun r => (r, c)) (seq 0 rows)) (seq 0 cols).
(** translations inside an open chain of [n], or an open lattice of [ch] rows and [rw] columns *)
Definition inside_chain (n k : nat) (w w' : word) : Prop := open_chain_moved (Z.of_nat k) w w' /\ pauli_word n w'.
Definition inside_lattice (ch rw : nat) (d : nat * nat) (w w' : word) : Prop := open_moved ch (Z.of_nat (fst d)) (Z.of_nat (snd d)) w w' /\ pauli_word (ch * rw) w'.
(** on a torus *)
Definition torus_moved (ch rw : nat) (d : nat * nat) (w w' : word) : Prop := lattice_moved ch rw (fst d) (snd d) w w'.
(** wrapped chains and lattices with their hashers; at most 256 qubits (more are refused, moment_simplifier.cpp:33-68) *)
Definition closed_chain (k : pctx) : Prop := k_sym k = true /\ k_wrap k = true /\ k_col k = 0 /\ hasher_ok (k_hasher k) /\ h_qubits (k_hasher k) = k_qubits k /\ k_qubits k <= 256.
Definition closed_lattice (wide : bool -> N -> N -> sout N) (k : pctx) : Prop := k_sym k = true /\ k_wrap k = true /\ 0 < k_col k /\ hasher_ok (k_hasher k) /\ rows_ok wide (k_hasher k) /\
  h_col (k_hasher k) = k_col k /\ h_row (k_hasher k) = k_row k /\ k_col k * k_row k <= 256.
Definition open_chain (k : pctx) : Prop := k_sym k = true /\ k_wrap k = false /\ k_col k = 0.
Definition open_lattice (k : pctx) : Prop := k_sym k = true /\ k_wrap k = false /\ 0 < k_col k /\ 0 < k_row k.
