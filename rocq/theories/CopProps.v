(** C87: symmetrised polynomials. *)
From Coq Require Import NArith Arith List Permutation.
From Verif Require Import CoreModel FieldModel FieldProofs SiteModel SiteSpec SiteWitnessProofs CopModel CopSpec CopProofs CopFinalProofs CopWitnessProofs.
Import ListNotations.
Local Open Scope list_scope.
Local Open Scope nat_scope.

(** without symmetry, and for polynomials without operators, the copy is the polynomial *)
Theorem C87_plain (R : rfield) wide (k : pctx) (p : list (word * cx R)) : k_sym k = false \/ (forall x, In x p -> fst x = []) -> symmetrical_copy wide k p = SOk p.
Proof. exact (plain_copy wide k p). Qed.
Print Assumptions C87_plain.
Example C87_plain_meets : (forall x, In x (A:=word * cx Q') [([], two)] -> fst x = []) /\ k_sym ring3 = true.
Proof. split; [|reflexivity]. intros x [<-|[]]. reflexivity. Qed.

(** on a ring: the average over all rotations *)
Theorem C87_ring (R : rfield) wide (k : pctx) (p : list (word * cx R)) : closed_chain k -> over_qubits (k_qubits k) p -> (exists x, In x p /\ fst x <> []) ->
  exists p', symmetrical_copy wide k p = SOk p' /\ averaged (chain_moved (k_qubits k)) (seq 0 (k_qubits k)) p p'.
Proof. exact (closed_chain_copy wide k p). Qed.
Print Assumptions C87_ring.
Example C87_ring_meets : closed_chain ring3 /\ over_qubits (k_qubits ring3) pw /\ exists x, In x pw /\ fst x <> [].
Proof. exact (conj ring3_closed (conj (pw_over 3 (le_S _ _ (le_n 2))) pw_nonscalar)). Qed.

(** which no rotation changes, up to the order of its terms *)
Theorem C87_ring_fixed (R : rfield) wide (k : pctx) (p p' p'' : list (word * cx R)) j : closed_chain k -> over_qubits (k_qubits k) p -> (exists x, In x p /\ fst x <> []) ->
  symmetrical_copy wide k p = SOk p' -> moved (chain_moved (k_qubits k) j) p' p'' -> Permutation p' p''.
Proof. exact (chain_fixed wide k p p' p'' j). Qed.
Print Assumptions C87_ring_fixed.
Example C87_ring_fixed_meets : closed_chain ring3 /\ over_qubits (k_qubits ring3) pw /\ (exists x, In x pw /\ fst x <> []) /\
  exists p' p'', symmetrical_copy wide_cpp ring3 pw = SOk p' /\ moved (chain_moved (k_qubits ring3) 1) p' p''.
Proof. exact (conj ring3_closed (conj (pw_over 3 (le_S _ _ (le_n 2))) (conj pw_nonscalar ring3_moved))). Qed.

(** on a torus: the average over all translations *)
Theorem C87_torus_partial (R : rfield) wide (k : pctx) (p : list (word * cx R)) : closed_lattice wide k -> over_qubits (k_col k * k_row k) p -> (exists x, In x p /\ fst x <> []) ->
  exists p', symmetrical_copy wide k p = SOk p' /\ averaged (torus_moved (k_col k) (k_row k)) (grid (k_col k) (k_row k)) p p'.
Proof. exact (closed_lattice_copy wide k p). Qed.
Print Assumptions C87_torus_partial.
Example C87_torus_partial_meets : closed_lattice wide_cpp torus72 /\ over_qubits (k_col torus72 * k_row torus72) pw /\ exists x, In x pw /\ fst x <> [].
Proof. exact (conj torus72_closed (conj pw_over72 pw_nonscalar)). Qed.

Theorem C87_torus_fixed_partial (R : rfield) wide (k : pctx) (p p' p'' : list (word * cx R)) j : closed_lattice wide k -> over_qubits (k_col k * k_row k) p -> (exists x, In x p /\ fst x <> []) ->
  symmetrical_copy wide k p = SOk p' -> moved (torus_moved (k_col k) (k_row k) j) p' p'' -> Permutation p' p''.
Proof. exact (lattice_fixed wide k p p' p'' j). Qed.
Print Assumptions C87_torus_fixed_partial.
Example C87_torus_fixed_partial_meets : closed_lattice wide_cpp torus72 /\ over_qubits (k_col torus72 * k_row torus72) pw /\ (exists x, In x pw /\ fst x <> []) /\
  exists p' p'', symmetrical_copy wide_cpp torus72 pw = SOk p' /\ moved (torus_moved (k_col torus72) (k_row torus72) (5, 7)) p' p''.
Proof. exact (conj torus72_closed (conj pw_over72 (conj pw_nonscalar torus72_moved))). Qed.

(** on an open chain: the average over the moves to the right that keep every operator of every term inside *)
Theorem C87_line (R : rfield) wide (k : pctx) (p : list (word * cx R)) : open_chain k -> over_qubits (k_qubits k) p -> (exists x, In x p /\ fst x <> []) ->
  exists p' m, symmetrical_copy wide k p = SOk p' /\ averaged (inside_chain (k_qubits k)) (seq 0 m) p p' /\
  forall d, d < m <-> forall x o, In x p -> In o (fst x) -> o / 3 + d < k_qubits k.
Proof. exact (chain_room wide k p). Qed.
Print Assumptions C87_line.
Example C87_line_meets : open_chain line4 /\ over_qubits (k_qubits line4) pw /\ exists x, In x pw /\ fst x <> [].
Proof. exact (conj line4_open (conj (pw_over 4 (le_S _ _ (le_S _ _ (le_n 2)))) pw_nonscalar)). Qed.

(** on an open lattice: likewise for rows and columns *)
Theorem C87_sheet (R : rfield) wide (k : pctx) (p : list (word * cx R)) : open_lattice k -> over_qubits (k_col k * k_row k) p -> (exists x, In x p /\ fst x <> []) ->
  exists p' rows cols, symmetrical_copy wide k p = SOk p' /\ averaged (inside_lattice (k_col k) (k_row k)) (grid rows cols) p p' /\
  forall r c, r < rows /\ c < cols <-> forall x o, In x p -> In o (fst x) -> (o / 3) mod k_col k + r < k_col k /\ o / 3 / k_col k + c < k_row k.
Proof. exact (lattice_room wide k p). Qed.
Print Assumptions C87_sheet.
Example C87_sheet_meets : open_lattice open32 /\ over_qubits (k_col open32 * k_row open32) pw /\ exists x, In x pw /\ fst x <> [].
Proof. exact (conj open32_open (conj pw_over6 pw_nonscalar)). Qed.

(** the copy has the same value in every state that translations do not change *)
Theorem C87_chain_value (R : rfield) wide (k : pctx) (p p' : list (word * cx R)) E : counting (R:=R) -> over_qubits (k_qubits k) p ->
  (closed_chain k /\ invariant (chain_moved (k_qubits k)) E \/ open_chain k /\ invariant (inside_chain (k_qubits k)) E) ->
  symmetrical_copy wide k p = SOk p' -> word_value E p' = word_value E p.
Proof. exact (chain_value wide k p p' E). Qed.
Print Assumptions C87_chain_value.
Example C87_chain_value_meets : counting (R:=Q') /\ over_qubits (k_qubits line4) pw /\ (open_chain line4 /\ invariant (inside_chain (k_qubits line4)) count) /\ exists p', symmetrical_copy wide_cpp line4 pw = SOk p'.
Proof. exact (conj counting_Qc (conj (pw_over 4 (le_S _ _ (le_S _ _ (le_n 2)))) (conj (conj line4_open (count_chain 4)) line4_some))). Qed.

Theorem C87_lattice_value_partial (R : rfield) wide (k : pctx) (p p' : list (word * cx R)) E : counting (R:=R) -> over_qubits (k_col k * k_row k) p ->
  (closed_lattice wide k /\ invariant (torus_moved (k_col k) (k_row k)) E \/ open_lattice k /\ invariant (inside_lattice (k_col k) (k_row k)) E) ->
  symmetrical_copy wide k p = SOk p' -> word_value E p' = word_value E p.
Proof. exact (lattice_value wide k p p' E). Qed.
Print Assumptions C87_lattice_value_partial.
Example C87_lattice_value_partial_meets : counting (R:=Q') /\ over_qubits (k_col open32 * k_row open32) pw /\ (open_lattice open32 /\ invariant (inside_lattice (k_col open32) (k_row open32)) count) /\ exists p', symmetrical_copy wide_cpp open32 pw = SOk p'.
Proof. exact (conj counting_Qc (conj pw_over6 (conj (conj open32_open (count_lattice 3 2)) open32_some))). Qed.

(** on an open chain the copies of two translates are not the same *)
Theorem C87_line_refuted : exists (k : pctx) (p q p' q' : list (word * cx Q')), open_chain k /\ over_qubits (k_qubits k) p /\ over_qubits (k_qubits k) q /\ moved (inside_chain (k_qubits k) 1) p q /\
  symmetrical_copy wide_cpp k p = SOk p' /\ symmetrical_copy wide_cpp k q = SOk q' /\ ~ Permutation p' q'.
Proof. exact open_refuted. Qed.
Print Assumptions C87_line_refuted.

(** on a torus with more rows than columns and over 64 qubits, a translate is missing *)
Theorem C87_tall_refuted : exists (k : pctx) (p p' : list (word * cx Q')) w w', k_sym k = true /\ k_wrap k = true /\ hasher_ok (k_hasher k) /\ h_col (k_hasher k) = k_col k /\ h_row (k_hasher k) = k_row k /\ k_col k * k_row k <= 256 /\
  p = [(w, c1)] /\ over_qubits (k_col k * k_row k) p /\ torus_moved (k_col k) (k_row k) (8, 0) w w' /\ symmetrical_copy wide_cpp k p = SOk p' /\ ~ In w' (map fst p').
Proof. exact tall_copy_refuted. Qed.
Print Assumptions C87_tall_refuted.

(** on a torus of 8 by 8 qubits the copy shifts a word by 64 bits *)
Theorem C87_eight_refuted : exists (k : pctx) (p : list (word * cx Q')), k_sym k = true /\ k_wrap k = true /\ hasher_ok (k_hasher k) /\ h_col (k_hasher k) = k_col k /\ h_row (k_hasher k) = k_row k /\ k_col k * k_row k <= 256 /\ over_qubits (k_col k * k_row k) p /\
  symmetrical_copy wide_cpp k p = SUndef.
Proof. exact eight_copy_refuted. Qed.
Print Assumptions C87_eight_refuted.
