(** C89: the commands that simplify and conjugate words of operators. *)
From Coq Require Import List NArith ZArith Arith Bool.
From Verif Require Import CoreModel CoreSpec AlgModel AlgSpec AlgWitnessProofs TextModel LocModel LocSpec LocProofs PauliModel PauliSpec TextWitnessProofs WopModel WopSpec WopProofs.
Import ListNotations.
Local Open Scope list_scope.
Local Open Scope nat_scope.

(** Simplifying in a locality scenario: for every word, and every array of words place by place, the answer is equal to the word in every algebra of such measurements. *)
Theorem C89_simplify_partial : forall sc L named, loc_safe sc L -> let n := total_opers sc in
  let P := fun w r => forall (A : algebra) (v : nat -> A), loc_model sc A v -> aeq A (shown_value A v r) (den_word A v w) in
  (forall l w, names_word n l w -> fits sc L w -> exists r, simplify_words n (loc_make sc) named (WNumbers l) = WOk (XOne r) /\ P w r) /\
  forall shape ls ws, length ls = fold_right Nat.mul 1 shape -> Forall2 (names_word n) ls ws -> Forall (fits sc L) ws ->
    exists rs a, simplify_words n (loc_make sc) named (WCells shape ls) = WOk a /\ answers_in shape rs a /\ Forall2 P ws rs.
Proof. exact loc_simplify_cmd. Qed.
Print Assumptions C89_simplify_partial.
(** Two words get the same answer exactly if they are equal in every such algebra. *)
Theorem C89_same_partial : forall sc L named, loc_safe sc L -> forall l u k w, let n := total_opers sc in names_word n l u -> names_word n k w -> fits sc L u -> fits sc L w ->
  (simplify_words n (loc_make sc) named (WNumbers l) = simplify_words n (loc_make sc) named (WNumbers k) <-> forall (A : algebra) (v : nat -> A), loc_model sc A v -> aeq A (den_word A v u) (den_word A v w)).
Proof. exact loc_same. Qed.
Print Assumptions C89_same_partial.
(** Conjugating: the answer is the adjoint of the word. *)
Theorem C89_conjugate_partial : forall sc L scan, loc_safe sc L -> let n := total_opers sc in
  let P := fun w r => forall (A : star_algebra) (v : nat -> A), loc_model sc A v -> (forall x, valid_oper sc x -> aeq A (v (op_number sc x)) (astar A (v (op_number sc x)))) -> aeq A (shown_value A v r) (astar A (den_word A v w)) in
  (forall l w, names_word n l w -> fits sc L w -> exists r, conjugate_words n (loc_make sc) (loc_conjugate sc) scan (WNumbers l) = WOk (XOne r) /\ P w r) /\
  forall shape ls ws, length ls = fold_right Nat.mul 1 shape -> Forall2 (names_word n) ls ws -> Forall (fits sc L) ws ->
    exists rs a, conjugate_words n (loc_make sc) (loc_conjugate sc) scan (WCells shape ls) = WOk a /\ answers_in shape rs a /\ Forall2 P ws rs.
Proof. exact loc_conjugate_cmd. Qed.
Print Assumptions C89_conjugate_partial.
Example C89_locality_nonvacuous : loc_safe wop_trits 4 /\ Forall2 (names_word (total_opers wop_trits)) [[3; 1; 1]; [1; 2]; []; [3]]%Z [[2; 0; 0]; [0; 1]; []; [2]] /\ Forall (fits wop_trits 4) [[2; 0; 0]; [0; 1]; []; [2]] /\
  simplify_words (total_opers wop_trits) (loc_make wop_trits) None (WNumbers [3; 1; 1]%Z) = WOk (XOne (mk_shown [3; 1] SPos (x_hash (show (hseq_make 3 [2; 0] SPos))))).
Proof. exact trits_example. Qed.

(** The same in Pauli scenarios, where words act on qubits. *)
Theorem C89_pauli_simplify_partial : forall n L named, pauli_safe n L -> let P := fun w r => forall psi b, shown_apply r psi b = apply_signed SPos w psi b in
  (forall l w, names_word (3 * n) l w -> pauli_fits n L w -> exists r, simplify_words (3 * n) (pauli_make n) named (WNumbers l) = WOk (XOne r) /\ P w r) /\
  forall shape ls ws, length ls = fold_right Nat.mul 1 shape -> Forall2 (names_word (3 * n)) ls ws -> Forall (pauli_fits n L) ws ->
    exists rs a, simplify_words (3 * n) (pauli_make n) named (WCells shape ls) = WOk a /\ answers_in shape rs a /\ Forall2 P ws rs.
Proof. exact pauli_simplify_cmd. Qed.
Print Assumptions C89_pauli_simplify_partial.
Theorem C89_pauli_same_partial : forall n L named, pauli_safe n L -> forall l u k w, names_word (3 * n) l u -> names_word (3 * n) k w -> pauli_fits n L u -> pauli_fits n L w ->
  (simplify_words (3 * n) (pauli_make n) named (WNumbers l) = simplify_words (3 * n) (pauli_make n) named (WNumbers k) <-> forall psi b, apply_signed SPos u psi b = apply_signed SPos w psi b).
Proof. exact pauli_same. Qed.
Print Assumptions C89_pauli_same_partial.
Theorem C89_pauli_conjugate_partial : forall n L scan, pauli_safe n L -> let P := fun w r => forall i j, entry (shown_apply r) i j = gconj (entry (apply_signed SPos w) j i) in
  (forall l w, names_word (3 * n) l w -> pauli_fits n L w -> exists r, conjugate_words (3 * n) (pauli_make n) pauli_conj_op scan (WNumbers l) = WOk (XOne r) /\ P w r) /\
  forall shape ls ws, length ls = fold_right Nat.mul 1 shape -> Forall2 (names_word (3 * n)) ls ws -> Forall (pauli_fits n L) ws ->
    exists rs a, conjugate_words (3 * n) (pauli_make n) pauli_conj_op scan (WCells shape ls) = WOk a /\ answers_in shape rs a /\ Forall2 P ws rs.
Proof. exact pauli_conjugate_cmd. Qed.
Print Assumptions C89_pauli_conjugate_partial.
Example C89_pauli_nonvacuous : pauli_safe 2 4 /\ Forall2 (names_word (3 * 2)) [[1; 2; 4]; [6; 6]]%Z [[0; 1; 3]; [5; 5]] /\ Forall (pauli_fits 2 4) [[0; 1; 3]; [5; 5]] /\
  simplify_words (3 * 2) (pauli_make 2) None (WNumbers [1; 2]%Z) = WOk (XOne (show (hseq_make 6 [2] SIm))).
Proof. exact pauli_word_example. Qed.

(** Algebraic scenarios, with enough steps of rewriting; conjugation where operators are self-adjoint. *)
Theorem C89_algebraic_simplify_partial : forall L ctx named, context_ok L ctx -> let n := pc_num (rb_pc (ac_rules ctx)) in
  let P := fun w r => forall (A : algebra) (v : nat -> A), context_model A v ctx -> aeq A (shown_value A v r) (den_word A v w) in
  forall shape ls ws, length ls = fold_right Nat.mul 1 shape -> Forall2 (names_word n) ls ws -> Forall (alg_fits L ctx) ws -> exists N, forall fuel, N <= fuel ->
  exists rs a, simplify_words n (alg_make fuel ctx) named (WCells shape ls) = WOk a /\ answers_in shape rs a /\ Forall2 P ws rs.
Proof. exact alg_simplify_cmd. Qed.
Print Assumptions C89_algebraic_simplify_partial.
Theorem C89_algebraic_conjugate_partial : forall L ctx scan, context_ok L ctx -> pc_mode (rb_pc (ac_rules ctx)) = SelfAdjoint -> let n := pc_num (rb_pc (ac_rules ctx)) in
  let P := fun w r => forall (A : star_algebra) (v : nat -> A), star_model A (rb_pc (ac_rules ctx)) v -> context_model A v ctx -> aeq A (shown_value A v r) (astar A (den_word A v w)) in
  forall shape ls ws, length ls = fold_right Nat.mul 1 shape -> Forall2 (names_word n) ls ws -> Forall (alg_fits L ctx) ws -> exists N, forall fuel, N <= fuel ->
  exists rs a, conjugate_words n (alg_make fuel ctx) (conjugate fuel ctx) scan (WCells shape ls) = WOk a /\ answers_in shape rs a /\ Forall2 P ws rs.
Proof. exact alg_conjugate_cmd. Qed.
Print Assumptions C89_algebraic_conjugate_partial.
Example C89_algebraic_nonvacuous : let ctx := mk_actx false anticommuting in context_ok 8 ctx /\ pc_mode (rb_pc (ac_rules ctx)) = SelfAdjoint /\
  Forall2 (names_word (pc_num (rb_pc (ac_rules ctx)))) [[2; 1]; [2; 2; 1]]%Z [[1; 0]; [1; 1; 0]] /\ Forall (alg_fits 8 ctx) [[1; 0]; [1; 1; 0]] /\
  simplify_words 2 (alg_make 20 ctx) None (WNumbers [2; 1]%Z) = WOk (XOne (show (hseq_make 2 [0; 1] SNeg))).
Proof. exact algebraic_example. Qed.
(** A single word is a cell of one word. *)
Theorem C89_single : forall n make conj named scan l, simplify_words n make named (WCells [1; 1] [l]) = simplify_words n make named (WNumbers l) /\ conjugate_words n make conj scan (WCells [1; 1] [l]) = conjugate_words n make conj scan (WNumbers l).
Proof. exact single_cells. Qed.
Print Assumptions C89_single.

(** Numbers of 16 bits that are no operators are refused, in every scenario. *)
Theorem C89_refused_partial : forall n make conj named scan l, (exists z, In z l /\ out_of_range n z) -> simplify_words n make named (WNumbers l) = WErr /\ conjugate_words n make conj scan (WNumbers l) = WErr.
Proof. exact refused_numbers. Qed.
Print Assumptions C89_refused_partial.
Example C89_refused_nonvacuous : out_of_range 3 4 /\ out_of_range 3 0 /\ ~ out_of_range 3 3.
Proof. exact range_example. Qed.
(** Names mean the operators they name. *)
Theorem C89_names : forall n make named t l w, named = Some t -> Forall2 (fun x o => find_operator t x = Some o) l w -> over n w -> n <= Z.to_nat 32767 ->
  simplify_words n make named (WNames l) = simplify_words n make named (WNumbers (map (fun o => Z.of_nat (S o)) w)).
Proof. exact names_numbers. Qed.
Print Assumptions C89_names.
Example C89_names_nonvacuous : Forall2 (fun x o => find_operator bunched_xy x = Some o) (rev (firstn 2 (nm_names bunched_xy))) [1; 0] /\ nm_names bunched_xy <> [].
Proof. split; [repeat constructor|discriminate]. Qed.

(** The full claim, that operators and sign tell the value of a word, is false: zero and the identity look alike unless the hash is asked for. *)
Theorem C89_zero_refuted : forall named, exists r s, simplify_words (total_opers wop_trits) (loc_make wop_trits) named (WNumbers [1; 2]%Z) = WOk (XOne r) /\ simplify_words (total_opers wop_trits) (loc_make wop_trits) named (WNumbers []) = WOk (XOne s) /\
  x_ops r = x_ops s /\ x_sign r = x_sign s /\ exists (A : algebra) (v : nat -> A), loc_model wop_trits A v /\ aeq A (den_word A v [0; 1]) (azero A) /\ ~ aeq A (den_word A v []) (azero A).
Proof. exact zero_refuted. Qed.
Print Assumptions C89_zero_refuted.
(** The full claim, that all numbers which are no operators are refused, is false: 65537 is taken as 1. *)
Theorem C89_wide_refuted : forall named scan, let n := total_opers wop_trits in out_of_range n 32767 /\
  simplify_words n (loc_make wop_trits) named (WNumbers [65537]%Z) = simplify_words n (loc_make wop_trits) named (WNumbers [1]%Z) /\ conjugate_words n (loc_make wop_trits) (loc_conjugate wop_trits) scan (WNumbers [65537]%Z) = conjugate_words n (loc_make wop_trits) (loc_conjugate wop_trits) scan (WNumbers [1]%Z) /\
  exists a, simplify_words n (loc_make wop_trits) named (WNumbers [65537]%Z) = WOk a.
Proof. exact wide_refuted. Qed.
Print Assumptions C89_wide_refuted.
