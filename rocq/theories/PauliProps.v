(** C09 (Pauli part), C10-C12: words of Pauli operators. *)
From Coq Require Import List ZArith NArith Arith Bool Sorted Lia.
From Verif Require Import CoreModel CoreSpec CoreProofs PauliModel PauliSpec PauliProofs PauliFinalProofs PauliWitnessProofs.
Import ListNotations.

(* ------------------------------------------------------------------------------------------------ C10 *)
(** Simplifying a string of Pauli operators, of any length and with any phase, does not change the operator it denotes. *)
Theorem C10_simplification_sound : forall (w : word) (s : sign) (psi : state) (b : N),
  apply_signed (snd (pauli_simplify w s)) (fst (pauli_simplify w s)) psi b = apply_signed s w psi b.
Proof. exact simplify_sound. Qed.
Print Assumptions C10_simplification_sound.

(** The stored sequence object (word, hash, phase) denotes that operator too.  Either the string is short enough for
    exact hashes, or all canonical words of the context are (n <= L). *)
Theorem C10_sequence_sound : forall (n L : nat) (w : word) (s : sign) (psi : state) (b : N),
  pauli_safe n L -> over (3 * n) w -> length w <= L \/ n <= L ->
  apply_seq (pauli_sequence n w s) psi b = apply_signed s w psi b.
Proof. exact sequence_sound. Qed.
Print Assumptions C10_sequence_sound.

(** Up to 12 qubits all canonical words are short enough, so strings of every length are covered. *)
Example C10_safe_12_qubits : pauli_safe 12 12.
Proof. vm_compute. reflexivity. Qed.
Example C10_not_safe_13_qubits : ~ pauli_safe 13 13.
Proof. vm_compute. discriminate. Qed.
(** XYZ = i I on the same qubit; Z2 X1 Z2 Y1 = i Z1 *)
Example C10_example : pauli_simplify [0; 1; 2] SPos = ([], SIm) /\ pauli_simplify [5; 0; 5; 1] SPos = ([2], SIm) /\
  pauli_simplify [1; 0; 5] SNeg = ([2; 5], SIm).
Proof. vm_compute. auto. Qed.

(** The product of two sequences denotes the composition of the operators, zero included. *)
Theorem C10_product_sound : forall (n La Lb L : nat) (a b : hseq) (psi : state) (x : N),
  pauli_safe n L -> La + Lb <= L \/ (n <= L /\ La <= L /\ Lb <= L) -> pauli_wf n La a -> pauli_wf n Lb b ->
  apply_seq (pauli_multiply n a b) psi x = apply_seq a (apply_seq b psi) x /\
  (hs_hash a <> 0%N -> hs_hash b <> 0%N -> pauli_wf n L (pauli_multiply n a b)).
Proof. exact multiply_sound. Qed.
Print Assumptions C10_product_sound.
Example C10_product_example :
  pauli_multiply 2 (pauli_sequence 2 [0; 3] SPos) (pauli_sequence 2 [1; 5] SIm) = pauli_sequence 2 [2; 4] SIm.
Proof. vm_compute. reflexivity. Qed.

(** Single-qubit factories give the sequence of the one-letter word. *)
Theorem C10_sigma : forall (n p q : nat) (s : sign), p < 3 -> q < n -> (N.of_nat (3 * n) < 2 ^ 63)%N ->
  pauli_sigma p q s = pauli_sequence n [3 * q + p] s.
Proof. exact sigma_is_sequence. Qed.
Print Assumptions C10_sigma.

(* ------------------------------------------------------------------------------------------------ C11 *)
(** Canonical words have at most one operator per qubit, in increasing order; no operator appears on a new qubit; words
    never get longer. *)
Theorem C11_canonical_shape : forall (w : word) (s : sign),
  pauli_canonical (fst (pauli_simplify w s)) /\ length (fst (pauli_simplify w s)) <= length w /\
  (forall x, In x (fst (pauli_simplify w s)) -> exists y, In y w /\ x / 3 = y / 3).
Proof. exact simplify_shape. Qed.
Print Assumptions C11_canonical_shape.

(** Canonical words denote different operators unless equal, phase included. *)
Theorem C11_canonical_unique : forall (s : sign) (u : word) (t : sign) (w : word), pauli_canonical u -> pauli_canonical w ->
  (forall psi b, apply_signed s u psi b = apply_signed t w psi b) -> u = w /\ s = t.
Proof. exact canonical_unique. Qed.
Print Assumptions C11_canonical_unique.

(** Two strings denote the same operator iff they simplify to the same word and phase. *)
Theorem C11_simplification_decides_equality : forall (u : word) (s : sign) (w : word) (t : sign),
  (forall psi b, apply_signed s u psi b = apply_signed t w psi b) <-> pauli_simplify u s = pauli_simplify w t.
Proof. exact simplify_unique. Qed.
Print Assumptions C11_simplification_decides_equality.

(** ... and, as long as hashes are exact, iff the library's == says so. *)
Theorem C11_sequence_equality : forall (n L : nat) (u : word) (s : sign) (w : word) (t : sign),
  pauli_safe n L -> over (3 * n) u -> over (3 * n) w -> length u <= L \/ n <= L -> length w <= L \/ n <= L ->
  ((forall psi b, apply_signed s u psi b = apply_signed t w psi b) <-> pauli_sequence n u s = pauli_sequence n w t) /\
  (hs_eqb (pauli_sequence n u s) (pauli_sequence n w t) = true <-> pauli_sequence n u s = pauli_sequence n w t).
Proof. exact sequence_unique. Qed.
Print Assumptions C11_sequence_equality.
Example C11_equality_example : hs_eqb (pauli_sequence 3 [4; 0; 1] SPos) (pauli_sequence 3 [2; 4] SIm) = true /\
  hs_eqb (pauli_sequence 3 [4; 0; 1] SPos) (pauli_sequence 3 [2; 4] SPos) = false.
Proof. vm_compute. auto. Qed.

(** Nothing limits the length of Pauli words, so beyond 64 bits == can identify different operators: in a chain of 64
    qubits X1 X2 ... X12 == Y1 X2 ... X12. *)
Theorem C11_long_words_refuted : exists (n : nat) (u w : word), over (3 * n) u /\ over (3 * n) w /\
  pauli_canonical u /\ pauli_canonical w /\
  hs_eqb (pauli_sequence n u SPos) (pauli_sequence n w SPos) = true /\
  ~ forall psi b, apply_signed SPos u psi b = apply_signed SPos w psi b.
Proof. exact equality_refuted. Qed.
Print Assumptions C11_long_words_refuted.

(** The two-way merge agrees with general simplification of the concatenation. *)
Theorem C11_multiply_is_simplification : forall (n L : nat) (a b : hseq), pauli_wf n L a -> pauli_wf n L b ->
  hs_hash a <> 0%N -> hs_hash b <> 0%N ->
  pauli_multiply n a b = pauli_sequence n (hs_ops a ++ hs_ops b) (smul (hs_sign a) (hs_sign b)).
Proof. exact multiply_is_sequence. Qed.
Print Assumptions C11_multiply_is_simplification.

Theorem C11_multiply_associative : forall (n L : nat) (a b c : hseq), pauli_safe n L ->
  pauli_wf n L a -> pauli_wf n L b -> pauli_wf n L c -> hs_hash a <> 0%N -> hs_hash b <> 0%N -> hs_hash c <> 0%N ->
  length (hs_ops a) + length (hs_ops b) + length (hs_ops c) <= L \/ n <= L ->
  pauli_multiply n (pauli_multiply n a b) c = pauli_multiply n a (pauli_multiply n b c).
Proof. exact multiply_assoc. Qed.
Print Assumptions C11_multiply_associative.
Example C11_associative_example : let a := pauli_sequence 3 [0; 5] SIm in let b := pauli_sequence 3 [1; 4; 6] SPos in
  let c := pauli_sequence 3 [2; 7] SNeg in
  pauli_multiply 3 (pauli_multiply 3 a b) c = pauli_sequence 3 [3; 8] SPos /\ pauli_wf 3 3 a /\ pauli_safe 3 3.
Proof.
  split; [vm_compute; reflexivity|]. split; [|vm_compute; reflexivity]. apply sequence_wf; [|left; cbn; lia].
  intros x [<-|[<-|[]]]; lia.
Qed.

Theorem C11_multiply_identity : forall (n L : nat) (a : hseq), pauli_safe n L -> pauli_wf n L a ->
  pauli_multiply n (hseq_const false) a = a /\ pauli_multiply n a (hseq_const false) = a.
Proof. exact multiply_identity. Qed.
Print Assumptions C11_multiply_identity.

(** Zero annihilates: the product's hash is that of zero ... *)
Theorem C11_multiply_zero : forall (n L : nat) (a b : hseq), pauli_safe n L -> pauli_wf n L a -> pauli_wf n L b ->
  hs_hash a = 0%N \/ hs_hash b = 0%N -> hs_hash (pauli_multiply n a b) = 0%N.
Proof. exact multiply_zero. Qed.
Print Assumptions C11_multiply_zero.
(** ... but it is not always == to zero: 0 * (-I) keeps the minus sign. *)
Theorem C11_zero_product_refuted : exists (n : nat) (a b : hseq), pauli_wf n n a /\ pauli_wf n n b /\ hs_zero a = true /\
  hs_eqb (pauli_multiply n a b) (hseq_const true) = false.
Proof. exact zero_product_refuted. Qed.
Print Assumptions C11_zero_product_refuted.

(** A word is reported canonical exactly when it is. *)
Theorem C11_get_if_canonical : forall (n L : nat) (w : word), pauli_safe n L -> over (3 * n) w -> length w <= L ->
  (pauli_canonical w -> pauli_get_if_canonical n w = Some (hseq_make (pauli_radix n) w SPos)) /\
  (~ pauli_canonical w -> pauli_get_if_canonical n w = None).
Proof. exact pauli_get_if_canonical_spec. Qed.
Print Assumptions C11_get_if_canonical.

(* ------------------------------------------------------------------------------------------------ C12 *)
(** Twice the commutator is AB - BA and twice the anticommutator is AB + BA, for all sequences (zero included). *)
Theorem C12_commutator_anticommutator : forall (n La Lb L : nat) (a b : hseq) (psi : state) (x : N),
  pauli_safe n L -> La + Lb <= L \/ (n <= L /\ La <= L /\ Lb <= L) -> pauli_wf n La a -> pauli_wf n Lb b ->
  let ab := apply_seq a (apply_seq b psi) x in
  let ba := apply_seq b (apply_seq a psi) x in
  let twice q := gadd (apply_seq q psi x) (apply_seq q psi x) in
  twice (pauli_commutator n a b) = gsub ab ba /\ twice (pauli_anticommutator n a b) = gadd ab ba.
Proof. exact commutators_spec. Qed.
Print Assumptions C12_commutator_anticommutator.

(** One of them is zero and the other is the product. *)
Theorem C12_zero_or_product : forall (n : nat) (a b : hseq),
  let r := pauli_multiply n a b in
  (pauli_commutator n a b = hseq_const true /\ pauli_anticommutator n a b = r) \/
  (pauli_commutator n a b = r /\ pauli_anticommutator n a b = hseq_const true).
Proof. exact commutators_shape. Qed.
Print Assumptions C12_zero_or_product.
Example C12_example : let x := pauli_sequence 2 [0] SPos in let y := pauli_sequence 2 [1] SPos in
  let xx := pauli_sequence 2 [0; 3] SPos in let yy := pauli_sequence 2 [1; 4] SPos in
  pauli_commutator 2 x y = pauli_sequence 2 [2] SIm /\ pauli_anticommutator 2 x y = hseq_const true /\
  pauli_commutator 2 xx yy = hseq_const true /\ pauli_anticommutator 2 xx yy = pauli_sequence 2 [2; 5] SNeg.
Proof. vm_compute. auto. Qed.

(* ------------------------------------------------------------------------------------------------ C09 (Pauli) *)
(** Conjugation of a Pauli sequence is the conjugate transpose of its matrix. *)
Theorem C09_pauli_conjugate_is_adjoint : forall (n L : nat) (q : hseq) (r c : N), pauli_wf n L q ->
  entry (apply_seq (pauli_conjugate q)) r c = gconj (entry (apply_seq q) c r).
Proof. exact conjugate_adjoint. Qed.
Print Assumptions C09_pauli_conjugate_is_adjoint.

Theorem C09_pauli_conjugate_involutive : forall q, pauli_conjugate (pauli_conjugate q) = q.
Proof. exact pauli_conjugate_involutive. Qed.
Print Assumptions C09_pauli_conjugate_involutive.

Theorem C09_pauli_conjugate_product : forall (n L : nat) (a b : hseq), pauli_wf n L a -> pauli_wf n L b ->
  hs_hash a <> 0%N -> hs_hash b <> 0%N ->
  pauli_conjugate (pauli_multiply n a b) = pauli_multiply n (pauli_conjugate b) (pauli_conjugate a).
Proof. exact pauli_conjugate_product. Qed.
Print Assumptions C09_pauli_conjugate_product.
Example C09_pauli_example : let a := pauli_sequence 2 [0; 3] SIm in let b := pauli_sequence 2 [1] SPos in
  pauli_multiply 2 a b = pauli_sequence 2 [2; 3] SNeg /\
  pauli_multiply 2 (pauli_conjugate b) (pauli_conjugate a) = pauli_sequence 2 [2; 3] SNeg.
Proof. vm_compute. auto. Qed.
