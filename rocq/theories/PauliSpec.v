(** What Pauli operators are: 2x2 matrices over the Gaussian integers acting on the qubits of a state vector. *)
From Coq Require Import List ZArith NArith Arith Bool Sorted.
From Verif Require Import CoreModel CoreSpec.
Import ListNotations.

Definition gadd (x y : gauss) : gauss := (fst x + fst y, snd x + snd y)%Z.
Definition gsub (x y : gauss) : gauss := (fst x - fst y, snd x - snd y)%Z.
Definition gzero : gauss := (0, 0)%Z.

(** the Pauli matrices X, Y, Z; row, column *)
Definition pauli_matrix (p : nat) (row col : bool) : gauss :=
  match p with
  | 0 => if xorb row col then (1, 0)%Z else (0, 0)%Z
  | 1 => if xorb row col then (if row then (0, 1)%Z else (0, -1)%Z) else (0, 0)%Z
  | 2 => if xorb row col then (0, 0)%Z else (if row then (-1, 0)%Z else (1, 0)%Z)
  | _ => (0, 0)%Z
  end.

(** A state vector: one amplitude for each computational basis state; basis state [b] has qubit [q] in state
    [N.testbit b q].  (States of n qubits are those supported on b < 2^n.) *)
Definition state := N -> gauss.
Definition with_bit (b : N) (q : nat) (c : bool) : N :=
  if c then N.setbit b (N.of_nat q) else N.clearbit b (N.of_nat q).
(** a 2x2 matrix applied to qubit [q] *)
Definition act (m : bool -> bool -> gauss) (q : nat) (psi : state) : state := fun b =>
  let row := N.testbit b (N.of_nat q) in
  gadd (gmul (m row false) (psi (with_bit b q false))) (gmul (m row true) (psi (with_bit b q true))).

(** operator number 3 q + p is Pauli matrix p on qubit q; a word is the product of its operators, so the last operator
    acts first *)
Fixpoint apply_word (w : word) (psi : state) : state :=
  match w with [] => psi | o :: w' => act (pauli_matrix (o mod 3)) (o / 3) (apply_word w' psi) end.
(** a signed sequence, or zero *)
Definition apply_seq (q : hseq) (psi : state) : state := fun b =>
  if N.eqb (hs_hash q) 0 then gzero else gmul (phase (hs_sign q)) (apply_word (hs_ops q) psi b).
Definition apply_signed (s : sign) (w : word) (psi : state) : state := fun b => gmul (phase s) (apply_word w psi b).

(** matrix element <row| w |col> *)
Definition basis_state (c : N) : state := fun b => if N.eqb b c then gone else gzero.
Definition entry (f : state -> state) (row col : N) : gauss := f (basis_state col) row.

(** at most one operator per qubit, in increasing order of qubits *)
Definition pauli_canonical (w : word) : Prop := StronglySorted (fun a b => a / 3 < b / 3) w.
(** a canonical sequence in a context of [n] qubits: zero, or a canonical word of length at most [L] with its hash *)
Definition pauli_wf (n L : nat) (q : hseq) : Prop :=
  q = hseq_const true \/
  (hs_hash q = hash (N.of_nat (3 * n)) (hs_ops q) /\ over (3 * n) (hs_ops q) /\ length (hs_ops q) <= L /\
   pauli_canonical (hs_ops q)).
(** hashes of words up to length [L] are exact *)
Definition pauli_safe (n L : nat) : Prop := (count_words (N.of_nat (3 * n)) L < 2 ^ 64)%N.
