(** What site hashes and canonical Pauli words should be, independently of how they are computed. *)
From Coq Require Import List NArith ZArith Arith Bool Sorted.
From Verif Require Import CoreModel SiteModel.
Import ListNotations.

(** content of qubit [q] in a hash: 0 = I, 1 = X, 2 = Y, 3 = Z, two bits each, 32 qubits to a 64-bit number *)
Definition site (d : datum) (q : nat) : N := ((nth (q / 32) d 0 / 4 ^ N.of_nat (q mod 32)) mod 4)%N.

(** the constants of a hasher for [h_col * h_row] qubits on the least number of slides *)
Definition hasher_ok (h : hasher) : Prop :=
  0 < h_qubits h /\ h_qubits h <= 32 * h_slides h < h_qubits h + 32 /\
  h_final h = (4 ^ N.of_nat (h_qubits h - 32 * (h_slides h - 1)) - 1)%N /\
  (h_col h <= 32 -> h_mask h = (4 ^ N.of_nat (h_col h) - 1)%N).
(** a hash of the right shape: as many 64-bit numbers as slides, nothing beyond the last qubit *)
Definition packed (h : hasher) (d : datum) : Prop :=
  length d = h_slides h /\ (forall x, In x d -> (x < 2 ^ 64)%N) /\ (forall q, h_qubits h <= q -> site d q = 0%N).

(** a canonical Pauli word on [n] qubits: at most one Pauli operator on each qubit, in the order of the qubits *)
Definition pauli_word (n : nat) (w : word) : Prop :=
  StronglySorted (fun a b => a / 3 < b / 3) w /\ (forall op, In op w -> op < 3 * n).
(** what the word does at qubit [q]: 0 = I, 1 = X, 2 = Y, 3 = Z *)
Definition letter (w : word) (q : nat) : N :=
  match find (fun op => Nat.eqb (op / 3) q) w with Some op => N.of_nat (op mod 3 + 1) | None => 0%N end.

(** [w'] is [w] moved by [k] qubits along a closed chain of [n] *)
Definition chain_moved (n k : nat) (w w' : word) : Prop :=
  pauli_word n w' /\ forall q, q < n -> letter w' ((q + k) mod n) = letter w q.
Definition chain_equivalent (n : nat) (w w' : word) : Prop := exists k, chain_moved n k w w'.
(** [w'] is [w] moved by [r] rows and [c] columns on a torus of [ch] rows and [rw] columns; qubit number = column * ch + row *)
Definition lattice_moved (ch rw r c : nat) (w w' : word) : Prop :=
  pauli_word (ch * rw) w' /\
  forall row col, row < ch -> col < rw -> letter w' ((col + c) mod rw * ch + (row + r) mod ch) = letter w (col * ch + row).
Definition lattice_equivalent (ch rw : nat) (w w' : word) : Prop := exists r c, lattice_moved ch rw r c w w'.

(** shifts by 64 or more, although undefined in C++, give some number, and zero when zero is shifted (as hardware does) *)
Definition benign (wide : bool -> N -> N -> sout N) : Prop :=
  (forall l x k, exists y, (y < 2 ^ 64)%N /\ wide l x k = SOk y) /\ (forall l k, wide l 0%N k = SOk 0%N).

(** lattices whose rows the hasher rotates correctly *)
Definition rows_ok (wide : bool -> N -> N -> sout N) (h : hasher) : Prop :=
  match h_slides h with
  | 1 => True
  | 2 => h_col h <= 32 /\ (32 mod h_col h <> 0 \/ benign wide)
  | _ => h_col h <= h_row h /\ h_col h < 32
  end.

(** open boundaries: [w'] is [w] moved by [r] rows and [c] columns, no operator leaving the [ch] rows *)
Definition open_moved (ch : nat) (r c : Z) (w w' : word) : Prop :=
  Forall2 (fun op op' => op' mod 3 = op mod 3 /\
                         Z.of_nat ((op' / 3) mod ch) = (Z.of_nat ((op / 3) mod ch) + r)%Z /\
                         Z.of_nat (op' / 3 / ch) = (Z.of_nat (op / 3 / ch) + c)%Z) w w'.
Definition open_chain_moved (k : Z) (w w' : word) : Prop :=
  Forall2 (fun op op' => op' mod 3 = op mod 3 /\ Z.of_nat (op' / 3) = (Z.of_nat (op / 3) + k)%Z) w w'.
