(** What the commands that simplify and conjugate words promise. *)
From Coq Require Import List NArith ZArith Arith Bool.
From Verif Require Import CoreModel CoreSpec AlgModel AlgSpec LocModel LocSpec PauliModel PauliSpec WopModel.
Import ListNotations.
Local Open Scope list_scope.
Local Open Scope nat_scope.

(** operators counted from 1, of a context with [n] operators; numbers have 16 bits *)
Definition names_op (n : nat) (z : Z) (o : nat) : Prop := z = Z.of_nat (S o) /\ o < n /\ (z <= 32767)%Z.
Definition names_word (n : nat) (l : list Z) (w : word) : Prop := Forall2 (names_op n) l w.
(** the element of an algebra that an answer stands for: zero if the hash is 0 *)
Definition shown_value (A : algebra) (v : nat -> A) (r : shown) : A := if N.eqb (x_hash r) 0 then azero A else aph A (x_sign r) (den_word A v (map pred (x_ops r))).
(** an array of answers, in the shape of the question; one alone is not put in an array *)
Definition answers_in (shape : list nat) (rs : list shown) (a : answer) : Prop :=
  (shape = [1; 1] -> exists r, rs = [r] /\ a = XOne r) /\ (shape <> [1; 1] -> a = XMany shape rs).
(** ... and the operator on qubits *)
Definition shown_apply (r : shown) : state -> state := apply_seq (mk_hseq (x_hash r) (map pred (x_ops r)) (x_sign r)).
(** numbers that are no operators, among those of 16 bits *)
Definition out_of_range (n : nat) (z : Z) : Prop := (-32768 <= z <= 0 \/ Z.of_nat n < z <= 32767)%Z.
(** making sequences in locality and Pauli scenarios; words that are not too long for the hashes *)
Definition loc_make (sc : scenario) (w : word) : res hseq := loc_sequence sc w SPos.
Definition pauli_make (n : nat) (w : word) : res hseq := Ret (pauli_sequence n w SPos).
Definition pauli_conj_op (q : hseq) : res hseq := Ret (pauli_conjugate q).
Definition fits (sc : scenario) (L : nat) (w : word) : Prop := over (total_opers sc) w /\ length w <= L.
Definition pauli_fits (n L : nat) (w : word) : Prop := over (3 * n) w /\ (length w <= L \/ n <= L).
Definition alg_make (fuel : nat) (ctx : acontext) (w : word) : res hseq := canonical_form fuel ctx w SPos.
Definition alg_fits (L : nat) (ctx : acontext) (w : word) : Prop := over (pc_num (rb_pc (ac_rules ctx))) w /\ length w <= L.
