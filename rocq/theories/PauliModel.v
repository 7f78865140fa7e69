(** Model of scenarios/pauli/pauli_context.cpp: simplification, product, (anti)commutators and conjugates. *)
From Coq Require Import List ZArith NArith Arith Bool.
From Verif Require Import CoreModel.
Import ListNotations.

(** cayley_table_ixyz, pauli_context.cpp:29-32.  0 = I, 1 = X, 2 = Y, 3 = Z; a negative entry carries -i, a positive one +i
    (for products of two non-identity operators). *)
Definition cayley_table : list Z :=
  [0; 1; 2; 3;  1; 0; 3; -2;  2; -3; 0; 1;  3; 2; -1; 0]%Z.
(** multiply_pauli_with_id, pauli_context.cpp:55-60 *)
Definition multiply_pauli_with_id (l r : nat) : Z := nth (4 * l + r) cayley_table 0%Z.
(** multiply_pauli, pauli_context.cpp:40-45 *)
Definition multiply_pauli (l r : nat) : Z := nth (4 * (l + 1) + (r + 1)) cayley_table 0%Z.

(** qubit and Pauli index of an operator: op / 3 and op % 3 *)
Definition qubit_of (o : nat) : nat := o / 3.
Definition pauli_of (o : nat) : nat := o mod 3.

(** std::stable_sort by qubit (pauli_context.cpp:120-122), as stable insertion sort *)
Fixpoint insert_by_qubit (x : nat) (l : word) : word :=
  match l with [] => [x] | y :: l' => if Nat.leb (qubit_of x) (qubit_of y) then x :: l else y :: insert_by_qubit x l' end.
Definition stable_sort_qubits (w : word) : word := fold_right insert_by_qubit [] w.

(** the write of an accumulated operator: nothing if it is the identity (pauli_context.cpp:145-150, 176-179) *)
Definition emit (party pauli : nat) : word := if Nat.eqb pauli 0 then [] else [party * 3 + pauli - 1].

(** loop of additional_simplification, pauli_context.cpp:136-179.  The in-place write iterator trails the read iterator, so
    the output is modelled as a separate list. *)
Fixpoint simp_loop (last_party last_pauli : nat) (rest : word) (s : sign) : word * sign :=
  match rest with
  | [] => (emit last_party last_pauli, s)
  | op :: rest' =>
      let current_party := qubit_of op in
      let current_pauli := 1 + pauli_of op in
      if negb (Nat.eqb current_party last_party) then
        let x := simp_loop current_party current_pauli rest' s in (emit last_party last_pauli ++ fst x, snd x)
      else if negb (Nat.eqb last_pauli 0) then
        let p := multiply_pauli_with_id last_pauli current_pauli in
        if Z.ltb 0 p then simp_loop last_party (Z.to_nat p) rest' (smul s SIm)
        else if Z.ltb p 0 then simp_loop last_party (Z.to_nat (- p)) rest' (smul s SNegIm)
        else simp_loop last_party 0 rest' s
      else simp_loop last_party current_pauli rest' s
  end.

(** PauliContext::additional_simplification, pauli_context.cpp:113-188 (never reports zero) *)
Definition pauli_simplify (w : word) (s : sign) : word * sign :=
  match stable_sort_qubits w with
  | [] => ([], s)
  | op :: rest => simp_loop (qubit_of op) (1 + pauli_of op) rest s
  end.

(** radix of the context's hasher: three operators per qubit, pauli_context.cpp:64, 84 *)
Definition pauli_radix (n : nat) : N := N.of_nat (3 * n).

(** OperatorSequence construction (operator_sequence.cpp:33-61) in a Pauli context of [n] qubits *)
Definition pauli_sequence (n : nat) (w : word) (s : sign) : hseq :=
  let x := pauli_simplify w s in hseq_make (pauli_radix n) (fst x) (snd x).

(** merge loop of PauliContext::multiply, pauli_context.cpp:233-311, on two non-empty lists of operators *)
Fixpoint merge_loop (l : word) : word -> sign -> word * sign :=
  fix inner (r : word) (s : sign) {struct r} : word * sign :=
    match l, r with
    | [], _ => (r, s)
    | _, [] => (l, s)
    | lop :: l', rop :: r' =>
        if Nat.ltb (qubit_of lop) (qubit_of rop) then
          let x := merge_loop l' r s in (lop :: fst x, snd x)
        else if Nat.ltb (qubit_of rop) (qubit_of lop) then
          let x := inner r' s in (rop :: fst x, snd x)
        else
          let p := multiply_pauli (pauli_of lop) (pauli_of rop) in
          if Z.ltb 0 p then
            let x := merge_loop l' r' (smul s SIm) in ((3 * qubit_of lop + (Z.to_nat p - 1)) :: fst x, snd x)
          else if Z.ltb p 0 then
            let x := merge_loop l' r' (smul s SNegIm) in ((3 * qubit_of lop + (Z.to_nat (- p) - 1)) :: fst x, snd x)
          else merge_loop l' r' s
    end.

(** PauliContext::multiply, pauli_context.cpp:190-316 *)
Definition pauli_multiply (n : nat) (a b : hseq) : hseq :=
  let s := smul (hs_sign a) (hs_sign b) in
  match hs_ops b with
  | [] => if hs_zero b then hseq_const true else mk_hseq (hs_hash a) (hs_ops a) s
  | _ => match hs_ops a with
         | [] => if hs_zero a then hseq_const true else mk_hseq (hs_hash b) (hs_ops b) s
         | _ => let x := merge_loop (hs_ops a) (hs_ops b) s in hseq_make (pauli_radix n) (fst x) (snd x)
         end
  end.

(** HashedSequence::set_to_zero, hashed_sequence.h:202-206, gives hseq_const true.
    PauliContext::commutator / anticommutator, pauli_context.cpp:318-334 (half of the (anti)commutator, pauli_context.h:157-183) *)
Definition pauli_commutator (n : nat) (a b : hseq) : hseq :=
  let r := pauli_multiply n a b in
  if Bool.eqb (s_is_imaginary (smul (hs_sign a) (hs_sign b))) (hs_imaginary r) then hseq_const true else r.
Definition pauli_anticommutator (n : nat) (a b : hseq) : hseq :=
  let r := pauli_multiply n a b in
  if negb (Bool.eqb (s_is_imaginary (smul (hs_sign a) (hs_sign b))) (hs_imaginary r)) then hseq_const true else r.

(** PauliContext::conjugate, pauli_context.cpp:354-357 *)
Definition pauli_conjugate (a : hseq) : hseq := mk_hseq (hs_hash a) (hs_ops a) (sconj (hs_sign a)).

(** sigmaX, sigmaY, sigmaZ, pauli_context.cpp:359-379: [p] = 0, 1, 2 *)
Definition pauli_sigma (p qubit : nat) (s : sign) : hseq := mk_hseq (N.of_nat (3 * qubit + p + 2)) [3 * qubit + p] s.

(** Context::get_if_canonical, context.cpp:115-130, in a Pauli context *)
Definition pauli_get_if_canonical (n : nat) (w : word) : option hseq :=
  let q := pauli_sequence n w SPos in
  if negb (Nat.eqb (length (hs_ops q)) (length w)) then None
  else if negb (N.eqb (hs_hash q) (hash (pauli_radix n) w)) then None
  else Some q.
