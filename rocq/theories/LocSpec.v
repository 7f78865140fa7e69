(** Locality scenarios: what measurement operators are, what relations they satisfy. *)
From Coq Require Import List NArith Arith Bool Sorted.
From Verif Require Import CoreModel CoreSpec AlgModel AlgSpec LocModel.
Import ListNotations.

(** A measurement operator: party, measurement of that party, outcome.  The last outcome of each measurement has no
    operator (it is the identity minus the others). *)
Definition moper := (nat * nat * nat)%type.
Definition op_party (x : moper) : nat := fst (fst x).
Definition op_mmt (x : moper) : nat := snd (fst x).
Definition op_outcome (x : moper) : nat := snd x.
Definition valid_oper (sc : scenario) (x : moper) : Prop :=
  op_party x < length sc /\ op_mmt x < length (nth (op_party x) sc []) /\
  S (op_outcome x) < nth (op_mmt x) (nth (op_party x) sc []) 0.
(** number of operators of some measurements *)
Definition count_opers (p : party) : nat := list_sum (map (fun m => m - 1) p).
(** operators are numbered by party, then measurement, then outcome *)
Definition op_number (sc : scenario) (x : moper) : nat :=
  list_sum (map count_opers (firstn (op_party x) sc)) +
  count_opers (firstn (op_mmt x) (nth (op_party x) sc [])) + op_outcome x.
Definition total_opers (sc : scenario) : nat := list_sum (map count_opers sc).

(** Operators (assigned by [v] to operator numbers of [sc]) in an algebra that satisfies the relations of a locality
    scenario: operators of different parties commute, every operator is idempotent, different outcomes of one measurement
    are orthogonal. *)
Definition loc_model (sc : scenario) (A : algebra) (v : nat -> A) : Prop :=
  (forall x y, valid_oper sc x -> valid_oper sc y -> op_party x <> op_party y ->
     aeq A (amul A (v (op_number sc x)) (v (op_number sc y))) (amul A (v (op_number sc y)) (v (op_number sc x)))) /\
  (forall x, valid_oper sc x -> aeq A (amul A (v (op_number sc x)) (v (op_number sc x))) (v (op_number sc x))) /\
  (forall x y, valid_oper sc x -> valid_oper sc y -> op_party x = op_party y -> op_mmt x = op_mmt y -> op_outcome x <> op_outcome y ->
     aeq A (amul A (v (op_number sc x)) (v (op_number sc y))) (azero A)).

(** The consequences of the relations, as chains of replacements inside words ([None] is zero). *)
Inductive loc_equal (sc : scenario) : option word -> option word -> Prop :=
| le_refl : forall t, loc_equal sc t t
| le_sym : forall t u, loc_equal sc t u -> loc_equal sc u t
| le_trans : forall t u x, loc_equal sc t u -> loc_equal sc u x -> loc_equal sc t x
| le_commute : forall p q x y, valid_oper sc x -> valid_oper sc y -> op_party x <> op_party y ->
    loc_equal sc (Some (p ++ op_number sc x :: op_number sc y :: q)) (Some (p ++ op_number sc y :: op_number sc x :: q))
| le_idempotent : forall p q x, valid_oper sc x ->
    loc_equal sc (Some (p ++ op_number sc x :: op_number sc x :: q)) (Some (p ++ op_number sc x :: q))
| le_orthogonal : forall p q x y, valid_oper sc x -> valid_oper sc y -> op_party x = op_party y -> op_mmt x = op_mmt y ->
    op_outcome x <> op_outcome y ->
    loc_equal sc (Some (p ++ op_number sc x :: op_number sc y :: q)) None.

Definition den_opt (A : algebra) (v : nat -> A) (t : option word) : A :=
  match t with None => azero A | Some w => den_word A v w end.

(** Canonical words: parties in non-decreasing order, and no two neighbours are equal or different outcomes of one
    measurement. *)
Definition neighbours_ok (sc : scenario) (a b : nat) : Prop :=
  forall x y, valid_oper sc x -> valid_oper sc y -> a = op_number sc x -> b = op_number sc y ->
  op_party x < op_party y \/ (op_party x = op_party y /\ op_mmt x <> op_mmt y).
Definition loc_canonical (sc : scenario) (w : word) : Prop := over (total_opers sc) w /\ Sorted (neighbours_ok sc) w.

(** A well-formed sequence of the context: zero, or a canonical word with its hash, of length at most [L]. *)
Definition loc_wf (sc : scenario) (L : nat) (q : hseq) : Prop :=
  q = hseq_const true \/
  (hs_hash q = hash (N.of_nat (total_opers sc)) (hs_ops q) /\ loc_canonical sc (hs_ops q) /\ length (hs_ops q) <= L).
(** hashes of words of length at most [L] are exact *)
Definition loc_safe (sc : scenario) (L : nat) : Prop := hash_safe (total_opers sc) L.
