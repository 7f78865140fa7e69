(** C91: exported rewrite rules say what the rulebook says. *)
From Coq Require Import NArith ZArith Arith String List.
From Verif Require Import CoreModel CoreSpec AlgModel AlgSpec TextModel RexModel RexSpec RexProofs.
Import ListNotations.
Local Open Scope list_scope.

(** The exported equations hold in an algebra exactly if the rules do, whether operators are numbered from 1 or from 0. *)
Theorem C91_meaning : forall r L ml m (A : algebra) (v : nat -> A), hash_safe r L -> wf_map r L m ->
  (Forall (equation (first_number ml) A v) (export_rules ml m) <-> all_hold A v m).
Proof. exact book_meaning. Qed.
Print Assumptions C91_meaning.
(** So does the equation of each rule. *)
Theorem C91_rule : forall r L ml a (A : algebra) (v : nat -> A), hash_safe r L -> wf_rule r L a ->
  (equation (first_number ml) A v (export_rule ml a) <-> holds A v a).
Proof. exact export_meaning. Qed.
Print Assumptions C91_rule.
(** Rulebooks with the same exported rules are the same. *)
Theorem C91_determines : forall r L ml, hash_safe r L -> forall m m', wf_map r L m -> wf_map r L m' -> export_rules ml m = export_rules ml m' -> m = m'.
Proof. exact book_inj. Qed.
Print Assumptions C91_determines.
(** There is one entry for each rule. *)
Theorem C91_count : forall ml m, List.length (export_rules ml m) = List.length m.
Proof. exact book_length. Qed.
Print Assumptions C91_count.
Example C91_example : hash_safe 3 3 /\ wf_map 3 3 rex_book /\
  (exists a, make_rule (hseq_make 3 [2; 1] SPos) (hseq_make 3 [1; 2] SNegIm) = Ret a /\ In (hs_hash (rl_lhs a), a) rex_book) /\
  export_rules true rex_book = [[RNums [1; 1]%Z; RNums [0]%Z]; [RNums [3; 2]%Z; RChars (tx "-i"); RNums [2; 3]%Z]] /\
  export_rules false rex_book = [[RNums [0; 0]%Z; RNums [-1]%Z]; [RNums [2; 1]%Z; RChars (tx "-i"); RNums [1; 2]%Z]].
Proof. exact rex_example. Qed.
