(** C90: when one rule is said to imply another. *)
From Coq Require Import NArith Arith String List.
From Verif Require Import CoreModel CoreSpec AlgModel AlgSpec TextModel RimModel RimSpec RimProofs RimTextProofs.
Import ListNotations.
Local Open Scope list_scope.

(** A rule that is said to be implied follows in every algebra, if the rules have the same sign and the first does not set to zero. *)
Theorem C90_sound_partial : forall r L a b, hash_safe r L -> wf_rule r L a -> wf_rule r L b -> rl_zero a = false -> rule_sign a = rule_sign b ->
  implies a b = true -> consequence a b.
Proof. exact implies_sound. Qed.
Print Assumptions C90_sound_partial.
Example C90_sound_example : exists a b, make_rule (hseq_make 4 [1; 1; 0] SPos) (hseq_make 4 [0] SNeg) = Ret a /\ make_rule (hseq_make 4 [2; 1; 1; 0; 3] SPos) (hseq_make 4 [2; 0; 3] SNeg) = Ret b /\
  hash_safe 4 5 /\ wf_rule 4 5 a /\ wf_rule 4 5 b /\ rl_zero a = false /\ rule_sign a = rule_sign b /\ implies a b = true /\ implies b a = false.
Proof. exact imp_example. Qed.

(** Exactly those rules are said to be implied that put the same operators around both sides, where the sides are first found. *)
Theorem C90_exact : forall a b, hs_ops (rl_lhs b) <> [] -> hs_ops (rl_rhs b) <> [] ->
  (implies a b = true <-> exists p q, first_found p (hs_ops (rl_lhs a)) q (hs_ops (rl_lhs b)) /\ first_found p (hs_ops (rl_rhs a)) q (hs_ops (rl_rhs b))).
Proof. exact implies_exact. Qed.
Print Assumptions C90_exact.

(** A rule implies itself, if neither side is empty; nothing is said to imply a rule with an empty right side. *)
Theorem C90_self_partial : forall a, hs_ops (rl_lhs a) <> [] -> hs_ops (rl_rhs a) <> [] -> implies a a = true.
Proof. exact implies_self. Qed.
Print Assumptions C90_self_partial.
Theorem C90_empty : forall a b, hs_ops (rl_rhs b) = [] -> implies a b = false.
Proof. exact empty_never. Qed.
Print Assumptions C90_empty.
Example C90_exact_example : exists a b, make_rule (hseq_make 4 [1; 1; 0] SPos) (hseq_make 4 [0] SNeg) = Ret a /\ make_rule (hseq_make 4 [2; 0] SPos) (hseq_make 4 [] SPos) = Ret b /\
  hs_ops (rl_lhs a) <> [] /\ hs_ops (rl_rhs a) <> [] /\ hs_ops (rl_rhs b) = [].
Proof. exact sides_example. Qed.

(** A rule with the same operators around both sides is said to be implied, if the sides are found only there. *)
Theorem C90_complete_partial : forall a b p q, hs_ops (rl_lhs b) <> [] -> hs_ops (rl_rhs b) <> [] ->
  hs_ops (rl_lhs b) = p ++ hs_ops (rl_lhs a) ++ q -> hs_ops (rl_rhs b) = p ++ hs_ops (rl_rhs a) ++ q ->
  (forall p' q', hs_ops (rl_lhs b) = p' ++ hs_ops (rl_lhs a) ++ q' -> p' = p) ->
  (forall p' q', hs_ops (rl_rhs b) = p' ++ hs_ops (rl_rhs a) ++ q' -> p' = p) -> implies a b = true.
Proof. exact implies_complete. Qed.
Print Assumptions C90_complete_partial.
Example C90_complete_example : exists a b, make_rule (hseq_make 4 [1] SPos) (hseq_make 4 [0] SPos) = Ret a /\ make_rule (hseq_make 4 [2; 1; 3] SPos) (hseq_make 4 [2; 0; 3] SPos) = Ret b /\ hs_ops (rl_lhs b) <> [] /\ hs_ops (rl_rhs b) <> [] /\ hs_ops (rl_lhs b) = [2] ++ hs_ops (rl_lhs a) ++ [3] /\ hs_ops (rl_rhs b) = [2] ++ hs_ops (rl_rhs a) ++ [3] /\ (forall p' q', hs_ops (rl_lhs b) = p' ++ hs_ops (rl_lhs a) ++ q' -> p' = [2]) /\ (forall p' q', hs_ops (rl_rhs b) = p' ++ hs_ops (rl_rhs a) ++ q' -> p' = [2]).
Proof. exact complete_example. Qed.

(** Different rules are printed differently. *)
Theorem C90_text : forall r L a b, wf_rule r L a -> wf_rule r L b -> rule_text a = rule_text b -> a = b.
Proof. exact rule_text_inj. Qed.
Print Assumptions C90_text.
Example C90_text_example : exists a, make_rule (hseq_make 12 [1; 11; 0] SPos) (hseq_make 12 [10] SNegIm) = Ret a /\ wf_rule 12 3 a /\ rule_text a = tx "X1X11X0 -> -iX10".
Proof. exact text_example. Qed.

(** The sign is not compared. *)
Theorem C90_sign_refuted : exists a b, make_rule (hseq_make 2 [1] SPos) (hseq_make 2 [0] SPos) = Ret a /\ make_rule (hseq_make 2 [1] SPos) (hseq_make 2 [0] SNeg) = Ret b /\
  implies a b = true /\ ~ consequence a b.
Proof. exact sign_witness. Qed.
Print Assumptions C90_sign_refuted.
(** Zero is taken for the identity. *)
Theorem C90_zero_refuted : exists a b, make_rule (hseq_make 2 [0; 0] SPos) (hseq_const true) = Ret a /\ make_rule (hseq_make 2 [0; 0; 1] SPos) (hseq_make 2 [1] SPos) = Ret b /\
  implies a b = true /\ ~ consequence a b.
Proof. exact zero_witness. Qed.
Print Assumptions C90_zero_refuted.
(** A rule with the identity on its right does not imply itself. *)
Theorem C90_self_refuted : exists a, make_rule (hseq_make 2 [0; 0] SPos) (hseq_make 2 [] SPos) = Ret a /\ extends a a /\ implies a a = false.
Proof. exact self_witness. Qed.
Print Assumptions C90_self_refuted.
(** A rule with the same operators put around both sides may be missed. *)
Theorem C90_later_refuted : exists a b, make_rule (hseq_make 2 [1] SPos) (hseq_make 2 [0] SPos) = Ret a /\ make_rule (hseq_make 2 [0; 1] SPos) (hseq_make 2 [0; 0] SPos) = Ret b /\
  extends a b /\ implies a b = false.
Proof. exact later_witness. Qed.
Print Assumptions C90_later_refuted.
