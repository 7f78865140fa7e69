(** Specification vocabulary for rewriting: what an algebra is, what a word or rule means in it.  Nothing here refers to
    the rewriting algorithms. *)
From Coq Require Import List NArith Arith Bool Sorted.
From Verif Require Import CoreModel CoreSpec AlgModel.
Import ListNotations.

(** An algebra of operators, reduced to what monomial rules can see: a monoid with zero in which the four phases act, and
    in which x = s.x for a phase s other than 1 only if x = 0 (true of every complex algebra: (1 - s) x = 0).
    Equality is any congruence, so quotients are included. *)
Record algebra := {
  carrier :> Type;
  aeq : carrier -> carrier -> Prop;
  aone : carrier;
  azero : carrier;
  amul : carrier -> carrier -> carrier;
  aph : sign -> carrier -> carrier;
  aeq_refl : forall x, aeq x x;
  aeq_sym : forall x y, aeq x y -> aeq y x;
  aeq_trans : forall x y z, aeq x y -> aeq y z -> aeq x z;
  amul_cong : forall x x' y y', aeq x x' -> aeq y y' -> aeq (amul x y) (amul x' y');
  aph_cong : forall s x x', aeq x x' -> aeq (aph s x) (aph s x');
  amul_assoc : forall x y z, aeq (amul x (amul y z)) (amul (amul x y) z);
  amul_one_l : forall x, aeq (amul aone x) x;
  amul_one_r : forall x, aeq (amul x aone) x;
  amul_zero_l : forall x, aeq (amul azero x) azero;
  amul_zero_r : forall x, aeq (amul x azero) azero;
  aph_pos : forall x, aeq (aph SPos x) x;
  aph_mul : forall s t x, aeq (aph s (aph t x)) (aph (smul s t) x);
  aph_mul_l : forall s x y, aeq (amul (aph s x) y) (aph s (amul x y));
  aph_mul_r : forall s x y, aeq (amul x (aph s y)) (aph s (amul x y));
  aph_zero : forall s, aeq (aph s azero) azero;
  aph_free : forall s x, s <> SPos -> aeq (aph s x) x -> aeq x azero
}.

(** A *-algebra: additionally a conjugate-linear anti-multiplicative involution. *)
Record star_algebra := {
  salg :> algebra;
  astar : carrier salg -> carrier salg;
  astar_cong : forall x y, aeq salg x y -> aeq salg (astar x) (astar y);
  astar_invol : forall x, aeq salg (astar (astar x)) x;
  astar_mul : forall x y, aeq salg (astar (amul salg x y)) (amul salg (astar y) (astar x));
  astar_ph : forall s x, aeq salg (astar (aph salg s x)) (aph salg (sconj s) (astar x));
  astar_one : aeq salg (astar (aone salg)) (aone salg);
  astar_zero : aeq salg (astar (azero salg)) (azero salg)
}.

Section Denotation.
  Variable A : algebra.
  Variable v : nat -> A.
  (** product of the operators named in a word *)
  Fixpoint den_word (w : word) : A :=
    match w with [] => aone A | o :: w' => amul A (v o) (den_word w') end.
  (** a signed word, or zero (a hashed sequence denotes zero exactly when its hash is 0) *)
  Definition den_signed (s : sign) (w : word) : A := aph A s (den_word w).
  Definition den (q : hseq) : A := if N.eqb (hs_hash q) 0 then azero A else den_signed (hs_sign q) (hs_ops q).
  (** a rule holds: its two sides denote the same element *)
  Definition holds (rl : rule) : Prop := aeq A (den (rl_lhs rl)) (den (rl_rhs rl)).
  Definition all_hold (m : rulemap) : Prop := forall k rl, In (k, rl) m -> holds rl.
End Denotation.

(** [u] occurs in [w] *)
Definition occurs (u w : word) : Prop := exists p q, w = p ++ u ++ q.
(** [w] contains the (non-empty) left side of no rule *)
Definition irreducible (m : rulemap) (w : word) : Prop :=
  forall k rl, In (k, rl) m -> hs_ops (rl_lhs rl) <> [] -> ~ occurs (hs_ops (rl_lhs rl)) w.

(** ** Well-formed rulebooks *)

(** a hashed sequence in normal shape: zero (hash 0, no operators) or a word over [r] letters of length at most [L]
    with its shortlex hash *)
Definition wf_seq (r L : nat) (q : hseq) : Prop :=
  (hs_hash q = 0%N /\ hs_ops q = []) \/
  (hs_hash q = hash (N.of_nat r) (hs_ops q) /\ over r (hs_ops q) /\ length (hs_ops q) <= L).

(** a rule whose right side is strictly smaller than its left side *)
Definition wf_rule (r L : nat) (rl : rule) : Prop :=
  wf_seq r L (rl_lhs rl) /\ wf_seq r L (rl_rhs rl) /\
  hs_sign (rl_lhs rl) = SPos /\
  (hs_hash (rl_rhs rl) < hs_hash (rl_lhs rl))%N /\
  rl_zero rl = hs_zero (rl_rhs rl) /\ rl_trivial rl = false.

(** a rulebook's map: keys strictly increasing, each key the hash of its rule's left side *)
Definition wf_map (r L : nat) (m : rulemap) : Prop :=
  Sorted.StronglySorted N.lt (map fst m) /\
  (forall k rl, In (k, rl) m -> k = hs_hash (rl_lhs rl) /\ wf_rule r L rl).

(** hashes are exact for all words up to length [L] *)
Definition hash_safe (r L : nat) : Prop := (count_words (N.of_nat r) L < 2 ^ 64)%N.

(** ** Rewriting as a relation on signed words and zero ([None]) *)
Definition term := option (sign * word).
Definition den_term (A : algebra) (v : nat -> A) (t : term) : A :=
  match t with None => azero A | Some (s, w) => den_signed A v s w end.
Definition term_of (q : hseq) : term := if N.eqb (hs_hash q) 0 then None else Some (hs_sign q, hs_ops q).

Inductive rewrites (m : rulemap) : term -> term -> Prop :=
| rw_zero : forall k rl s a b, In (k, rl) m -> hs_hash (rl_rhs rl) = 0%N ->
    rewrites m (Some (s, a ++ hs_ops (rl_lhs rl) ++ b)) None
| rw_word : forall k rl s a b, In (k, rl) m -> hs_hash (rl_rhs rl) <> 0%N ->
    rewrites m (Some (s, a ++ hs_ops (rl_lhs rl) ++ b)) (Some (smul s (hs_sign (rl_rhs rl)), a ++ hs_ops (rl_rhs rl) ++ b)).

Inductive rewrites_star (m : rulemap) : term -> term -> Prop :=
| rws_refl : forall t, rewrites_star m t t
| rws_step : forall t u x, rewrites m t u -> rewrites_star m u x -> rewrites_star m t x.

(** ** Classes of rulebooks for which the library keeps track of phases correctly *)
(** the phase is +1 or -1 *)
Definition real_sign (s : sign) : Prop := s = SPos \/ s = SNeg.
(** class true: no phases at all; class false: phases +-1, and the identity never appears as a side of a rule *)
Definition tame_seq (unsigned : bool) (q : hseq) : Prop :=
  hs_hash q = 0%N \/ (if unsigned then hs_sign q = SPos else real_sign (hs_sign q) /\ hs_ops q <> []).
Definition tame_rule (c : bool) (rl : rule) : Prop := tame_seq c (rl_lhs rl) /\ tame_seq c (rl_rhs rl).
Definition tame_map (c : bool) (m : rulemap) : Prop := forall k rl, In (k, rl) m -> tame_rule c rl.

(** an interpretation of the operators in a *-algebra that respects the context's conjugation of operators *)
Definition star_model (A : star_algebra) (pc : precontext) (v : nat -> A) : Prop :=
  forall o, o < pc_num pc -> aeq A (v (conj_op pc o)) (astar A (v o)).
(** every left side in the book has length at most [M] *)
Definition max_lhs (M : nat) (m : rulemap) : Prop := forall k rl, In (k, rl) m -> length (hs_ops (rl_lhs rl)) <= M.

(** ** Hypotheses under which the library's completeness test is a correct confluence test *)
(** no left side is empty or occurs in the left side of another rule *)
Definition interreduced (m : rulemap) : Prop :=
  (forall k rl, In (k, rl) m -> hs_ops (rl_lhs rl) <> []) /\
  (forall k1 a k2 b, In (k1, a) m -> In (k2, b) m -> k1 <> k2 -> ~ occurs (hs_ops (rl_lhs a)) (hs_ops (rl_lhs b))).
(** a proper overlap: a non-empty proper suffix [y] of one left side is a proper prefix of another *)
Definition overlap (a b : rule) (x y z : word) : Prop :=
  hs_ops (rl_lhs a) = x ++ y /\ hs_ops (rl_lhs b) = y ++ z /\ x <> [] /\ y <> [] /\ z <> [].
(** the word a.LHS.b after one application of the rule at that place *)
Definition via (rl : rule) (a b : word) : term :=
  if N.eqb (hs_hash (rl_rhs rl)) 0 then None else Some (hs_sign (rl_rhs rl), a ++ hs_ops (rl_rhs rl) ++ b).
Definition joinable (m : rulemap) (t u : term) : Prop := exists x, rewrites_star m t x /\ rewrites_star m u x.
(** the overlaps the library never examines are harmless: those of a rule with itself, and those shorter than the longest
    overlap of the same two rules.  (Books without such overlaps satisfy this trivially.) *)
Definition unexamined_overlaps_join (m : rulemap) : Prop :=
  forall k1 a k2 b x y z, In (k1, a) m -> In (k2, b) m -> overlap a b x y z ->
    (k1 = k2 \/ exists x' y' z', overlap a b x' y' z' /\ length y < length y') ->
    joinable m (via a [] z) (via b x []).
Definition confluent (m : rulemap) : Prop :=
  forall t u x, rewrites_star m t u -> rewrites_star m t x -> joinable m u x.
Definition normal (m : rulemap) (t : term) : Prop := forall u, ~ rewrites m t u.
(** two terms are equal in every algebra in which all rules hold *)
Definition provably_equal (m : rulemap) (t u : term) : Prop :=
  forall (A : algebra) v, all_hold A v m -> aeq A (den_term A v t) (den_term A v u).

(** ** Contexts *)
(** a rule as accepted from a user: properly oriented, or a tautology *)
Definition usable_rule (r L : nat) (rl : rule) : Prop :=
  wf_rule r L rl \/ (rl_trivial rl = true /\ forall A v, holds A v rl).
Definition letters_commute (A : algebra) (v : nat -> A) (r : nat) : Prop :=
  forall a b, a < r -> b < r -> aeq A (amul A (v a) (v b)) (amul A (v b) (v a)).
(** each operator commutes with its conjugate *)
Definition letters_normal (A : algebra) (v : nat -> A) (pc : precontext) : Prop :=
  forall a, a < pc_num pc -> aeq A (amul A (v a) (v (conj_op pc a))) (amul A (v (conj_op pc a)) (v a)).
(** an algebra and operators in it that satisfy everything a context promises *)
Definition context_model (A : algebra) (v : nat -> A) (ctx : acontext) : Prop :=
  all_hold A v (rb_rules (ac_rules ctx)) /\
  (ac_commutative ctx = true -> letters_commute A v (pc_num (rb_pc (ac_rules ctx)))).
(** a context whose hashes are exact up to length [L] and whose rules are properly oriented *)
Definition context_ok (L : nat) (ctx : acontext) : Prop :=
  let r := pc_num (rb_pc (ac_rules ctx)) in hash_safe r L /\ wf_map r L (rb_rules (ac_rules ctx)).
(** in a commutative context, products of two operators in decreasing order can be rewritten *)
Definition sorts_pairs (ctx : acontext) : Prop :=
  ac_commutative ctx = true -> forall a b, a < b -> b < pc_num (rb_pc (ac_rules ctx)) ->
  exists k rl, In (k, rl) (rb_rules (ac_rules ctx)) /\ hs_ops (rl_lhs rl) <> [] /\ occurs (hs_ops (rl_lhs rl)) [b; a].

(** ** What must be known of a context for "complete" to mean "decides equality" *)
Definition decidable_context (L M : nat) (c : bool) (ctx : acontext) : Prop :=
  let r := pc_num (rb_pc (ac_rules ctx)) in let m := rb_rules (ac_rules ctx) in
  hash_safe r L /\ 2 * M <= L /\ wf_map r M m /\ tame_map c m /\ interreduced m /\ unexamined_overlaps_join m /\
  (ac_commutative ctx = true -> forall A v, all_hold A v m -> letters_commute A v r).
(** a fully simplified sequence *)
Definition canonical (L : nat) (ctx : acontext) (q : hseq) : Prop :=
  wf_seq (pc_num (rb_pc (ac_rules ctx))) L q /\ irreducible (rb_rules (ac_rules ctx)) (hs_ops q) /\
  (hs_hash q = 0%N -> q = hseq_const true).
(** conjugation keeps phases only when all operators are self-adjoint; otherwise stay in the phase-free class *)
Definition phase_safe (c : bool) (ctx : acontext) (q : hseq) : Prop :=
  pc_mode (rb_pc (ac_rules ctx)) = SelfAdjoint \/ (c = true /\ hs_sign q = SPos).
(** what a raw reduction call returned *)
Definition red_term (x : red * word * sign) : term := match x with (SetToZero, _, _) => None | (_, w, s) => Some (s, w) end.
