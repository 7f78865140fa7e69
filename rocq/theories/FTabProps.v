(** Factor tables of inflation scenarios: C57, C58, C59. *)
From Coq Require Import List NArith ZArith Arith Bool Sorted Permutation.
From Verif Require Import CoreModel FieldModel FieldProofs AlgModel InfModel InfSpec InfWitnessProofs TreeModel SymModel PolyModel PolySpec RuleModel RuleSpec RuleWitnessProofs
  FTabModel FTabSpec FTabTableProofs FTabProductProofs FTabValueProofs FTabPolyProofs FTabExpandProofs FTabWitnessProofs.
Import ListNotations.

(** C57: a new system's table is sound. *)
Theorem C57_new : forall outcomes srcs nt L, make_network outcomes srcs = Some nt -> forall grow_to,
  exists t, settles nt L (fun fuel scratch => new_table (inflate nt L) fuel scratch grow_to) t /\ sound_table srcs nt L t /\
    exists more, ft_syms t = Some None :: Some (Some []) :: map (fun w => Some (Some w)) more.
Proof. exact new_table_spec. Qed.
Print Assumptions C57_new.
Example C57_new_holds : make_network [2; 2] [[0; 1]] = Some two_net /\ new_table (inflate two_net 2) 9 [0; 0] doubling = FOk tab0.
Proof. exact (conj two_made tab0_eq). Qed.

(** C57: registering new words keeps the table sound; the words get the next symbols, and factors without a symbol the ones after. *)
Theorem C57_add_words : forall outcomes srcs nt L, make_network outcomes srcs = Some nt -> forall grow_to t ws,
  sound_table srcs nt L t -> new_words nt L t ws ->
  exists t' more, settles nt L (fun fuel scratch => add_words (inflate nt L) fuel scratch grow_to t ws) t' /\ sound_table srcs nt L t' /\
    ft_syms t' = ft_syms t ++ map (fun w => Some (Some w)) (ws ++ more).
Proof. exact add_words_spec. Qed.
Print Assumptions C57_add_words.
Example C57_add_words_holds : sound_table [[0; 1]] two_net 2 tab0 /\ new_words two_net 2 tab0 [[0]; [2]; [0; 2]; [0; 1]] /\
  add_words (inflate two_net 2) 9 [0; 0] doubling tab0 [[0]; [2]; [0; 2]; [0; 1]] = FOk tab1.
Proof. exact (conj tab0_sound (conj two_new tab1_eq)). Qed.

(** C57: registering a product keeps the table sound; its symbol is the product, and is new only if no symbol has these factors. *)
Theorem C57_register : forall outcomes srcs nt L, make_network outcomes srcs = Some nt -> forall grow_to t a b la lb,
  sound_table srcs nt L t -> factors t a la -> factors t b lb ->
  exists t' id, combine_and_register grow_to t la lb = FOk (t', id) /\ sound_table srcs nt L t' /\ grows t t' /\ id < length (ft_syms t') /\
    (forall (R : rfield) (v : nat -> cx R), multiplicative t' v -> v id = cmul (v a) (v b)) /\
    (t' = t \/ (id = length (ft_syms t) /\ forall e, In e (ft_entries t) -> fe_syms e <> combine_factors la lb)).
Proof. exact w_register. Qed.
Print Assumptions C57_register.
Example C57_register_holds : sound_table [[0; 1]] two_net 2 tab1 /\ map fe_syms (ft_entries tab1) = [[0]; [1]; [2]; [3]; [4]; [2; 2]].
Proof. exact (conj tab1_sound (proj1 tab1_shape)). Qed.

(** C57: in every explanation of the scenario there is exactly one value for each symbol, the expectation value of its word or the
    product for which it was created; and every symbol is the product of its factors. *)
Theorem C57_meaning : forall outcomes srcs nt L, make_network outcomes srcs = Some nt -> forall (R : rfield) (M : explanation R) t,
  normalized R M -> sound_table srcs nt L t ->
  exists v, meaning outcomes srcs nt L R M t v /\
    (forall v', meaning outcomes srcs nt L R M t v' -> forall k, k < length (ft_syms t) -> v' k = v k) /\
    (forall k e, nth_error (ft_entries t) k = Some e -> v k = product R v (fe_syms e)) /\
    multiplicative t (fun k => creal (v k)).
Proof. exact w_meaning. Qed.
Print Assumptions C57_meaning.
Example C57_meaning_holds : normalized Qc_rfield ex_coins /\ sound_table [[0; 1]] two_net 2 tab1.
Proof. exact (conj ex_coins_normal tab1_sound). Qed.

(** C57: adding to the table changes no old value. *)
Theorem C57_grows : forall outcomes srcs nt L, make_network outcomes srcs = Some nt -> forall (R : rfield) (M : explanation R), normalized R M ->
  forall t t' v, sound_table srcs nt L t -> sound_table srcs nt L t' -> grows t t' -> meaning outcomes srcs nt L R M t' v -> meaning outcomes srcs nt L R M t v.
Proof. exact meaning_grows. Qed.
Print Assumptions C57_grows.
Example C57_grows_holds : normalized Qc_rfield ex_coins /\ sound_table [[0; 1]] two_net 2 tab0 /\ sound_table [[0; 1]] two_net 2 tab1 /\ grows tab0 tab1.
Proof. exact (conj ex_coins_normal (conj tab0_sound (conj tab1_sound tab_grows))). Qed.

(** C57: factors are symbols of their own that do not factor further. *)
Theorem C57_factors : forall outcomes srcs nt L, make_network outcomes srcs = Some nt -> forall t k l,
  sound_table srcs nt L t -> factors t k l -> l <> [] /\ forall j, In j l -> factors t j [j] /\ exists q, symbol_seq t j q /\ unfactorable srcs nt L q.
Proof. exact w_factors. Qed.
Print Assumptions C57_factors.
Example C57_factors_holds : sound_table [[0; 1]] two_net 2 tab1 /\ factors tab1 5 [2; 2].
Proof. exact (conj tab1_sound (tab1_factors 5 [2; 2] eq_refl)). Qed.

(** C57: looking up a list of factors finds a symbol that has them, if there is one. *)
Theorem C57_find : forall srcs nt L t ks, sound_table srcs nt L t ->
  match find_factors t ks with Some k => factors t k ks | None => forall e, In e (ft_entries t) -> fe_syms e <> ks end.
Proof. exact find_spec. Qed.
Print Assumptions C57_find.
Example C57_find_holds : find_factors tab1 [2; 2] = Some 5 /\ find_factors tab1 [2; 3] = None.
Proof. split; vm_compute; reflexivity. Qed.

(** C58: the product of symbols is the symbol found, or an exception is thrown and there is no symbol with these factors. *)
Theorem C58_list : forall outcomes srcs nt L, make_network outcomes srcs = Some nt -> forall t ks,
  sound_table srcs nt L t -> ks <> [] -> (forall k, In k ks -> k < length (ft_syms t)) ->
  (exists id, multiply_list t ks = FOk id /\ id < length (ft_syms t) /\ forall (R : rfield) (v : nat -> cx R), multiplicative t v -> v id = cproduct v ks) \/
  (multiply_list t ks = FThrow /\ ~ In 0 ks /\
   forall l e, all_factors t ks l -> ~ In 0 l -> In e (ft_entries t) -> ~ Permutation (fe_syms e) (without_one l)).
Proof. exact list_spec. Qed.
Print Assumptions C58_list.
Example C58_list_holds : multiply_list tab1 [2; 1; 2] = FOk 5 /\ multiply_list tab1 [2; 3] = FThrow /\ length (ft_syms tab1) = 6.
Proof. repeat split; vm_compute; reflexivity. Qed.

(** C58: the same for two symbols. *)
Theorem C58_pair : forall outcomes srcs nt L, make_network outcomes srcs = Some nt -> forall t a b,
  sound_table srcs nt L t -> a < length (ft_syms t) -> b < length (ft_syms t) ->
  (exists id, multiply_pair t a b = FOk id /\ id < length (ft_syms t) /\ forall (R : rfield) (v : nat -> cx R), multiplicative t v -> v id = cmul (v a) (v b)) \/
  (multiply_pair t a b = FThrow /\ no_product t a b).
Proof. exact w_pair. Qed.
Print Assumptions C58_pair.
Example C58_pair_holds : multiply_pair tab1 2 2 = FOk 5 /\ multiply_pair tab1 2 5 = FThrow /\ length (ft_syms tab1) = 6.
Proof. repeat split; vm_compute; reflexivity. Qed.

(** C58: the product of canonical polynomials is a canonical polynomial, or an exception is thrown and there is a product of two of
    their symbols without a symbol. *)
Theorem C58_poly : forall outcomes srcs nt L, make_network outcomes srcs = Some nt -> forall (R : rfield) (F : factory R) t,
  factory_ok F -> sound_table srcs nt L t -> same_symbols F t -> forall p q,
  canonical (fa_table F) (fa_lt F) p -> canonical (fa_table F) (fa_lt F) q ->
  (exists r, multiply_poly F t p q = FOk r /\ canonical (fa_table F) (fa_lt F) r /\
     forall v, assignment (fa_table F) v -> multiplicative t v -> value v r = cmul (value v p) (value v q)) \/
  (multiply_poly F t p q = FThrow /\ exists x y, In x p /\ In y q /\ no_product t (m_id x) (m_id y)).
Proof. exact poly_spec. Qed.
Print Assumptions C58_poly.
Example C58_poly_holds : factory_ok F6 /\ same_symbols F6 tab1 /\ canonical (fa_table F6) (fa_lt F6) poly6 /\ exists r, multiply_poly F6 tab1 poly6 poly6 = FOk r /\ map m_id r = [1; 2; 5].
Proof. exact (conj F6_ok (conj F6_same poly6_case)). Qed.

(** C58, refuted: the product of no symbols is zero, not one. *)
Theorem C58_empty_refuted : exists outcomes srcs nt L t id, make_network outcomes srcs = Some nt /\ sound_table srcs nt L t /\ multiply_list t [] = FOk id /\
  forall (R : rfield) (v : nat -> cx R), multiplicative t v -> v id <> cproduct v [].
Proof. exact w_empty. Qed.
Print Assumptions C58_empty_refuted.

(** C58, refuted: registering the product with zero makes a new symbol, although it is zero. *)
Theorem C58_zero_refuted : exists outcomes srcs nt L t t' id, make_network outcomes srcs = Some nt /\ sound_table srcs nt L t /\ factors t 0 [0] /\ factors t 2 [2] /\
  combine_and_register doubling t [0] [2] = FOk (t', id) /\ id = length (ft_syms t) /\ forall (R : rfield) (v : nat -> cx R), multiplicative t' v -> v id = v 0.
Proof. exact w_zero. Qed.
Print Assumptions C58_zero_refuted.

(** C59: extending a rulebook to products.  Together with "every symbol is the product of its factors" the new rules say the same as the
    old ones; afterwards each product to whose factors rules apply equals the product of what the rules give. *)
Theorem C59_done : forall outcomes srcs nt L, make_network outcomes srcs = Some nt -> forall (R : rfield) (F : factory R) t,
  factory_ok F -> sound_table srcs nt L t -> same_symbols F t -> forall psrt, (forall l, Permutation l (psrt l)) ->
  forall fuel from b eqs, session F psrt b eqs -> forall b' n, expand_rulebook F psrt fuel t from b = XDone b' n ->
  (forall v, assignment (fa_table F) v -> multiplicative t v -> (obeys v (rb_rules b') /\ solves v (rb_raw b') <-> obeys v (rb_rules b) /\ solves v (rb_raw b))) /\
  (rb_safe b = true -> rb_rules b <> [] ->
     rb_raw b' = [] /\ rb_expand b' = false /\ n = (Z.of_nat (length (rb_rules b')) - 2 * Z.of_nat (length (rb_rules b)))%Z /\
     forall e, In e (skipn from (ft_entries t)) -> affected (rb_rules b) e ->
     exists p, (forall v, assignment (fa_table F) v -> multiplicative t v -> value v p = cproduct (rule_value v (rb_rules b)) (fe_syms e)) /\
       (forall v, assignment (fa_table F) v -> obeys v (rb_rules b') -> v (fe_id e) = value v p)) /\
  (rb_safe b = false \/ rb_rules b = [] -> rb_rules b' = rb_rules b /\ rb_raw b' = rb_raw b /\ n = 0%Z).
Proof. exact x_done. Qed.
Print Assumptions C59_done.
Example C59_done_holds : factory_ok F6 /\ same_symbols F6 tab1 /\ session F6 keep book6 eqs6 /\ expand_rulebook F6 keep 12 tab1 0 book6 = XDone (x_book run6) 0 /\
  rb_safe book6 = true /\ map ru_lhs (rb_rules book6) = [2] /\ map ru_lhs (rb_rules (x_book run6)) = [2; 5] /\
  exists e, In e (skipn 0 (ft_entries tab1)) /\ fe_id e = 5 /\ affected (rb_rules book6) e.
Proof. exact (conj F6_ok (conj F6_same (conj book6_session (conj run6_eq (conj (proj1 book6_shape) (conj (proj1 (proj2 book6_shape)) (conj (proj2 (proj2 book6_shape)) book6_affected))))))). Qed.

(** C59: an exception means that a product has no symbol, and then the rules are as before, or that the rules contradict the table. *)
Theorem C59_throw : forall outcomes srcs nt L, make_network outcomes srcs = Some nt -> forall (R : rfield) (F : factory R) t,
  factory_ok F -> sound_table srcs nt L t -> same_symbols F t -> forall psrt, (forall l, Permutation l (psrt l)) ->
  forall fuel from b eqs, session F psrt b eqs -> forall b', expand_rulebook F psrt fuel t from b = XThrow b' ->
  (rb_rules b' = rb_rules b /\ rb_raw b' = rb_raw b /\ exists i j, no_product t i j) \/
  (forall v, assignment (fa_table F) v -> multiplicative t v -> ~ (obeys v (rb_rules b) /\ solves v (rb_raw b))).
Proof. exact x_throw. Qed.
Print Assumptions C59_throw.
Example C59_throw_holds : session F6 keep book3 eqs3 /\ expand_rulebook F6 keep 16 tab1 0 book3 = XThrow (x_book run3).
Proof. exact (conj book3_session run3_eq). Qed.

(** C59: there is always a result, given square roots. *)
Theorem C59_total : forall outcomes srcs nt L, make_network outcomes srcs = Some nt -> forall (R : rfield) (F : factory R) t,
  factory_ok F -> sound_table srcs nt L t -> same_symbols F t -> forall psrt, (forall l, Permutation l (psrt l)) ->
  forall fuel from b eqs, session F psrt b eqs -> has_roots F -> 2 * (length (rb_raw b) + length (ft_entries t)) <= fuel ->
  expand_rulebook F psrt fuel t from b <> XOther.
Proof. exact x_total. Qed.
Print Assumptions C59_total.
Example C59_total_holds : factory_ok FR6 /\ same_symbols FR6 tab1 /\ has_roots FR6 /\ session FR6 (fun l => l) (set_raw (new_rulebook true) [eqR6]) [eqR6] /\ length (ft_entries tab1) = 6.
Proof. exact FR6_case. Qed.

(** C59, refuted: the number returned is not the number of rules added. *)
Theorem C59_count_refuted : exists (F : factory Qc_rfield) psrt fuel t b eqs b' n,
  factory_ok F /\ (exists outcomes srcs nt L, make_network outcomes srcs = Some nt /\ sound_table srcs nt L t) /\ same_symbols F t /\
  (forall l, Permutation l (psrt l)) /\ session F psrt b eqs /\ expand_rulebook F psrt fuel t 0 b = XDone b' n /\ n = 0%Z /\ length (rb_rules b') = S (length (rb_rules b)).
Proof. exact w_count. Qed.
Print Assumptions C59_count_refuted.

(** C59, refuted: after an exception the rulebook can still be added to. *)
Theorem C59_unlocked_refuted : exists (F : factory Qc_rfield) psrt fuel t b eqs b',
  factory_ok F /\ (exists outcomes srcs nt L, make_network outcomes srcs = Some nt /\ sound_table srcs nt L t) /\ same_symbols F t /\
  (forall l, Permutation l (psrt l)) /\ session F psrt b eqs /\ expand_rulebook F psrt fuel t 0 b = XThrow b' /\ rb_expand b = false /\ rb_expand b' = true.
Proof. exact w_enabled. Qed.
Print Assumptions C59_unlocked_refuted.
