(** Concrete factor tables and rulebooks; statements about all tables put together. *)
From Coq Require Import List NArith ZArith Arith Bool Sorted Permutation Lia QArith Qcanon.
From Verif Require Import CoreModel FieldModel FieldProofs AlgModel InfModel InfSpec InfWitnessProofs TreeModel SymModel SymSpec PolyModel PolySpec PolyProofs PolyOpsProofs PolyTableProofs PolyWitnessProofs
  RuleModel RuleSpec RuleThmProofs RuleWitnessProofs RuleRealProofs FTabModel FTabSpec FTabProofs FTabTableProofs FTabProductProofs FTabValueProofs FTabPolyProofs FTabExpandProofs.
Import ListNotations.
Local Open Scope nat_scope.

(** * The table of two observers A and B sharing one source, with two copies: symbols for A, B, AB and AA' *)
Definition doubling (n : nat) : nat := match n with 0 => 1 | _ => 2 * n end.
Definition two_ctx : ictx := inflate two_net 2.
Definition of_f {A} (d : A) (x : fout A) : A := match x with FOk y => y | _ => d end.
Definition no_tab : ftab := mk_ftab [] [] 0 t_root.
Definition tab0 : ftab := of_f no_tab (new_table two_ctx 9 [0; 0] doubling).
Definition two_words : list word := [[0]; [2]; [0; 2]; [0; 1]].
Definition tab1 : ftab := of_f no_tab (add_words two_ctx 9 [0; 0] doubling tab0 two_words).
Lemma tab0_eq : new_table two_ctx 9 [0; 0] doubling = FOk tab0. Proof. vm_compute. reflexivity. Qed.
Lemma tab1_eq : add_words two_ctx 9 [0; 0] doubling tab0 two_words = FOk tab1. Proof. vm_compute. reflexivity. Qed.
Lemma two_scratch : length [0; 0] = total_sources two_net 2. Proof. vm_compute. reflexivity. Qed.
Lemma tab0_sound : sound_table [[0; 1]] two_net 2 tab0.
Proof. destruct (new_table_spec [2; 2] [[0; 1]] two_net 2 two_made doubling) as [t [E [St _]]]. now rewrite (settles_ok two_net 2 _ t 9 [0; 0] tab0 E two_scratch tab0_eq). Qed.
Lemma two_new : new_words two_net 2 tab0 two_words.
Proof.
  split; [unfold two_words; repeat (constructor; [cbn; intuition discriminate|]); constructor|]. intros w I.
  assert (C : simplified_b two_ctx w = true /\ can_be_simplified two_ctx w = false /\ w <> []).
  { cbn in I. destruct I as [<-|[<-|[<-|[<-|[]]]]]; (split; [vm_compute; reflexivity|]); (split; [vm_compute; reflexivity|discriminate]). }
  destruct C as [C1 [C2 C3]]. split; [now apply simplified_by|]. split; [exact C2|]. intros k E. unfold symbol_seq in E. change (ft_syms tab0) with [Some None; Some (Some (@nil nat))] in E.
  destruct k as [|[|[|k]]]; cbn in E; congruence.
Qed.
Lemma tab1_sound : sound_table [[0; 1]] two_net 2 tab1.
Proof.
  destruct (add_words_spec [2; 2] [[0; 1]] two_net 2 two_made doubling tab0 two_words tab0_sound two_new) as [t [more [E [St _]]]]. now rewrite (settles_ok two_net 2 _ t 9 [0; 0] tab1 E two_scratch tab1_eq).
Qed.
Lemma tab1_shape : map fe_syms (ft_entries tab1) = [[0]; [1]; [2]; [3]; [4]; [2; 2]] /\ length (ft_syms tab1) = 6. Proof. split; vm_compute; reflexivity. Qed.
Lemma tab1_factors k l : nth_error (map fe_syms (ft_entries tab1)) k = Some l -> factors tab1 k l.
Proof. rewrite nth_error_map. destruct (nth_error (ft_entries tab1) k) as [e|] eqn:E; [|discriminate]. intros H. injection H as H. now exists e. Qed.
Lemma tab1_list k : k < 6 -> exists l, factors tab1 k l.
Proof. intros H. destruct (nth_error (map fe_syms (ft_entries tab1)) k) as [l|] eqn:E; [exists l; now apply tab1_factors|]. apply nth_error_None in E. rewrite (proj1 tab1_shape) in E. cbn in E. lia. Qed.

Section Ring.
  Variable R : rfield.
  Add Ring Cr : (cx_ring R).
  Lemma cmul_1_r' (z : cx R) : cmul z c1 = z. Proof. ring. Qed.
  Lemma cmul_0_l' (z : cx R) : cmul c0 z = c0. Proof. ring. Qed.
End Ring.

(** * Statements *)
Section All.
  Variables (outcomes : list nat) (srcs : list (list nat)) (nt : network) (L : nat).
  Hypothesis MK : make_network outcomes srcs = Some nt.
  Lemma w_meaning (R : rfield) (M : explanation R) t : normalized R M -> sound_table srcs nt L t ->
    exists v, meaning outcomes srcs nt L R M t v /\
      (forall v', meaning outcomes srcs nt L R M t v' -> forall k, k < length (ft_syms t) -> v' k = v k) /\
      (forall k e, nth_error (ft_entries t) k = Some e -> v k = product R v (fe_syms e)) /\
      multiplicative t (fun k => creal (v k)).
  Proof.
    intros N St. exists (table_values outcomes srcs nt L R M t). pose proof (meaning_exists outcomes srcs nt L MK R M t St) as H. split; [exact H|]. split; [|split].
    - intros v' H' k Lk. now apply (meaning_unique outcomes srcs nt L MK R M N t).
    - intros k e He. now apply (meaning_product outcomes srcs nt L MK R M N t _ k e).
    - now apply (meaning_multiplicative outcomes srcs nt L MK R M N t).
  Qed.
  Lemma w_factors t k l : sound_table srcs nt L t -> factors t k l ->
    l <> [] /\ forall j, In j l -> factors t j [j] /\ exists q, symbol_seq t j q /\ unfactorable srcs nt L q.
  Proof.
    intros St [e [He <-]]. destruct (entry_list outcomes srcs nt L MK t e St) as [N [_ H]]; [eapply nth_error_In; exact He|]. split; [exact N|].
    intros j I. destruct (H j I) as [q [Q U]]. split; [|now exists q]. assert (Lt : j < length (ft_syms t)) by (apply nth_error_Some; unfold symbol_seq in Q; congruence).
    destruct (sound_entry srcs nt L t j St Lt) as [e' [He' _]]. exists e'. split; [exact He'|]. now apply (own_factor outcomes srcs nt L MK t j q e' (proj1 St) Q U He').
  Qed.
  Lemma w_register grow_to t a b la lb : sound_table srcs nt L t -> factors t a la -> factors t b lb ->
    exists t' id, combine_and_register grow_to t la lb = FOk (t', id) /\ sound_table srcs nt L t' /\ grows t t' /\ id < length (ft_syms t') /\
      (forall (R : rfield) (v : nat -> cx R), multiplicative t' v -> v id = cmul (v a) (v b)) /\
      (t' = t \/ (id = length (ft_syms t) /\ forall e, In e (ft_entries t) -> fe_syms e <> combine_factors la lb)).
  Proof.
    intros St Fa Fb. assert (La : factor_list srcs nt L t la) by (destruct Fa as [e [He <-]]; apply (entry_list outcomes srcs nt L MK t e St); eapply nth_error_In; exact He).
    assert (Lb : factor_list srcs nt L t lb) by (destruct Fb as [e [He <-]]; apply (entry_list outcomes srcs nt L MK t e St); eapply nth_error_In; exact He).
    destruct (combine_register_spec outcomes srcs nt L MK grow_to t la lb St La Lb) as [t' [id [C1 [C2 [C3 [C4 C5]]]]]]. exists t', id. split; [exact C1|]. split; [exact C2|]. split; [exact C3|]. split; [|split].
    - destruct C4 as [e [He _]]. now apply (se_id _ _ _ _ (proj1 C2) id e).
    - intros R v Mv. apply (grows_factors t t') in Fa; [|exact C3]. apply (grows_factors t t') in Fb; [|exact C3]. destruct Fa as [ea [Ea <-]], Fb as [eb [Eb <-]], C4 as [e [He Es]].
      destruct Mv as [V0 [V1 V]]. rewrite (V id e He), (V a ea Ea), (V b eb Eb), Es. apply cproduct_combine; try assumption; [apply La|apply Lb|apply La|apply Lb].
    - destruct C5 as [C5|[C5 [_ C6]]]; [now left|right; auto].
  Qed.
  Lemma w_pair t a b : sound_table srcs nt L t -> a < length (ft_syms t) -> b < length (ft_syms t) ->
    (exists id, multiply_pair t a b = FOk id /\ id < length (ft_syms t) /\ forall (R : rfield) (v : nat -> cx R), multiplicative t v -> v id = cmul (v a) (v b)) \/
    (multiply_pair t a b = FThrow /\ no_product t a b).
  Proof.
    intros St Ha Hb. rewrite (pair_list srcs nt L t a b St Ha Hb).
    destruct (list_spec outcomes srcs nt L MK t [a; b] St) as [[id [E [Li V]]]|[E [N0 P]]]; [discriminate|intros k [<-|[<-|[]]]; assumption| |].
    - left. exists id. split; [exact E|]. split; [exact Li|]. intros R v Mv. rewrite (V R v Mv). unfold cproduct. cbn [fold_right]. f_equal. apply cmul_1_r'.
    - right. split; [exact E|]. split; [intros ->; apply N0; now left|]. split; [intros ->; apply N0; right; now left|exact P].
  Qed.
End All.

Lemma empty_product : multiply_list tab1 [] = FOk 0. Proof. vm_compute. reflexivity. Qed.
Lemma w_empty : exists outcomes srcs nt L t id, make_network outcomes srcs = Some nt /\ sound_table srcs nt L t /\ multiply_list t [] = FOk id /\
  forall (R : rfield) (v : nat -> cx R), multiplicative t v -> v id <> cproduct v [].
Proof.
  exists [2; 2], [[0; 1]], two_net, 2, tab1, 0. split; [exact two_made|]. split; [exact tab1_sound|]. split; [exact empty_product|].
  intros R v [V0 _]. rewrite V0. cbn. intro H. symmetry in H. exact (c1_neq_0 R H).
Qed.
Lemma zero_times : exists t', combine_and_register doubling tab1 [0] [2] = FOk (t', 6). Proof. eexists. vm_compute. reflexivity. Qed.
Lemma w_zero : exists outcomes srcs nt L t t' id, make_network outcomes srcs = Some nt /\ sound_table srcs nt L t /\ factors t 0 [0] /\ factors t 2 [2] /\
  combine_and_register doubling t [0] [2] = FOk (t', id) /\ id = length (ft_syms t) /\ forall (R : rfield) (v : nat -> cx R), multiplicative t' v -> v id = v 0.
Proof.
  destruct zero_times as [t' E]. exists [2; 2], [[0; 1]], two_net, 2, tab1, t', 6. split; [exact two_made|]. split; [exact tab1_sound|].
  assert (F0 : factors tab1 0 [0]) by (apply tab1_factors; vm_compute; reflexivity). assert (F2 : factors tab1 2 [2]) by (apply tab1_factors; vm_compute; reflexivity).
  split; [exact F0|]. split; [exact F2|]. split; [exact E|]. split; [vm_compute; reflexivity|].
  destruct (w_register [2; 2] [[0; 1]] two_net 2 two_made doubling tab1 0 2 [0] [2] tab1_sound F0 F2) as [t2 [id [E2 [_ [_ [_ [V _]]]]]]]. rewrite E in E2. injection E2 as <- <-.
  intros R v Mv. rewrite (V R v Mv). destruct Mv as [-> _]. apply cmul_0_l'.
Qed.

(** * Rulebooks *)
Definition t6 : table := fst (create_many table_start 4 true false).
Lemma t6_start : starts t6.
Proof. eexists _, _, _. split; [vm_compute; reflexivity|]. split; vm_compute; reflexivity. Qed.
Lemma t6_herm id : id < length (t_syms t6) -> herm t6 id = true.
Proof. change (length (t_syms t6)) with 6. intros H. do 6 (destruct id as [|id]; [vm_compute; reflexivity|]). lia. Qed.
Lemma t6_null : no_null t6.
Proof. intros id H1 H2 _. change (length (t_syms t6)) with 6 in H2. destruct id as [|id]; [lia|]. do 5 (destruct id as [|id]; [vm_compute; discriminate|]). lia. Qed.
Definition F6 : factory Q' := mk_factory t6 id_less (isort id_less) (isort id_less) qpos qsqrt.
Lemma F6_ok : factory_ok F6.
Proof.
  constructor; cbn [fa_table fa_lt fa_sort fa_idsort fa_pos fa_sqrt F6].
  - apply id_less_order.
  - intros x y _ _ E L. unfold id_less. rewrite E. apply Nat.ltb_lt in L. now rewrite L.
  - apply isort_sorts, id_less_order.
  - apply isort_sorts, id_less_order.
  - exact t6_start.
  - exact t6_null.
  - apply (fo_pos F8 F8_ok).
  - apply (fo_sqrt F8 F8_ok).
Qed.
Lemma F6_same : same_symbols F6 tab1.
Proof. split; [vm_compute; reflexivity|exact t6_herm]. Qed.
(** half the identity for A *)
Definition eqs6 : list (list (mono Q')) := [ [mq 1 false (-1 # 2) 0; mq 2 false 1 0] ].
Definition raw6 : rulebook := set_raw (new_rulebook (R := Q') true) eqs6.
Definition book6 : rulebook := after (complete F6 keep 2 raw6).
Lemma book6_eq : complete F6 keep 2 raw6 = RDone book6 1.
Proof. rewrite (is_done_eq (complete F6 keep 2 raw6)) by (vm_compute; reflexivity). f_equal. Qed.
Lemma book6_session : session F6 keep book6 eqs6.
Proof.
  apply (s_complete F6 keep raw6 eqs6 2 book6 1); [|exact book6_eq]. apply (s_add F6 keep (new_rulebook true) [] eqs6 raw6 0); [constructor| |reflexivity].
  constructor; [|constructor]. apply canonical_by. vm_compute. reflexivity.
Qed.
Definition x_book (x : xout (R := Q')) : rulebook := match x with XDone b _ | XThrow b => b | XOther => new_rulebook true end.
Definition x_is (x : xout (R := Q')) : option Z := match x with XDone _ n => Some n | _ => None end.
Definition x_throws (x : xout (R := Q')) : bool := match x with XThrow _ => true | _ => false end.
Definition run6 : xout := expand_rulebook F6 keep 12 tab1 0 book6.
Lemma run6_eq : run6 = XDone (x_book run6) 0.
Proof. assert (x_is run6 = Some 0%Z) by (vm_compute; reflexivity). destruct run6 as [b n|b|]; cbn in *; congruence. Qed.
Lemma book6_shape : rb_safe book6 = true /\ map ru_lhs (rb_rules book6) = [2] /\ map ru_lhs (rb_rules (x_book run6)) = [2; 5].
Proof. split; [vm_compute; reflexivity|]. split; vm_compute; reflexivity. Qed.
Lemma book6_rules : rb_rules book6 <> [].
Proof. intro H. pose proof (proj1 (proj2 book6_shape)) as E. rewrite H in E. discriminate. Qed.
Lemma book6_affected : exists e, In e (skipn 0 (ft_entries tab1)) /\ fe_id e = 5 /\ affected (rb_rules book6) e.
Proof.
  exists (nth 5 (ft_entries tab1) (mk_fentry 0 [] [] [])). split; [vm_compute; tauto|]. split; [vm_compute; reflexivity|]. split; [vm_compute; lia|].
  exists 2. split; [vm_compute; tauto|]. assert (E : (match find_rule (rb_rules book6) 2 with Some _ => true | None => false end) = true) by (vm_compute; reflexivity). destruct (find_rule (rb_rules book6) 2); [discriminate|discriminate E].
Qed.
Lemma w_count : exists (F : factory Q') psrt fuel t b eqs b' n, factory_ok F /\ (exists outcomes srcs nt L, make_network outcomes srcs = Some nt /\ sound_table srcs nt L t) /\ same_symbols F t /\
  (forall l, Permutation l (psrt l)) /\ session F psrt b eqs /\ expand_rulebook F psrt fuel t 0 b = XDone b' n /\ n = 0%Z /\ length (rb_rules b') = S (length (rb_rules b)).
Proof.
  exists F6, keep, 12, tab1, book6, eqs6, (x_book run6), 0%Z. split; [exact F6_ok|]. split; [exists [2; 2], [[0; 1]], two_net, 2; split; [exact two_made|exact tab1_sound]|].
  split; [exact F6_same|]. split; [exact keep_ok|]. split; [exact book6_session|]. split; [exact run6_eq|]. split; [reflexivity|].
  rewrite <- (map_length ru_lhs (rb_rules (x_book run6))), <- (map_length ru_lhs (rb_rules book6)). rewrite (proj1 (proj2 book6_shape)), (proj2 (proj2 book6_shape)). reflexivity.
Qed.
(** half the identity for A, but the identity for AA' *)
Definition eqs3 : list (list (mono Q')) := [ [mq 1 false (-1 # 2) 0; mq 2 false 1 0]; [mq 1 false (-1) 0; mq 5 false 1 0] ].
Definition raw3 : rulebook := set_raw (new_rulebook (R := Q') true) eqs3.
Definition book3 : rulebook := after (complete F6 keep 4 raw3).
Lemma book3_eq : complete F6 keep 4 raw3 = RDone book3 2.
Proof. rewrite (is_done_eq (complete F6 keep 4 raw3)) by (vm_compute; reflexivity). f_equal. Qed.
Lemma book3_session : session F6 keep book3 eqs3.
Proof.
  apply (s_complete F6 keep raw3 eqs3 4 book3 2); [|exact book3_eq]. apply (s_add F6 keep (new_rulebook true) [] eqs3 raw3 0); [constructor| |reflexivity].
  constructor; [|constructor; [|constructor]]; apply canonical_by; vm_compute; reflexivity.
Qed.
Definition run3 : xout := expand_rulebook F6 keep 16 tab1 0 book3.
Lemma run3_eq : run3 = XThrow (x_book run3).
Proof. assert (x_throws run3 = true) by (vm_compute; reflexivity). destruct run3 as [b n|b|]; cbn in *; congruence. Qed.
Lemma run3_left : rb_expand book3 = false /\ rb_expand (x_book run3) = true. Proof. split; vm_compute; reflexivity. Qed.
Lemma w_enabled : exists (F : factory Q') psrt fuel t b eqs b', factory_ok F /\ (exists outcomes srcs nt L, make_network outcomes srcs = Some nt /\ sound_table srcs nt L t) /\ same_symbols F t /\
  (forall l, Permutation l (psrt l)) /\ session F psrt b eqs /\ expand_rulebook F psrt fuel t 0 b = XThrow b' /\ rb_expand b = false /\ rb_expand b' = true.
Proof.
  exists F6, keep, 16, tab1, book3, eqs3, (x_book run3). split; [exact F6_ok|]. split; [exists [2; 2], [[0; 1]], two_net, 2; split; [exact two_made|exact tab1_sound]|].
  split; [exact F6_same|]. split; [exact keep_ok|]. split; [exact book3_session|]. split; [exact run3_eq|exact run3_left].
Qed.

(** * With all square roots *)
Definition FR6 : factory R_rfield := mk_factory t6 id_less (isort id_less) (isort id_less) real_pos unit_sqrt.
Lemma FR6_ok : factory_ok FR6.
Proof.
  constructor; cbn [fa_table fa_lt fa_sort fa_idsort fa_pos fa_sqrt FR6].
  - apply id_less_order.
  - intros x y _ _ E L. unfold id_less. rewrite E. apply Nat.ltb_lt in L. now rewrite L.
  - apply isort_sorts, id_less_order.
  - apply isort_sorts, id_less_order.
  - exact t6_start.
  - exact t6_null.
  - apply (fo_pos FR FR_ok).
  - apply (fo_sqrt FR FR_ok).
Qed.
Definition eqR6 : list (mono R_rfield) := [mk_mono 2 false c1].
Lemma eqR6_session : session FR6 (fun l => l) (set_raw (new_rulebook true) [eqR6]) [eqR6].
Proof.
  apply (s_add FR6 _ (new_rulebook true) [] [eqR6] _ 0); [constructor| |reflexivity]. constructor; [|constructor]. constructor.
  - constructor; constructor.
  - intros x [<-|[]]. split; [apply Nat.ltb_lt; vm_compute; reflexivity|]. split; [apply (c1_neq_0 R_rfield)|]. split; [discriminate|]. cbn. intros _. reflexivity.
Qed.
Lemma FR6_case : factory_ok FR6 /\ same_symbols FR6 tab1 /\ has_roots FR6 /\ session FR6 (fun l => l) (set_raw (new_rulebook true) [eqR6]) [eqR6] /\ length (ft_entries tab1) = 6.
Proof. split; [exact FR6_ok|]. split; [split; [vm_compute; reflexivity|exact t6_herm]|]. split; [exact FR_roots|]. split; [exact eqR6_session|vm_compute; reflexivity]. Qed.
Lemma tab_grows : grows tab0 tab1.
Proof. exists (skipn 2 (ft_syms tab1)), (skipn 2 (ft_entries tab1)). split; vm_compute; reflexivity. Qed.
(** 1/2 + A *)
Definition poly6 : list (mono Q') := [mq 1 false (1 # 2) 0; mq 2 false 1 0].
Definition ids (x : fout (list (mono Q'))) : option (list nat) := match x with FOk r => Some (map m_id r) | _ => None end.
Lemma poly6_case : canonical (fa_table F6) (fa_lt F6) poly6 /\ exists r, multiply_poly F6 tab1 poly6 poly6 = FOk r /\ map m_id r = [1; 2; 5].
Proof.
  split; [apply canonical_by; vm_compute; reflexivity|]. assert (E : ids (multiply_poly F6 tab1 poly6 poly6) = Some [1; 2; 5]) by (vm_compute; reflexivity).
  destruct (multiply_poly F6 tab1 poly6 poly6) as [r| | | |]; cbn in E; try discriminate. exists r. split; [reflexivity|]. congruence.
Qed.
