(** The statements of PolyProps.v put together. *)
From Coq Require Import List NArith ZArith Arith Bool Sorted Permutation Lia.
From Verif Require Import CoreModel CoreSpec CoreProofs AlgSpec FieldModel FieldProofs SymModel SymSpec SymProofs SymFinalProofs PolyModel PolyBasisModel.
From Verif Require Import PolySpec.
From Verif Require Import PolyProofs PolyOpsProofs PolyTableProofs PolyOrderProofs PolyBasisProofs.
Import ListNotations.

Section Final.
  Variable R : rfield.
  Notation mono := (mono R).
  Add Field Rf : (r_field R).
  Add Field Cf : (cx_field R).
  Variable t : table.
  Variable lt : mono -> mono -> bool.
  Lemma construct_spec srt l : term_order t lt -> sorts t lt srt -> Forall (in_table t) l -> canonical t lt (make_poly t srt l) /\ same_value t (make_poly t srt l) l.
  Proof. intros HO HS F. split; [now apply make_poly_canonical|]. intros v A. now apply (make_poly_value R t lt srt HS l v). Qed.
  Lemma unique_spec p q : term_order t lt -> starts t -> no_null t -> canonical t lt p -> canonical t lt q -> same_value t p q -> p = q.
  Proof. intro HO. apply (canonical_unique R t lt HO). Qed.
  Lemma fixed_spec srt p : term_order t lt -> sorts t lt srt -> starts t -> no_null t -> canonical t lt p -> make_poly t srt p = p.
  Proof. intros HO HS. now apply (make_poly_fixed R t lt HO srt HS). Qed.
  Lemma equality_spec p q : canonical t lt p -> (poly_eqb p q = true <-> p = q).
  Proof. intro C. apply poly_eqb_spec. intros x Hx. apply (cp_terms t lt p C x Hx). Qed.
  Lemma fix_flags_spec p : term_order t lt -> Forall (in_table t) p -> StronglySorted (fun x y => lt x y = true) p ->
    (forall x, In x p -> m_f x <> c0 /\ m_id x <> 0) -> canonical t lt (fst (fix_cc_in_place t true p)) /\ same_value t (fst (fix_cc_in_place t true p)) p.
  Proof. intros HO F S N. apply (fix_cc_canonical R t lt HO p F S N). Qed.
  Lemma sum_spec p q : term_order t lt -> canonical t lt p -> canonical t lt q ->
    canonical t lt (sum_pp lt p q) /\ (forall v, value v (sum_pp lt p q) = cadd (value v p) (value v q)) /\ append lt p q = sum_pp lt p q.
  Proof. intros HO P Q. split; [now apply merge_canonical|]. split; [intro v; now apply (sum_value R t lt)|apply append_merge]. Qed.
  Lemma good1 a : canonical t lt [a] -> in_table t a /\ m_id a <> 0. Proof. intro C. destruct (cp_terms t lt _ C a (or_introl eq_refl)) as [A [_ [B _]]]. auto. Qed.
  Lemma sum_terms_spec p a b : term_order t lt -> canonical t lt p -> canonical t lt [a] -> canonical t lt [b] -> sum_pm lt p b = sum_pp lt p [b] /\ sum_mm lt a b = sum_pp lt [a] [b].
  Proof.
    intros HO P A B. destruct (good1 a A), (good1 b B). split; [apply (sum_pm_merge R t lt HO); auto; now apply canonical_ok with (lt := lt)|now apply (sum_mm_merge R t lt HO)].
  Qed.
  Lemma sum_values_spec p a b v : term_order t lt -> Forall (in_table t) p -> in_table t a -> in_table t b -> v 0 = c0 ->
    value v (sum_pm lt p b) = cadd (value v p) (term_value v b) /\ value v (sum_mm lt a b) = cadd (term_value v a) (term_value v b).
  Proof.
    intros HO P A B Z. split; [|now apply sum_mm_value]. rewrite (sum_pm_merge R t lt HO p b P B), (merge_value R t lt HO); auto. rewrite value_cons. cbn [value fold_right].
    f_equal. ring.
  Qed.
  Lemma scale_spec (f : cx R) p : term_order t lt -> canonical t lt p -> canonical t lt (scale f p) /\ forall v, value v (scale f p) = cmul f (value v p).
  Proof. intros HO C. split; [now apply scale_canonical|intro v; apply scale_value]. Qed.
  Lemma monomial_spec (x : mono) : in_table t x -> (herm t (m_id x) = true \/ anti t (m_id x) = true -> m_cj x = false) ->
    canonical t lt (poly_of_mono x) /\ forall v, v 0 = c0 -> value v (poly_of_mono x) = term_value v x.
  Proof. intros A B. split; [now apply mono_canonical|intros v Z; now apply mono_value]. Qed.
  Lemma group_spec srt p q r : term_order t lt -> sorts t lt srt -> starts t -> no_null t -> canonical t lt p -> canonical t lt q -> canonical t lt r ->
    sum_pp lt p q = sum_pp lt q p /\ sum_pp lt (sum_pp lt p q) r = sum_pp lt p (sum_pp lt q r) /\ sum_pp lt p [] = p /\
    sum_pp lt p (scale (copp c1) p) = [] /\ sum_pp lt p q = make_poly t srt (p ++ q).
  Proof.
    intros HO HS ST NN P Q S. split; [now apply (sum_comm R t lt)|]. split; [now apply (sum_assoc R t lt)|]. split; [|split; [now apply (sum_opposite R t lt)|now apply (sum_is_construct R t lt)]].
    assert (E : canonical t lt []) by (constructor; [constructor|intros x []]).
    apply (canonical_unique R t lt HO); auto; [now apply (merge_canonical R t lt HO)|]. intros v A. rewrite (sum_value R t lt HO v p []); auto. cbn [value fold_right]. ring.
  Qed.
  Lemma conjugate_spec p : term_order t lt -> canonical t lt p -> canonical t lt (conjugate_poly t p) /\ forall v, assignment t v -> value v (conjugate_poly t p) = cconj (value v p).
  Proof. intros HO C. split; [now apply conjugate_canonical|intros v A; now apply (conjugate_value R t lt)]. Qed.
  Lemma conj_laws (f : cx R) p q : term_order t lt -> starts t -> no_null t -> canonical t lt p -> canonical t lt q ->
    conjugate_poly t (conjugate_poly t p) = p /\ conjugate_poly t (sum_pp lt p q) = sum_pp lt (conjugate_poly t p) (conjugate_poly t q) /\
    conjugate_poly t (scale f p) = scale (cconj f) (conjugate_poly t p).
  Proof. intros HO ST NN P Q. split; [now apply (conj_involutive R t lt)|]. split; [now apply (conj_sum R t lt)|now apply (conj_scale R t lt)]. Qed.
  Lemma herm_spec p : term_order t lt -> starts t -> no_null t -> canonical t lt p ->
    (is_hermitian t p = true <-> forall v : nat -> cx R, assignment t v -> cim (value v p) = r0 R) /\
    (is_antihermitian t p = true <-> forall v : nat -> cx R, assignment t v -> cre (value v p) = r0 R).
  Proof. intros HO ST NN P. split; [now apply (hermitian_iff R t lt)|now apply (antihermitian_iff R t lt)]. Qed.
  Lemma conjugacy_spec p q : term_order t lt -> starts t -> no_null t -> canonical t lt p -> canonical t lt q ->
    is_conjugate t p (conjugate_poly t p) = true /\
    ((forall x, In x p -> herm t (m_id x) = true \/ anti t (m_id x) = true) -> is_conjugate t p q = true -> q = conjugate_poly t p).
  Proof. intros HO _ _ P Q. split; [now apply (conj_is_conjugate R t lt)|]. intros F E. now apply (is_conjugate_iff R t lt HO p q P Q F). Qed.
  Lemma parts_spec srt p : term_order t lt -> sorts t lt srt -> canonical t lt p ->
    (canonical t lt (real_part t srt p) /\ forall v, assignment t v -> value v (real_part t srt p) = creal (cre (value v p))) /\
    (canonical t lt (imag_part t srt p) /\ forall v, assignment t v -> value v (imag_part t srt p) = creal (cim (value v p))).
  Proof. intros HO HS C. split; [now apply (real_part_spec R t lt)|now apply (imag_part_spec R t lt)]. Qed.
  Lemma parts_sum_spec srt p : term_order t lt -> sorts t lt srt -> starts t -> no_null t -> canonical t lt p ->
    sum_pp lt (real_part t srt p) (scale ci (imag_part t srt p)) = p.
  Proof. intros HO HS ST NN C. now apply (parts_sum R t lt). Qed.
  Lemma order_spec : term_order t lt -> strict_weak (Forall (in_table t)) (poly_less (cmp_terms lt)) /\
    forall p q, Forall (in_table t) p -> Forall (in_table t) q -> poly_less (cmp_terms lt) p q = false -> poly_less (cmp_terms lt) q p = false -> term_ids p = term_ids q.
  Proof. intro HO. split; [now apply poly_order|]. intros p q. now apply (poly_order_tie R t lt). Qed.
  Lemma order_coefs_spec rcmp : term_order t lt -> exact_compare rcmp -> strict_weak (Forall (in_table t)) (poly_less (cmp_coefs rcmp lt)) /\
    forall p q, Forall (in_table t) p -> Forall (in_table t) q -> poly_less (cmp_coefs rcmp lt) p q = false -> poly_less (cmp_coefs rcmp lt) q p = false -> p = q.
  Proof. intros HO E. split; [now apply poly_coef_order|]. intros p q. now apply (poly_coef_tie R t lt). Qed.
  Lemma export_throws (p : list mono) : (real_vec t p = None <-> ~ Forall (in_table t) p) /\
    (imaginary_vec t p = None <-> ~ Forall (in_table t) p) /\ (complex_vec t p = None <-> ~ Forall (in_table t) p).
  Proof. split; [apply real_vec_throws|]. split; [apply imaginary_vec_throws|apply complex_vec_throws]. Qed.
  Lemma mask_mono_export (nonneg : R -> bool) (x : mono) : canonical t lt [x] ->
    mask_mono t x = (filter (Nat.ltb 0) (fst (mask t nonneg [x])), filter (Nat.ltb 0) (snd (mask t nonneg [x]))).
  Proof. apply mask_mono_spec. Qed.
  Lemma all_orders : term_order t (@id_less R) /\ term_order t (@id_more R) /\ forall c V, lawful c V -> reachable c V t -> term_order t (@hash_less R t).
  Proof. split; [apply id_less_order|]. split; [apply id_more_order|]. intros c V. apply hash_order. Qed.
  Lemma all_keys (x y : mono) : id_less x y = pair_less (id_less_key x) (id_less_key y) /\
    ((N.of_nat (m_id x) <= uint64_max)%N -> (N.of_nat (m_id y) <= uint64_max)%N -> id_more x y = pair_less (id_more_key x) (id_more_key y)).
  Proof. split; [apply id_less_keys|apply id_more_keys]. Qed.
End Final.

(** C29 over tables reached by sessions. *)
Section Export.
  Variables (c : sctx) (V : hseq -> Prop).
  Hypothesis LW : lawful c V.
  Variable t : table.
  Hypothesis RC : reachable_clean c V t.
  Variable R : rfield.
  Variable lt : mono R -> mono R -> bool.
  Let NB : numbered t := clean_numbered c V t LW RC.
  Lemma ids_positions : forall i s, nth_error (t_syms t) i = Some s -> sy_id s = i.
  Proof. intros i s E. destruct (reachable_hinv c V LW t (clean_reachable c V t RC)). eauto. Qed.

  Lemma real_export p : term_order t lt -> canonical t lt p ->
    exists w, real_vec t p = Some w /\ sparse (r0 R) (length (t_real t)) (bv_real w) /\ sparse (r0 R) (length (t_imag t)) (bv_imag w) /\
    forall v, assignment t v -> radd R (rdot (bv_real w) (real_elem t v)) (rdot (bv_imag w) (imag_elem t v)) = cre (value v p).
  Proof. intros HO. now apply (real_vec_spec R t lt). Qed.
  Lemma imag_export p : term_order t lt -> canonical t lt p -> real_coefs p ->
    exists w, imaginary_vec t p = Some w /\ bv_real w = [] /\ sparse (r0 R) (length (t_imag t)) (bv_imag w) /\
    forall v, assignment t v -> rdot (bv_imag w) (imag_elem t v) = cim (value v p).
  Proof. intros HO. now apply (imaginary_vec_spec R t lt). Qed.
  Lemma complex_export p : term_order t lt -> canonical t lt p ->
    exists w, complex_vec t p = Some w /\ sparse c0 (length (t_real t)) (bv_real w) /\ sparse c0 (length (t_imag t)) (bv_imag w) /\
    forall v, assignment t v -> cadd (cdot (bv_real w) (real_elem t v)) (cdot (bv_imag w) (imag_elem t v)) = value v p.
  Proof. intros HO. now apply (complex_vec_spec R t lt). Qed.
  Lemma monolith_total : forall srt (ps : list (list (mono R))) col, Forall (Forall (in_table t)) ps -> exists a b, monolith t srt col ps = Some (a, b).
  Proof.
    intros srt ps. induction ps as [|p ps IH]; intros col F; [now exists [], []|]. inversion F as [|? ? Fp Fs]; subst. cbn [monolith].
    destruct (complex_vec t p) as [w|] eqn:E; [|now apply complex_vec_throws in E]. destruct (IH (S col) Fs) as [a [b Eab]]. rewrite Eab. eauto.
  Qed.
  Lemma columns_export srt ps : term_order t lt -> (forall l, Permutation l (srt l)) -> Forall (canonical t lt) ps ->
    exists a b, monolith t srt 0 ps = Some (a, b) /\
    forall j p, nth_error ps j = Some p -> NoDup (map fst (column j a)) /\ NoDup (map fst (column j b)) /\
      forall v, assignment t v -> cadd (cdot (column j a) (real_elem t v)) (cdot (column j b) (imag_elem t v)) = value v p.
  Proof.
    intros HO HP F. destruct (monolith_total srt ps 0) as [a [b E]].
    { rewrite Forall_forall in *. intros p Hp. now apply (canonical_ok R t lt), F. }
    exists a, b. split; [exact E|]. destruct (monolith_spec R t srt HP ps 0 a b E) as [_ H]. intros j p Hj. destruct (H j p Hj) as [w [Ew [Pa Pb]]]. cbn [Nat.add] in Pa, Pb.
    assert (Cp : canonical t lt p) by (rewrite Forall_forall in F; apply F; eauto using nth_error_In). destruct (complex_export p HO Cp) as [w' [Ew' [Sa [Sb Val]]]]. assert (w' = w) by congruence. subst w'.
    split; [eapply Permutation_NoDup; [apply Permutation_map, Pa|apply Sa]|]. split; [eapply Permutation_NoDup; [apply Permutation_map, Pb|apply Sb]|].
    intros v A. rewrite <- (cdot_perm R _ _ _ Pa), <- (cdot_perm R _ _ _ Pb). auto.
  Qed.
  Lemma rows_export merge zre zim p : term_order t lt -> canonical t lt p ->
    exists re im, triplets t merge zre zim p = Some (re, im) /\
    (forall x, In x re -> zre = Some (fst (fst x))) /\ (forall x, In x im -> exists r, zim = Some r /\ fst (fst x) = r + if merge then length (t_real t) else 0) /\
    forall v, assignment t v ->
      (forall r, zre = Some r -> row_dot re r (both_elem t v) = cre (value v p)) /\
      (forall r, zim = Some r -> row_dot im (r + if merge then length (t_real t) else 0) (both_elem t v) = cim (value v p)).
  Proof.
    intros HO C. destruct (triplets_spec R t lt HO NB merge zre zim p C) as [re [im [E H]]]. exists re, im. split; [exact E|]. destruct (triplets_rows R t merge zre zim p re im E). auto.
  Qed.
  Lemma basis_import srt re im : term_order t lt -> sorts t lt srt -> NoDup (map fst re) -> NoDup (map fst im) ->
    (basis_to_poly t srt re im = None <-> (exists k w, In (k, w) re /\ length (t_real t) <= k) \/ (exists k w, In (k, w) im /\ length (t_imag t) <= k)) /\
    forall p, basis_to_poly t srt re im = Some p -> canonical t lt p /\
      forall v, assignment t v -> value v p = cadd (cdot re (real_elem t v)) (cmul ci (cdot im (imag_elem t v))).
  Proof. intros HO HS N1 N2. split; [apply import_throws|]. intros p. apply (import_spec R t lt HO NB ids_positions srt HS); auto. Qed.
  Lemma basis_round_trip srt p : term_order t lt -> sorts t lt srt -> starts t -> no_null t -> canonical t lt p -> real_coefs p ->
    exists re im, real_vec t p = Some re /\ imaginary_vec t p = Some im /\ basis_to_poly t srt (real_vector (bv_real re)) (real_vector (bv_imag im)) = Some p.
  Proof. intros HO HS. apply (round_trip R t lt HO NB ids_positions srt HS). Qed.
  Lemma mask_export (nonneg : R -> bool) p : term_order t lt -> nonneg (r1 R) = true -> nonneg (ropp R (r1 R)) = false -> canonical t lt p ->
    exists w, complex_vec t p = Some w /\ mask t nonneg p = (map fst (bv_real w), map fst (bv_imag w)).
  Proof. intros HO A B. now apply (mask_spec R t lt HO NB nonneg A B). Qed.
End Export.

Lemma construct_fails c (R : rfield) t srt (raw : list (hseq * cx R)) : construct_raw c t srt raw = None <-> exists x, In x raw /\ lk_symbol (where_ c t (fst x)) = None.
Proof. rewrite <- storage_fails. unfold construct_raw. destruct (storage_from_raw c t raw); cbn; split; easy. Qed.

Lemma values_exist c V : lawful c V -> forall (R : rfield) (E : hseq -> cx R), expectation c V R E -> forall t, reachable c V t -> flagged c t -> E (hseq_const false) = c1 ->
  (forall id s, nth_error (t_syms t) id = Some s -> sy_seq s <> None) -> exists v, assignment t v /\ agrees E t v.
Proof.
  intros LW R E EX t RE FL E1 H. exists (word_values R E (fun _ => c0) t). split; [|apply values_agree]. apply (values_assign c V); auto.
Qed.

(** Hashes order words by length first. *)
Lemma graded_reached c V r L : lawful c V -> (count_words (N.of_nat r) L < 2 ^ 64)%N -> (forall q, V q -> wf_seq r L q) -> forall t, reachable c V t -> graded t.
Proof.
  intros LW HL HV t RE i j a b Ha Hb H. pose proof (reachable_hinv c V LW t RE) as I. destruct (hi_seq c V t I i a Ha) as [Va _]. destruct (hi_seq c V t I j b Hb) as [Vb _].
  destruct (HV a Va) as [[_ Ea]|[Ea [Oa La]]]; [rewrite Ea; apply Nat.le_0_l|]. destruct (HV b Vb) as [[Hb0 Eb]|[Eb [Ob Lb]]].
  - rewrite Hb0 in H. pose proof (hash_nonzero r L (hs_ops a) HL Oa La) as N0. rewrite <- Ea in N0. lia.
  - destruct (le_lt_dec (length (hs_ops a)) (length (hs_ops b))) as [D|D]; [exact D|]. exfalso. assert (X : shortlex_lt (hs_ops b) (hs_ops a)) by now left.
    apply (CoreProofs.hash_order r L (hs_ops b) (hs_ops a) HL Ob Oa Lb La) in X. rewrite <- Ea, <- Eb in X. lia.
Qed.
Lemma degree_reached c V r L : lawful c V -> (count_words (N.of_nat r) L < 2 ^ 64)%N -> (forall q, V q -> wf_seq r L q) -> forall (R : rfield) t (p : list (mono R)), reachable c V t ->
  canonical t (hash_less t) p -> (forall x, In x p -> symbol_word t (m_id x) <> None) -> maximum_degree_by_hash t p = Some (maximum_degree t p).
Proof.
  intros LW HL HV R t p RE C H. apply by_hash_degree; auto; [now apply (graded_reached c V r L)|]. now destruct (table_shape c V LW t RE) as [_ [? _]].
Qed.
