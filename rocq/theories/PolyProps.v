(** C25-C29, C43 (conversion of operator polynomials), C46: polynomials. *)
From Coq Require Import List NArith ZArith Arith Bool Sorted Permutation QArith.
From Verif Require Import CoreModel CoreSpec AlgSpec FieldModel FieldProofs SymModel SymSpec SymWitnessProofs PolyModel PolySpec PolyBasisModel.
From Verif Require Import PolyProofs PolyOpsProofs PolyTableProofs PolyOrderProofs PolyBasisProofs PolyWitnessProofs PolyFinalProofs ChshProofs ChshWitnessProofs.
Import ListNotations.
Local Open Scope nat_scope.

(* ------------------------------------------------------------------------------------------------ C25 *)
(** Building a polynomial from any list of terms gives a canonical polynomial with the same value. *)
Theorem C25_construct : forall (R : rfield) t (lt : mono R -> mono R -> bool) srt l, term_order t lt -> sorts t lt srt -> Forall (in_table t) l ->
  canonical t lt (make_poly t srt l) /\ same_value t (make_poly t srt l) l.
Proof. exact construct_spec. Qed.
Print Assumptions C25_construct.

(** The three ways of ordering terms all qualify. *)
Theorem C25_orders : forall (R : rfield) t, term_order t (@id_less R) /\ term_order t (@id_more R) /\
  forall c V, lawful c V -> reachable c V t -> term_order t (@hash_less R t).
Proof. exact all_orders. Qed.
Print Assumptions C25_orders.

(** Keys used for sorting agree with the comparison functions. *)
Theorem C25_keys : forall (R : rfield) (x y : mono R), id_less x y = pair_less (id_less_key x) (id_less_key y) /\
  ((N.of_nat (m_id x) <= uint64_max)%N -> (N.of_nat (m_id y) <= uint64_max)%N -> id_more x y = pair_less (id_more_key x) (id_more_key y)).
Proof. exact all_keys. Qed.
Print Assumptions C25_keys.

(** Canonical polynomials with the same value under every assignment are identical. *)
Theorem C25_unique : forall (R : rfield) t (lt : mono R -> mono R -> bool) p q, term_order t lt -> starts t -> no_null t ->
  canonical t lt p -> canonical t lt q -> same_value t p q -> p = q.
Proof. exact unique_spec. Qed.
Print Assumptions C25_unique.

(** Tables made in sessions without exceptions satisfy the hypotheses. *)
Theorem C25_tables : forall c V, lawful c V -> forall l t, Forall (op_ok c V) l -> Forall creates l -> run_ops c table_start l = Done t tt -> starts t /\ no_null t.
Proof. exact session_no_null. Qed.
Print Assumptions C25_tables.

(** Symbols created without real and imaginary part are never removed from a polynomial. *)
Theorem C25_null_symbol_refuted : exists c V t (p q : list (mono Qc_rfield)), lawful c V /\ reachable_clean c V t /\ starts t /\
  canonical t id_less p /\ canonical t id_less q /\ same_value t p q /\ p <> q.
Proof. exact null_symbol_refuted. Qed.
Print Assumptions C25_null_symbol_refuted.

(** Canonical polynomials are left alone; equality tests decide equality. *)
Theorem C25_fixed : forall (R : rfield) t (lt : mono R -> mono R -> bool) srt p, term_order t lt -> sorts t lt srt -> starts t -> no_null t -> canonical t lt p -> make_poly t srt p = p.
Proof. exact fixed_spec. Qed.
Print Assumptions C25_fixed.
Theorem C25_equality : forall (R : rfield) t (lt : mono R -> mono R -> bool) p q, canonical t lt p -> (poly_eqb p q = true <-> p = q).
Proof. exact equality_spec. Qed.
Print Assumptions C25_equality.

(** Tidying up after a change of Hermiticity flags keeps a sorted polynomial canonical and reports whether anything changed. *)
Theorem C25_fix_flags : forall (R : rfield) t (lt : mono R -> mono R -> bool) p, term_order t lt -> Forall (in_table t) p -> StronglySorted (fun x y => lt x y = true) p ->
  (forall x, In x p -> m_f x <> c0 /\ m_id x <> 0) -> canonical t lt (fst (fix_cc_in_place t true p)) /\ same_value t (fst (fix_cc_in_place t true p)) p.
Proof. exact fix_flags_spec. Qed.
Print Assumptions C25_fix_flags.

(** Polynomials made from a map keep zero coefficients. *)
Theorem C25_from_map_refuted : exists (t : table) (l : list (nat * Qc_rfield)), starts t /\ no_null t /\ NoDup (map fst l) /\ ~ canonical t id_less (poly_of_map l).
Proof. exact map_zero_refuted. Qed.
Print Assumptions C25_from_map_refuted.

(** Degrees. *)
Theorem C25_degree : forall (R : rfield) t (p : list (mono R)), maximum_degree t p = list_max (map (degree_of t) p).
Proof. exact max_degree. Qed.
Print Assumptions C25_degree.
Theorem C25_degree_by_hash : forall c V r L, lawful c V -> (count_words (N.of_nat r) L < 2 ^ 64)%N -> (forall q, V q -> wf_seq r L q) ->
  forall (R : rfield) t (p : list (mono R)), reachable c V t -> canonical t (hash_less t) p -> (forall x, In x p -> symbol_word t (m_id x) <> None) ->
  maximum_degree_by_hash t p = Some (maximum_degree t p).
Proof. exact degree_reached. Qed.
Print Assumptions C25_degree_by_hash.
(** If the last symbol has no word, the search for the degree does not end. *)
Theorem C25_degree_by_hash_refuted : exists c V t (p : list (mono Qc_rfield)), lawful c V /\ reachable_clean c V t /\ starts t /\ no_null t /\
  canonical t (hash_less t) p /\ maximum_degree_by_hash t p = None.
Proof. exact degree_refuted. Qed.
Print Assumptions C25_degree_by_hash_refuted.

(** Sorting with a record of the order: a stable sort and the permutation used. *)
Theorem C25_presort : forall (R : rfield) (lt : mono R -> mono R -> bool) srt l, index_sort (length l) srt -> strict_weak (fun x => In x l) lt ->
  let d := mk_mono 0 false c0 in let (data, order) := presort_data srt lt l in
  Permutation (seq 0 (length l)) order /\ data = map (fun i => nth i l d) order /\ Permutation l data /\ StronglySorted (fun x y => lt y x = false) data /\
  (forall a b i j, a < b -> nth_error order a = Some i -> nth_error order b = Some j -> lt (nth i l d) (nth j l d) = false -> i < j).
Proof. exact presort_spec. Qed.
Print Assumptions C25_presort.

Example C25_nonvacuous : term_order t8 (@id_less Qc_rfield) /\ sorts t8 id_less (@isort Qc_rfield id_less) /\ starts t8 /\ no_null t8 /\ canonical t8 id_less p8 /\ assignment t8 v8 /\
  (let l := [mq 6 true 0 3; mq 3 true 1 1; mq 6 false 1 0; mq 0 false 1 0; mq 2 true 1 0; mq 6 false 1 0; mq 4 false 1 0; mq 4 true (-1) 0] in
   Forall (in_table t8) l /\ poly_eqb (make_poly t8 (isort id_less) l) p8 = true).
Proof.
  split; [apply id_less_order|]. split; [apply isort_sorts, id_less_order|]. split; [apply t8_good|]. split; [apply t8_good|]. split; [exact p8_canonical|]. split; [exact v8_assignment|].
  cbv zeta. split; [|vm_compute; reflexivity]. repeat (constructor; [apply Nat.ltb_lt; vm_compute; reflexivity|]). constructor.
Qed.

(* ------------------------------------------------------------------------------------------------ C26 *)
Theorem C26_sum : forall (R : rfield) t (lt : mono R -> mono R -> bool) p q, term_order t lt -> canonical t lt p -> canonical t lt q ->
  canonical t lt (sum_pp lt p q) /\ (forall v, value v (sum_pp lt p q) = cadd (value v p) (value v q)) /\ append lt p q = sum_pp lt p q.
Proof. exact sum_spec. Qed.
Print Assumptions C26_sum.
(** adding a single term, or two terms, is the same as adding polynomials *)
Theorem C26_sum_terms : forall (R : rfield) t (lt : mono R -> mono R -> bool) p a b, term_order t lt -> canonical t lt p -> canonical t lt [a] -> canonical t lt [b] ->
  sum_pm lt p b = sum_pp lt p [b] /\ sum_mm lt a b = sum_pp lt [a] [b].
Proof. exact sum_terms_spec. Qed.
Print Assumptions C26_sum_terms.
(** ... if neither term is zero *)
Theorem C26_sum_zero_refuted : exists (t : table) (a b : mono Qc_rfield) p, starts t /\ no_null t /\ canonical t id_less [a] /\ canonical t id_less p /\
  (m_f b = c0 /\ in_table t b) /\ ~ canonical t id_less (sum_mm id_less a b) /\ ~ canonical t id_less (sum_pm id_less p b).
Proof. exact sum_zero_refuted. Qed.
Print Assumptions C26_sum_zero_refuted.
Theorem C26_sum_values : forall (R : rfield) t (lt : mono R -> mono R -> bool) p a b v, term_order t lt -> Forall (in_table t) p -> in_table t a -> in_table t b -> v 0 = c0 ->
  value v (sum_pm lt p b) = cadd (value v p) (term_value v b) /\ value v (sum_mm lt a b) = cadd (term_value v a) (term_value v b).
Proof. exact sum_values_spec. Qed.
Print Assumptions C26_sum_values.
Theorem C26_scale : forall (R : rfield) t (lt : mono R -> mono R -> bool) (f : cx R) p, term_order t lt -> canonical t lt p ->
  canonical t lt (scale f p) /\ forall v, value v (scale f p) = cmul f (value v p).
Proof. exact scale_spec. Qed.
Print Assumptions C26_scale.
Theorem C26_monomial : forall (R : rfield) t (lt : mono R -> mono R -> bool) (x : mono R), in_table t x -> (herm t (m_id x) = true \/ anti t (m_id x) = true -> m_cj x = false) ->
  canonical t lt (poly_of_mono x) /\ forall v, v 0 = c0 -> value v (poly_of_mono x) = term_value v x.
Proof. exact monomial_spec. Qed.
Print Assumptions C26_monomial.
(** Polynomials form an Abelian group under addition, and adding is the same as building from all the terms. *)
Theorem C26_group : forall (R : rfield) t (lt : mono R -> mono R -> bool) srt p q r, term_order t lt -> sorts t lt srt -> starts t -> no_null t ->
  canonical t lt p -> canonical t lt q -> canonical t lt r ->
  sum_pp lt p q = sum_pp lt q p /\ sum_pp lt (sum_pp lt p q) r = sum_pp lt p (sum_pp lt q r) /\ sum_pp lt p [] = p /\
  sum_pp lt p (scale (copp c1) p) = [] /\ sum_pp lt p q = make_poly t srt (p ++ q).
Proof. exact group_spec. Qed.
Print Assumptions C26_group.
Example C26_nonvacuous : poly_eqb (sum_pp id_less p8 [mq 3 false (-1) (-1); mq 5 false 1 0; mq 6 true 0 1])
  [mq 2 false (-1) 0; mq 5 false 1 0; mq 6 false 2 0; mq 6 true 0 4] = true /\ poly_eqb (scale (cq 0 2) p8) [mq 2 false 0 (-2); mq 3 false (-2) 2; mq 6 false 0 4; mq 6 true (-6) 0] = true.
Proof. split; vm_compute; reflexivity. Qed.

(* ------------------------------------------------------------------------------------------------ C27 *)
Theorem C27_conjugate : forall (R : rfield) t (lt : mono R -> mono R -> bool) p, term_order t lt -> canonical t lt p ->
  canonical t lt (conjugate_poly t p) /\ forall v, assignment t v -> value v (conjugate_poly t p) = cconj (value v p).
Proof. exact conjugate_spec. Qed.
Print Assumptions C27_conjugate.
Theorem C27_laws : forall (R : rfield) t (lt : mono R -> mono R -> bool) (f : cx R) p q, term_order t lt -> starts t -> no_null t -> canonical t lt p -> canonical t lt q ->
  conjugate_poly t (conjugate_poly t p) = p /\ conjugate_poly t (sum_pp lt p q) = sum_pp lt (conjugate_poly t p) (conjugate_poly t q) /\
  conjugate_poly t (scale f p) = scale (cconj f) (conjugate_poly t p).
Proof. exact conj_laws. Qed.
Print Assumptions C27_laws.
Theorem C27_hermitian : forall (R : rfield) t (lt : mono R -> mono R -> bool) p, term_order t lt -> starts t -> no_null t -> canonical t lt p ->
  (is_hermitian t p = true <-> forall v, assignment t v -> cim (value v p) = r0 R) /\
  (is_antihermitian t p = true <-> forall v, assignment t v -> cre (value v p) = r0 R).
Proof. exact herm_spec. Qed.
Print Assumptions C27_hermitian.
(** The conjugacy test accepts conjugates, and only these if all symbols are Hermitian or anti-Hermitian ... *)
Theorem C27_is_conjugate : forall (R : rfield) t (lt : mono R -> mono R -> bool) p q, term_order t lt -> starts t -> no_null t -> canonical t lt p -> canonical t lt q ->
  is_conjugate t p (conjugate_poly t p) = true /\
  ((forall x, In x p -> herm t (m_id x) = true \/ anti t (m_id x) = true) -> is_conjugate t p q = true -> q = conjugate_poly t p).
Proof. exact conjugacy_spec. Qed.
Print Assumptions C27_is_conjugate.
(** ... but for other symbols it ignores coefficients and conjugation marks. *)
Theorem C27_is_conjugate_refuted : exists (t : table) (p q : list (mono Qc_rfield)), reachable_clean anti3_sctx anti3_words t /\ starts t /\ no_null t /\
  canonical t id_less p /\ canonical t id_less q /\ is_conjugate t p q = true /\ q <> conjugate_poly t p.
Proof. exact is_conjugate_refuted. Qed.
Print Assumptions C27_is_conjugate_refuted.
Example C27_nonvacuous : poly_eqb (conjugate_poly t8 p8) [mq 2 false 1 0; mq 3 false 1 (-1); mq 6 false 0 (-3); mq 6 true 2 0] = true /\
  is_hermitian t8 p8 = false /\ is_hermitian t8 [mq 2 false 0 1; mq 3 false 1 0; mq 6 false 2 3; mq 6 true 2 (-3)] = true /\
  is_antihermitian t8 [mq 2 false 1 0; mq 3 false 0 1; mq 6 false 2 3; mq 6 true (-2) 3] = true.
Proof. repeat split; vm_compute; reflexivity. Qed.

(* ------------------------------------------------------------------------------------------------ C28 *)
Theorem C28_parts : forall (R : rfield) t (lt : mono R -> mono R -> bool) srt p, term_order t lt -> sorts t lt srt -> canonical t lt p ->
  (canonical t lt (real_part t srt p) /\ forall v, assignment t v -> value v (real_part t srt p) = creal (cre (value v p))) /\
  (canonical t lt (imag_part t srt p) /\ forall v, assignment t v -> value v (imag_part t srt p) = creal (cim (value v p))).
Proof. exact parts_spec. Qed.
Print Assumptions C28_parts.
Theorem C28_sum : forall (R : rfield) t (lt : mono R -> mono R -> bool) srt p, term_order t lt -> sorts t lt srt -> starts t -> no_null t -> canonical t lt p ->
  sum_pp lt (real_part t srt p) (scale ci (imag_part t srt p)) = p.
Proof. exact parts_sum_spec. Qed.
Print Assumptions C28_sum.
Example C28_nonvacuous : poly_eqb (real_part t8 (isort id_less) p8) [mq 3 false 1 0; mq 6 false 1 (-3 # 2); mq 6 true 1 (3 # 2)] = true /\
  poly_eqb (imag_part t8 (isort id_less) p8) [mq 2 false 0 1; mq 3 false 1 0; mq 6 false (3 # 2) (-1); mq 6 true (3 # 2) 1] = true.
Proof. split; vm_compute; reflexivity. Qed.

(* ------------------------------------------------------------------------------------------------ C29 *)
(** The real part: coefficients of the real and imaginary basis. *)
Theorem C29_real_part : forall c V, lawful c V -> forall t, reachable_clean c V t -> forall (R : rfield) (lt : mono R -> mono R -> bool) p, term_order t lt -> canonical t lt p ->
  exists w, real_vec t p = Some w /\ sparse (r0 R) (length (t_real t)) (bv_real w) /\ sparse (r0 R) (length (t_imag t)) (bv_imag w) /\
  forall v, assignment t v -> radd R (rdot (bv_real w) (real_elem t v)) (rdot (bv_imag w) (imag_elem t v)) = cre (value v p).
Proof. exact real_export. Qed.
Print Assumptions C29_real_part.
(** The imaginary part is right for polynomials with real coefficients ... *)
Theorem C29_imaginary_part_partial : forall c V, lawful c V -> forall t, reachable_clean c V t -> forall (R : rfield) (lt : mono R -> mono R -> bool) p, term_order t lt -> canonical t lt p -> real_coefs p ->
  exists w, imaginary_vec t p = Some w /\ bv_real w = [] /\ sparse (r0 R) (length (t_imag t)) (bv_imag w) /\
  forall v, assignment t v -> rdot (bv_imag w) (imag_elem t v) = cim (value v p).
Proof. exact imag_export. Qed.
Print Assumptions C29_imaginary_part_partial.
(** ... and wrong in general: the code writes the wrong coefficient. *)
Theorem C29_imaginary_part_refuted : exists t (p : list (mono Qc_rfield)) v w, reachable_clean anti3_sctx anti3_words t /\ starts t /\ no_null t /\ canonical t id_less p /\ assignment t v /\
  imaginary_vec t p = Some w /\ radd Qc_rfield (rdot (bv_real w) (real_elem t v)) (rdot (bv_imag w) (imag_elem t v)) <> cim (value v p).
Proof. exact export_refuted. Qed.
Print Assumptions C29_imaginary_part_refuted.
(** Complex coefficients are always right, ... *)
Theorem C29_complex : forall c V, lawful c V -> forall t, reachable_clean c V t -> forall (R : rfield) (lt : mono R -> mono R -> bool) p, term_order t lt -> canonical t lt p ->
  exists w, complex_vec t p = Some w /\ sparse c0 (length (t_real t)) (bv_real w) /\ sparse c0 (length (t_imag t)) (bv_imag w) /\
  forall v, assignment t v -> cadd (cdot (bv_real w) (real_elem t v)) (cdot (bv_imag w) (imag_elem t v)) = value v p.
Proof. exact complex_export. Qed.
Print Assumptions C29_complex.
(** ... unless they are put together from the real and imaginary vectors. *)
Theorem C29_combined_refuted : exists t (p : list (mono Qc_rfield)) v w, reachable_clean anti3_sctx anti3_words t /\ canonical t id_less p /\ real_coefs p /\ assignment t v /\ basis_vec_both t p = Some w /\
  cadd (cdot (bv_real (complex_of_pair w)) (real_elem t v)) (cdot (bv_imag (complex_of_pair w)) (imag_elem t v)) <> value v p.
Proof. exact combine_refuted. Qed.
Print Assumptions C29_combined_refuted.
(** Exports throw exactly if a symbol is unknown. *)
Theorem C29_throws : forall (R : rfield) t (p : list (mono R)), (real_vec t p = None <-> ~ Forall (in_table t) p) /\
  (imaginary_vec t p = None <-> ~ Forall (in_table t) p) /\ (complex_vec t p = None <-> ~ Forall (in_table t) p).
Proof. exact export_throws. Qed.
Print Assumptions C29_throws.
(** Several polynomials at once: one column each. *)
Theorem C29_columns : forall c V, lawful c V -> forall t, reachable_clean c V t -> forall (R : rfield) (lt : mono R -> mono R -> bool) srt ps, term_order t lt -> (forall l, Permutation l (srt l)) ->
  Forall (canonical t lt) ps -> exists a b, monolith t srt 0 ps = Some (a, b) /\
  forall j p, nth_error ps j = Some p -> NoDup (map fst (column j a)) /\ NoDup (map fst (column j b)) /\
    forall v, assignment t v -> cadd (cdot (column j a) (real_elem t v)) (cdot (column j b) (imag_elem t v)) = value v p.
Proof. exact columns_export. Qed.
Print Assumptions C29_columns.
(** Rows (moment rules): the row of Re Z holds the coefficients of the real part, that of Im Z those of the imaginary part. *)
Theorem C29_rows : forall c V, lawful c V -> forall t, reachable_clean c V t -> forall (R : rfield) (lt : mono R -> mono R -> bool) merge zre zim p, term_order t lt -> canonical t lt p ->
  exists re im, triplets t merge zre zim p = Some (re, im) /\
  (forall x, In x re -> zre = Some (fst (fst x))) /\ (forall x, In x im -> exists r, zim = Some r /\ fst (fst x) = r + if merge then length (t_real t) else 0) /\
  forall v, assignment t v ->
    (forall r, zre = Some r -> row_dot re r (both_elem t v) = cre (value v p)) /\
    (forall r, zim = Some r -> row_dot im (r + if merge then length (t_real t) else 0) (both_elem t v) = cim (value v p)).
Proof. exact rows_export. Qed.
Print Assumptions C29_rows.
(** Import: real coefficients times real parts plus imaginary coefficients times i times imaginary parts; unknown indices throw. *)
Theorem C29_import : forall c V, lawful c V -> forall t, reachable_clean c V t -> forall (R : rfield) (lt : mono R -> mono R -> bool) srt re im, term_order t lt -> sorts t lt srt ->
  NoDup (map fst re) -> NoDup (map fst im) ->
  (basis_to_poly t srt re im = None <-> (exists k w, In (k, w) re /\ length (t_real t) <= k) \/ (exists k w, In (k, w) im /\ length (t_imag t) <= k)) /\
  forall p, basis_to_poly t srt re im = Some p -> canonical t lt p /\
    forall v, assignment t v -> value v p = cadd (cdot re (real_elem t v)) (cmul ci (cdot im (imag_elem t v))).
Proof. exact basis_import. Qed.
Print Assumptions C29_import.
(** There and back, for real coefficients ... *)
Theorem C29_round_trip : forall c V, lawful c V -> forall t, reachable_clean c V t -> forall (R : rfield) (lt : mono R -> mono R -> bool) srt p, term_order t lt -> sorts t lt srt ->
  starts t -> no_null t -> canonical t lt p -> real_coefs p ->
  exists re im, real_vec t p = Some re /\ imaginary_vec t p = Some im /\ basis_to_poly t srt (real_vector (bv_real re)) (real_vector (bv_imag im)) = Some p.
Proof. exact basis_round_trip. Qed.
Print Assumptions C29_round_trip.
(** ... but not for complex vectors: export and import use different conventions. *)
Theorem C29_complex_round_trip_refuted : exists t (p q : list (mono Qc_rfield)) w, reachable_clean anti3_sctx anti3_words t /\ starts t /\ no_null t /\ canonical t id_less p /\
  @sorts Qc_rfield t id_less (isort id_less) /\ complex_vec t p = Some w /\ basis_to_poly t (isort id_less) (bv_real w) (bv_imag w) = Some q /\ q <> p.
Proof. exact complex_trip_refuted. Qed.
Print Assumptions C29_complex_round_trip_refuted.
(** Masks: exactly the basis elements with a nonzero coefficient. *)
Theorem C29_mask : forall c V, lawful c V -> forall t, reachable_clean c V t -> forall (R : rfield) (lt : mono R -> mono R -> bool) (nonneg : R -> bool) p, term_order t lt ->
  nonneg (r1 R) = true -> nonneg (ropp R (r1 R)) = false -> canonical t lt p ->
  exists w, complex_vec t p = Some w /\ mask t nonneg p = (map fst (bv_real w), map fst (bv_imag w)).
Proof. exact mask_export. Qed.
Print Assumptions C29_mask.
(** The mask of a single monomial leaves out index 0, the identity. *)
Theorem C29_mask_monomial_refuted : exists t (x : mono Qc_rfield) w, reachable_clean anti3_sctx anti3_words t /\ canonical t id_less [x] /\ complex_vec t [x] = Some w /\
  mask_mono t x <> (map fst (bv_real w), map fst (bv_imag w)).
Proof. exact mask_refuted. Qed.
Print Assumptions C29_mask_monomial_refuted.
Theorem C29_mask_monomial_partial : forall (R : rfield) t (lt : mono R -> mono R -> bool) (nonneg : R -> bool) x, canonical t lt [x] ->
  mask_mono t x = (filter (Nat.ltb 0) (fst (mask t nonneg [x])), filter (Nat.ltb 0) (snd (mask t nonneg [x]))).
Proof. exact mask_mono_export. Qed.
Print Assumptions C29_mask_monomial_partial.
Example C29_nonvacuous : lawful anti3_sctx anti3_words /\ reachable_clean anti3_sctx anti3_words t8 /\ canonical t8 id_less p8 /\ t_real t8 = [1;3;4;5;6;7] /\ t_imag t8 = [2;6] /\
  option_map (fun w => (map fst (bv_real w), map fst (bv_imag w))) (complex_vec t8 p8) = Some ([1;4], [0;1]).
Proof. split; [exact anti3_lawful|]. split; [exact t8_clean|]. split; [exact p8_canonical|]. repeat split; vm_compute; reflexivity. Qed.

(* ------------------------------------------------------------------------------------------------ C43 *)
(** Operator polynomials turned into polynomials of known symbols: canonical, same value under every expectation functional; fails
    exactly if some word has no symbol. *)
Theorem C43_from_operators : forall c V, lawful c V -> forall (R : rfield) (E : hseq -> cx R), expectation c V R E -> unsigned_conj c V ->
  forall (lt : mono R -> mono R -> bool) srt t v raw p, reachable c V t -> term_order t lt -> sorts t lt srt -> raw_ok V raw -> construct_raw c t srt raw = Some p ->
  canonical t lt p /\ (assignment t v -> agrees E t v -> value v p = raw_value E raw).
Proof. exact construct_raw_spec. Qed.
Print Assumptions C43_from_operators.
Theorem C43_unknown : forall c (R : rfield) t srt (raw : list (hseq * cx R)), construct_raw c t srt raw = None <-> exists x, In x raw /\ lk_symbol (where_ c t (fst x)) = None.
Proof. exact construct_fails. Qed.
Print Assumptions C43_unknown.
(** With registration of missing symbols it always succeeds. *)
Theorem C43_register : forall c V, lawful c V -> forall (R : rfield) (E : hseq -> cx R), expectation c V R E -> unsigned_conj c V ->
  forall (lt : mono R -> mono R -> bool) srt t raw, reachable c V t -> raw_ok V raw -> (forall t', later c V t t' -> sorts t' lt srt) ->
  exists t' p, register_construct c t srt raw = Done t' p /\ later c V t t' /\ (term_order t' lt -> canonical t' lt p) /\
    forall v, assignment t' v -> agrees E t' v -> value v p = raw_value E raw.
Proof. exact register_construct_spec. Qed.
Print Assumptions C43_register.
(** The values of words under an expectation functional are an assignment. *)
Theorem C43_values : forall c V, lawful c V -> forall (R : rfield) (E : hseq -> cx R), expectation c V R E -> forall t, reachable c V t -> flagged c t -> E (hseq_const false) = c1 ->
  (forall id s, nth_error (t_syms t) id = Some s -> sy_seq s <> None) -> exists v, assignment t v /\ agrees E t v.
Proof. exact values_exist. Qed.
Print Assumptions C43_values.
Example C43_nonvacuous : lawful chsh_sctx chsh_words /\ unsigned_conj chsh_sctx chsh_words /\ expectation chsh_sctx chsh_words Qc_rfield flat_E /\ reachable chsh_sctx chsh_words chsh_table /\
  assignment chsh_table chsh_v /\ agrees flat_E chsh_table chsh_v /\ flagged chsh_sctx chsh_table /\
  (let raw := [(hseq_make 4 [1;0] SPos, cq 2 0); (hseq_make 4 [0;2] SPos, cq 0 1); (hseq_make 4 [0;1] SPos, cq 1 0); (hseq_make 4 [1;0] SPos, cq 1 0)] in
   raw_ok chsh_words raw /\ option_map (fun p => poly_eqb p [mq 2 false 1 0; mq 2 true 3 0; mq 3 false 0 1]) (construct_raw chsh_sctx chsh_table (isort id_less) raw) = Some true).
Proof.
  split; [exact chsh_lawful|]. split; [exact chsh_unsigned|]. split; [exact chsh_expectation|]. split; [exact chsh_reach|]. split; [exact chsh_assignment|]. split; [exact chsh_agrees|].
  split; [exact chsh_flagged|]. cbv zeta. split; [|vm_compute; reflexivity]. repeat (constructor; [apply chsh_word; [reflexivity|cbn; repeat constructor]|]). constructor.
Qed.

(* ------------------------------------------------------------------------------------------------ C46 *)
(** Comparing polynomials (from the last term down) is a strict weak ordering whose ties are the polynomials with the same terms ... *)
Theorem C46_order : forall (R : rfield) t (lt : mono R -> mono R -> bool), term_order t lt ->
  strict_weak (Forall (in_table t)) (poly_less (cmp_terms lt)) /\
  forall p q, Forall (in_table t) p -> Forall (in_table t) q -> poly_less (cmp_terms lt) p q = false -> poly_less (cmp_terms lt) q p = false -> term_ids p = term_ids q.
Proof. exact order_spec. Qed.
Print Assumptions C46_order.
(** ... and, comparing coefficients exactly too, a total order. *)
Theorem C46_order_coefficients : forall (R : rfield) t (lt : mono R -> mono R -> bool) rcmp, term_order t lt -> exact_compare rcmp ->
  strict_weak (Forall (in_table t)) (poly_less (cmp_coefs rcmp lt)) /\
  forall p q, Forall (in_table t) p -> Forall (in_table t) q -> poly_less (cmp_coefs rcmp lt) p q = false -> poly_less (cmp_coefs rcmp lt) q p = false -> p = q.
Proof. exact order_coefs_spec. Qed.
Print Assumptions C46_order_coefficients.
(** Coefficients compared with any tolerance: not a strict weak ordering, so std::map and std::sort have undefined behaviour. *)
Theorem C46_tolerance_refuted : forall eps, (0 < eps)%Q -> (eps < 1)%Q ->
  ~ strict_weak (Forall (@in_table Qc_rfield t8)) (poly_less (cmp_coefs (approx_rcmp eps) id_less)).
Proof. exact tolerance_refuted. Qed.
Print Assumptions C46_tolerance_refuted.
Example C46_nonvacuous : exact_compare qcmp /\ poly_less (cmp_coefs qcmp id_less) [mq 3 false 1 0; mq 6 false 1 0] [mq 3 false 2 0; mq 6 false 1 0] = true /\
  poly_less (cmp_terms id_less) [mq 3 false 1 0; mq 6 false 1 0] [mq 4 false 2 0; mq 6 false 1 0] = true.
Proof. split; [exact qcmp_exact|]. split; vm_compute; reflexivity. Qed.
