(** Proofs about rules made from polynomials that contain a symbol and its conjugate. *)
From Coq Require Import List NArith ZArith Arith Bool Sorted Permutation Lia Ring Field.
From Verif Require Import CoreModel FieldModel FieldProofs SymModel SymSpec PolyModel PolySpec PolyProofs PolyOpsProofs PolyTableProofs PolyFinalProofs RuleModel RuleSpec RuleProofs RuleMakeProofs.
Import ListNotations.

Section Orient.
  Variable R : rfield.
  Add Field Rf : (r_field R).
  Add Field Cf : (cx_field R).
  Notation mono := (mono R).
  Notation rule := (rule R).
  Variable F : factory R.
  Hypothesis FO : factory_ok F.
  Notation t := (fa_table F).
  Notation lt := (fa_lt F).
  Notation srt := (fa_sort F).
  Notation ok := (@in_table R t).
  Notation len := (length (t_syms t)).
  Notation canon := (canonical t lt).
  Notation asg := (assignment (R := R) t).
  Notation lower := (lower R F).
  Notation within := (within R).
  Notation made_ok := (made_ok R F).
  Implicit Types (u v w : nat -> cx R) (p q : list mono).
  Let HO := fo_order F FO.
  Let HS := fo_sort F FO.
  Notation two := (creal (radd R (r1 R) (r1 R))).

  Lemma norm_zero (a : cx R) : cnorm a = r0 R -> a = c0. Proof. apply (cnorm_zero R). Qed.
  Lemma value_two u p i (a b : cx R) : value u (p ++ [mk_mono i false a; mk_mono i true b]) = cadd (value u p) (cadd (cmul a (u i)) (cmul b (cconj (u i)))).
  Proof. rewrite (value_app R), (value_cons R), (value_one R). reflexivity. Qed.
  Lemma creal_inj (x y : R) : creal x = creal y -> x = y. Proof. intro H. now apply (f_equal cre) in H. Qed.

  (** ** reorient_polynomial *)
  Definition gamma (a b : cx R) : cx R := csub (cdiv b a) (cdiv (cconj a) (cconj b)).
  Lemma gamma_ne a b : a <> c0 -> b <> c0 -> cnorm a <> cnorm b -> gamma a b <> c0.
  Proof.
    intros Na Nb N H. apply N. apply creal_inj. rewrite <- !(cnorm_conj R).
    assert (E : cmul b (cconj b) = cmul a (cconj a)).
    { replace (cmul b (cconj b)) with (cadd (cmul (gamma a b) (cmul a (cconj b))) (cmul a (cconj a))); [rewrite H; ring|].
      unfold gamma. field. split; [now apply conj_nonzero|exact Na]. }
    now rewrite E.
  Qed.
  Lemma within_lower i p : lower i p <-> within (fun j => key_less F j i = true) p. Proof. reflexivity. Qed.
  Lemma conj_pair rest i a b : canon rest -> lower i rest -> i < len -> i <> 0 -> herm t i = false -> anti t i = false -> a <> c0 -> b <> c0 ->
    conjugate_poly t (rest ++ [mk_mono i false a; mk_mono i true b]) = conjugate_poly t rest ++ [mk_mono i false (cconj b); mk_mono i true (cconj a)].
  Proof.
    intros C Lo L N0 Nh Na A B.
    assert (C1 : canon (rest ++ [mk_mono i false a; mk_mono i true b])).
    { apply (canon_join R F FO); [exact C|now apply (canon_pair R F FO)|]. intros x y Hx [<-|[<-|[]]]; cbn; now apply Lo. }
    assert (Lo' : lower i (conjugate_poly t rest)) by (apply within_lower, (within_conj R F FO); [exact C|exact Lo]).
    assert (C2 : canon (conjugate_poly t rest ++ [mk_mono i false (cconj b); mk_mono i true (cconj a)])).
    { apply (canon_join R F FO); [now apply (conjugate_canonical R t lt HO)|apply (canon_pair R F FO); auto; now apply conj_nonzero|].
      intros x y Hx [<-|[<-|[]]]; cbn; now apply Lo'. }
    apply (unique R F FO); [now apply (conjugate_canonical R t lt HO)|exact C2|]. intros v V.
    rewrite (conjugate_value R t lt HO v _ V C1), !value_two, (conjugate_value R t lt HO v _ V C), !(cconj_add R), !(cconj_mul R), (cconj_conj R). ring.
  Qed.
  Definition reoriented rest i a b : list mono := append lt (scale (cinv a) rest) (scale (copp (cinv (cconj b))) (conjugate_poly t rest)) ++ [mk_mono i true (gamma a b)].
  Lemma reorient_form rest i a b : canon rest -> lower i rest -> i < len -> i <> 0 -> herm t i = false -> anti t i = false -> a <> c0 -> b <> c0 -> cnorm a <> cnorm b ->
    reorient F (rest ++ [mk_mono i false a; mk_mono i true b]) = reoriented rest i a b /\ canon (reoriented rest i a b) /\
    canon (append lt (scale (cinv a) rest) (scale (copp (cinv (cconj b))) (conjugate_poly t rest))) /\
    lower i (append lt (scale (cinv a) rest) (scale (copp (cinv (cconj b))) (conjugate_poly t rest))) /\
    (forall Q, within Q rest -> within Q (append lt (scale (cinv a) rest) (scale (copp (cinv (cconj b))) (conjugate_poly t rest)))).
  Proof.
    intros C Lo L N0 Nh Na A B N. pose proof (gamma_ne a b A B N) as G. pose proof (conj_nonzero R b B) as B'. pose proof (conj_nonzero R a A) as A'.
    set (m := append lt (scale (cinv a) rest) (scale (copp (cinv (cconj b))) (conjugate_poly t rest))).
    assert (Cc : canon (conjugate_poly t rest)) by now apply (conjugate_canonical R t lt HO).
    assert (Cm : canon m). { unfold m. rewrite (append_merge R lt). apply (merge_canonical R t lt HO); now apply (scale_canonical R t lt). }
    assert (Wm : forall Q, within Q rest -> within Q m). { intros Q W. unfold m. apply within_append; apply within_scale; [exact W|now apply (within_conj R F FO)]. }
    assert (Vm : forall u, asg u -> value u m = csub (cdiv (value u rest) a) (cdiv (cconj (value u rest)) (cconj b))).
    { intros u U. unfold m. rewrite (append_merge R lt). change (merge_terms lt) with (@sum_pp R lt). rewrite (sum_value R t lt HO); try (now apply (scale_canonical R t lt)).
      rewrite !(scale_value R), (conjugate_value R t lt HO u rest U C). field. split; assumption. }
    assert (Lm : lower i m) by (apply within_lower, Wm; exact Lo).
    assert (Cr : canon (m ++ [mk_mono i true (gamma a b)])).
    { apply (canon_join R F FO); [exact Cm|apply canon_one; cbn; auto; intros [H|H]; congruence|]. intros x y Hx [<-|[]]. cbn. now apply Lm. }
    split; [|auto]. unfold reoriented. fold m. unfold reorient.
    rewrite (conj_pair rest i a b) by assumption.
    assert (C1 : canon (rest ++ [mk_mono i false a])).
    { apply (canon_join R F FO); [exact C|apply canon_one; cbn; auto|]. intros x y Hx [<-|[]]. cbn. now apply Lo. }
    assert (Lo' : lower i (conjugate_poly t rest)) by (apply within_lower, (within_conj R F FO); [exact C|exact Lo]).
    assert (C2 : canon (conjugate_poly t rest ++ [mk_mono i false (cconj b)])).
    { apply (canon_join R F FO); [exact Cc|apply canon_one; cbn; auto|]. intros x y Hx [<-|[]]. cbn. now apply Lo'. }
    change ([mk_mono i false a; mk_mono i true b]) with ([mk_mono i false a] ++ [mk_mono i true b]).
    change ([mk_mono i false (cconj b); mk_mono i true (cconj a)]) with ([mk_mono i false (cconj b)] ++ [mk_mono i true (cconj a)]).
    rewrite !app_assoc.
    destruct (pop_spec R F FO (rest ++ [mk_mono i false a]) (mk_mono i true b) C1 B) as [_ [D1 [E1 _]]].
    destruct (pop_spec R F FO (conjugate_poly t rest ++ [mk_mono i false (cconj b)]) (mk_mono i true (cconj a)) C2 A') as [_ [D2 [E2 _]]].
    apply (unique R F FO); [rewrite (append_merge R lt); apply (merge_canonical R t lt HO); [exact D1|now apply (scale_canonical R t lt)]|exact Cr|].
    intros u U. rewrite (append_merge R lt). change (merge_terms lt) with (@sum_pp R lt). rewrite (sum_value R t lt HO); [|exact D1|now apply (scale_canonical R t lt)].
    rewrite (scale_value R), (E1 u U), (E2 u U). cbn [m_cj m_f maybe_conj]. rewrite !(value_app R), !(value_one R), (Vm u U), (conjugate_value R t lt HO u rest U C).
    unfold term_value. cbn [m_id m_cj m_f]. rewrite !(conj_div R) by assumption. rewrite !(cconj_opp R), !(cconj_add R), !(cconj_mul R), !(cconj_conj R). unfold gamma. field.
    split; assumption.
  Qed.
  Lemma reorient_equiv a b (x r : cx R) : a <> c0 -> b <> c0 -> cnorm a <> cnorm b ->
    (cadd r (cadd (cmul a x) (cmul b (cconj x))) = c0 <-> cadd (csub (cdiv r a) (cdiv (cconj r) (cconj b))) (cmul (gamma a b) (cconj x)) = c0).
  Proof.
    intros A B N. pose proof (conj_nonzero R b B) as B'. set (z := cadd r (cadd (cmul a x) (cmul b (cconj x)))).
    assert (E : cadd (csub (cdiv r a) (cdiv (cconj r) (cconj b))) (cmul (gamma a b) (cconj x)) = csub (cdiv z a) (cdiv (cconj z) (cconj b))).
    { unfold z, gamma. rewrite !(cconj_add R), !(cconj_mul R), (cconj_conj R). field. split; assumption. }
    rewrite E. split; intro H.
    - rewrite H, (cconj_0 R). field. split; assumption.
    - destruct (c_eq_dec R z c0) as [Z|Z]; [exact Z|exfalso]. apply N. apply creal_inj. rewrite <- !(cnorm_conj R).
      assert (K : cmul z (cconj b) = cmul (cconj z) a).
      { replace (cmul z (cconj b)) with (cadd (cmul (csub (cdiv z a) (cdiv (cconj z) (cconj b))) (cmul a (cconj b))) (cmul (cconj z) a)) by (field; split; assumption).
        rewrite H. ring. }
      assert (K' := f_equal cconj K). rewrite !(cconj_mul R), !(cconj_conj R) in K'.
      pose proof (conj_nonzero R z Z) as Z'. assert (P : cmul (cmul z (cconj z)) (csub (cmul a (cconj a)) (cmul b (cconj b))) = c0).
      { replace (cmul (cmul z (cconj z)) (csub (cmul a (cconj a)) (cmul b (cconj b)))) with
          (csub (cmul (cmul (cconj z) a) (cmul z (cconj a))) (cmul (cmul z (cconj b)) (cmul (cconj z) b))) by ring.
        rewrite <- K, <- K'. ring. }
      apply (cmul_zero R) in P as [P|P]; [apply (cmul_zero R) in P as [P|P]; contradiction|].
      replace (cmul a (cconj a)) with (cadd (csub (cmul a (cconj a)) (cmul b (cconj b))) (cmul b (cconj b))) by ring. rewrite P. ring.
  Qed.
  Lemma reorient_spec rest i a b r : canon rest -> lower i rest -> 1 < i -> i < len -> herm t i = false -> anti t i = false -> a <> c0 -> b <> c0 -> cnorm a <> cnorm b ->
    regular_rule F i (reorient F (rest ++ [mk_mono i false a; mk_mono i true b])) = Made r ->
    exists k, made_ok (rest ++ [mk_mono i false a; mk_mono i true b]) rest [mk_mono i false a; mk_mono i true b] k r.
  Proof.
    intros C Lo L1 L Nh Na A B N E. assert (N0 : i <> 0) by lia. pose proof (gamma_ne a b A B N) as G. pose proof (conj_nonzero R b B) as B'.
    destruct (reorient_form rest i a b C Lo L N0 Nh Na A B N) as [Q [Cr [Cm [Lm Wm]]]]. rewrite Q in E. unfold reoriented in *.
    set (m := append lt (scale (cinv a) rest) (scale (copp (cinv (cconj b))) (conjugate_poly t rest))) in *.
    assert (Vm : forall u, asg u -> value u m = csub (cdiv (value u rest) a) (cdiv (cconj (value u rest)) (cconj b))).
    { intros u U. unfold m. rewrite (append_merge R lt). change (merge_terms lt) with (@sum_pp R lt).
      assert (Cc : canon (conjugate_poly t rest)) by now apply (conjugate_canonical R t lt HO).
      rewrite (sum_value R t lt HO); [|now apply (scale_canonical R t lt)|now apply (scale_canonical R t lt)].
      rewrite !(scale_value R), (conjugate_value R t lt HO u rest U C). field. split; assumption. }
    destruct (simple_spec R F FO m i true (gamma a b) r Cm Lm Cr L1 E) as [k [[H1 H1'] H2 H3 H4 H5 H6 H7 H8 H9 H10 H11 H12]].
    assert (El : ru_lhs r = i /\ ru_partial r = false /\ ru_split r = None).
    { unfold regular_rule in E. injection E as <-. cbn. repeat split. unfold split_regular. rewrite Nh, Na. destruct (i <=? 1); reflexivity. }
    destruct El as [El [Ep Es]]. rewrite El in *. exists k. constructor; rewrite ?El; auto.
    - intros u U. rewrite value_two, (reorient_equiv a b _ _ A B N), <- (Vm u U), <- (H5 u U), (value_app R), (value_one R). reflexivity.
    - intros u w U W Hv. apply H8; auto. rewrite (Vm u U), (Vm w W), Hv. reflexivity.
    - rewrite Ep. right. exists a, b. auto.
  Qed.

  (** ** resolve_nonorientable_rule *)
  Lemma real_sq (x : R) : rmul R x x = r1 R -> x = r1 R \/ x = ropp R (r1 R).
  Proof.
    intro H. assert (P : cmul (creal (rsub R x (r1 R))) (creal (radd R x (r1 R))) = c0).
    { apply cx_ext; cbn; [|ring]. transitivity (rsub R (rmul R x x) (r1 R)); [ring|rewrite H; ring]. }
    apply (cmul_zero R) in P as [P|P]; apply (f_equal cre) in P; cbn in P; [left|right].
    - replace x with (radd R (rsub R x (r1 R)) (r1 R)) by ring. rewrite P. ring.
    - replace x with (rsub R (radd R x (r1 R)) (r1 R)) by ring. rewrite P. ring.
  Qed.
  Lemma norm1 (e : cx R) : cnorm e = r1 R <-> cmul e (cconj e) = c1.
  Proof. rewrite (cnorm_conj R). split; [intros ->; reflexivity|]. intro H. now apply (f_equal cre) in H. Qed.
  Lemma direction_spec z e : cnorm z = r1 R -> direction F z = Some e -> cmul e e = z /\ cnorm e = r1 R.
  Proof.
    intros N. unfold direction. destruct (is_real z) eqn:E.
    - apply (is_real_spec R) in E. apply (creal_part R) in E. intros [= <-].
      assert (Q : rmul R (cre z) (cre z) = r1 R) by (rewrite <- N; unfold cnorm; rewrite E; ring).
      destruct (fo_pos F FO) as [P1 P2]. destruct (real_sq _ Q) as [H|H]; rewrite H.
      + rewrite P1. split; [apply cx_ext; cbn; rewrite ?H, ?E; ring|]. unfold cnorm. cbn. ring.
      + rewrite P2. split; [apply cx_ext; cbn; rewrite ?H, ?E; ring|]. unfold cnorm. cbn. ring.
    - destruct (fa_sqrt F z) as [s|] eqn:Es; [|discriminate]. intros [= <-]. destruct (fo_sqrt F FO z s Es) as [S1 S2]. specialize (S2 N).
      destruct (fa_pos F (ropp R (cim z))); [|auto]. split; [rewrite <- S1; ring|]. rewrite <- S2. unfold cnorm. cbn. ring.
  Qed.
  Lemma direction_none z : direction F z = None -> fa_sqrt F z = None.
  Proof. unfold direction. destruct (is_real z); [discriminate|]. destruct (fa_sqrt F z); [discriminate|reflexivity]. Qed.
  Lemma norm_div a b : a <> c0 -> cnorm a = cnorm b -> cnorm (cdiv b a) = r1 R.
  Proof.
    intros A N. apply norm1. pose proof (conj_nonzero R a A) as A'. rewrite (conj_div R) by exact A.
    replace (cmul (cdiv b a) (cdiv (cconj b) (cconj a))) with (cdiv (cmul b (cconj b)) (cmul a (cconj a))) by (field; split; assumption).
    rewrite !(cnorm_conj R), <- N, <- (cnorm_conj R). field. split; assumption.
  Qed.
  Lemma free_form i e : 1 < i -> i < len -> herm t i = false -> anti t i = false -> e <> c0 -> free_part F i e = tail2 R i e.
  Proof.
    intros L1 L Nh Na N. unfold free_part. fold (tail2 R i e).
    assert (C : canonical t id_less (tail2 R i e)).
    { constructor.
      - repeat constructor. unfold id_less. cbn [m_id m_cj]. rewrite Nat.ltb_irrefl. reflexivity.
      - intros x [<-|[<-|[]]]; cbn; repeat split; auto; try lia; try (intros [H|H]; congruence); [apply (half_ne R)|].
        apply mul_nonzero; [apply mul_nonzero; [now apply opp_nonzero|exact N]|apply (half_ne R)]. }
    assert (Q : make_poly t (fa_idsort F) (tail2 R i e) = make_plain (fa_idsort F) (tail2 R i e)).
    { unfold make_poly, make_plain, fix_cc_in_place. cbn [fst andb]. f_equal. unfold tail2. cbn [map]. unfold fix_term. cbn [m_id m_cj]. rewrite Nh. cbn [m_id m_cj]. rewrite Na. reflexivity. }
    rewrite <- Q. apply (make_poly_fixed R t id_less (id_less_order R t) (fa_idsort F) (fo_idsort F FO)); [apply FO|apply FO|exact C].
  Qed.
  Lemma unit_ne e : cnorm e = r1 R -> e <> c0.
  Proof. intros H E. subst e. apply norm1 in H. apply (c1_neq_0 R). rewrite <- H. ring. Qed.
  Lemma tail2_value u i e : value u (tail2 R i e) = cmul half (csub (u i) (cmul (cmul e e) (cconj (u i)))).
  Proof. unfold tail2. rewrite (value_cons R), (value_one R). unfold term_value. cbn. ring. Qed.
  Lemma tail2_canon i e : 1 < i -> i < len -> herm t i = false -> anti t i = false -> e <> c0 -> canon (tail2 R i e).
  Proof.
    intros L1 L Nh Na N. apply (canon_pair R F FO); auto; [lia|apply (half_ne R)|].
    apply mul_nonzero; [apply mul_nonzero; [now apply opp_nonzero|exact N]|apply (half_ne R)].
  Qed.
  Lemma append_tail p i e : canon p -> lower i p -> 1 < i -> i < len -> herm t i = false -> anti t i = false -> e <> c0 ->
    append lt p (tail2 R i e) = p ++ tail2 R i e /\ canon (p ++ tail2 R i e).
  Proof.
    intros C Lo L1 L Nh Na N. pose proof (tail2_canon i e L1 L Nh Na N) as Ct.
    assert (Cj : canon (p ++ tail2 R i e)). { apply (canon_join R F FO); auto. intros x y Hx [<-|[<-|[]]]; cbn; now apply Lo. }
    split; [|exact Cj]. rewrite (append_merge R lt). apply (unique R F FO); [now apply (merge_canonical R t lt HO)|exact Cj|].
    intros v V. change (merge_terms lt) with (@sum_pp R lt). rewrite (sum_value R t lt HO) by assumption. now rewrite (value_app R).
  Qed.
  Lemma removelast2 (p : list mono) x y : removelast (removelast (p ++ [x; y])) = p.
  Proof. change [x; y] with ([x] ++ [y]). rewrite app_assoc, removelast_last, removelast_last. reflexivity. Qed.
  (** [kap] is half of the rotated equation: 0.5 (e* X + e X* ) = kap *)
  Lemma nonorient_equiv (a e x r : cx R) : a <> c0 -> cnorm e = r1 R ->
    let kap := cmul (cdiv (copp (cconj e)) (cmul two a)) r in
    (cadd r (cadd (cmul a x) (cmul (cmul (cmul e e) a) (cconj x))) = c0 <->
     x = cadd (cmul e (creal (cre kap))) (cmul half (csub x (cmul (cmul e e) (cconj x)))) /\ cim kap = r0 R).
  Proof.
    intros A N kap. apply norm1 in N. pose proof (two_ne R) as T. pose proof (two_half R) as TH.
    assert (He : e <> c0) by (intro H; subst e; apply (c1_neq_0 R); rewrite <- N; ring).
    pose proof (conj_nonzero R e He) as He'.
    set (z := cadd (cmul (cconj e) x) (cmul e (cconj x))).
    assert (Rz : cconj z = z) by (unfold z; rewrite (cconj_add R), !(cconj_mul R), !(cconj_conj R); ring).
    assert (E1 : cadd r (cadd (cmul a x) (cmul (cmul (cmul e e) a) (cconj x))) = c0 <-> cmul half z = kap).
    { assert (Q : csub (cmul half z) kap = cmul (cmul half (cdiv (cconj e) a)) (cadd r (cadd (cmul a x) (cmul (cmul (cmul e e) a) (cconj x))))).
      { unfold kap, z. assert (Hh : half = cdiv c1 two). { rewrite <- TH. field. exact T. } rewrite Hh.
        replace (cmul (cmul (cdiv c1 two) (cdiv (cconj e) a)) (cadd r (cadd (cmul a x) (cmul (cmul (cmul e e) a) (cconj x)))))
          with (cadd (cmul (cdiv (cconj e) (cmul two a)) r) (cmul (cdiv c1 two) (cadd (cmul (cconj e) x) (cmul (cmul (cmul e (cconj e)) e) (cconj x))))) by (field; split; assumption).
        rewrite N. field. split; assumption. }
      split; intro H.
      - rewrite H in Q. replace kap with (csub (cmul half z) (csub (cmul half z) kap)) by ring. rewrite Q. ring.
      - rewrite H in Q. assert (Q' : cmul (cmul half (cdiv (cconj e) a)) (cadd r (cadd (cmul a x) (cmul (cmul (cmul e e) a) (cconj x)))) = c0) by (rewrite <- Q; ring).
        apply (cmul_zero R) in Q' as [Q'|Q']; [|exact Q']. exfalso. revert Q'. apply mul_nonzero; [apply (half_ne R)|now apply div_nonzero]. }
    assert (HR : cconj (cmul half z) = cmul half z) by (rewrite (cconj_mul R), Rz, (half_conj R); reflexivity).
    assert (E2 : cmul half z = creal (cre kap) <-> x = cadd (cmul e (creal (cre kap))) (cmul half (csub x (cmul (cmul e e) (cconj x))))).
    { assert (Q : cmul e (csub (cmul half z) (creal (cre kap))) = csub x (cadd (cmul e (creal (cre kap))) (cmul half (csub x (cmul (cmul e e) (cconj x)))))).
      { unfold z. replace (cmul e (csub (cmul half (cadd (cmul (cconj e) x) (cmul e (cconj x)))) (creal (cre kap))))
          with (csub (cmul half (cadd (cmul (cmul e (cconj e)) x) (cmul (cmul e e) (cconj x)))) (cmul e (creal (cre kap)))) by ring. rewrite N.
        replace x with (cmul (cadd half half) x) at 3 by (rewrite (half_half R); ring). ring. }
      split; intro H.
      - rewrite H in Q. replace x with (cadd (csub x (cadd (cmul e (creal (cre kap))) (cmul half (csub x (cmul (cmul e e) (cconj x))))))
          (cadd (cmul e (creal (cre kap))) (cmul half (csub x (cmul (cmul e e) (cconj x)))))) at 1 by ring. rewrite <- Q. ring.
      - assert (Q' : cmul e (csub (cmul half z) (creal (cre kap))) = c0) by (rewrite Q; rewrite <- H; ring).
        apply (cmul_zero R) in Q' as [Q'|Q']; [contradiction|]. replace (cmul half z) with (cadd (csub (cmul half z) (creal (cre kap))) (creal (cre kap))) by ring. rewrite Q'. ring. }
    rewrite E1, <- E2. split.
    - intro H. rewrite H in HR. apply (creal_part R) in HR. split; [|exact HR]. rewrite H. apply cx_ext; [reflexivity|]. cbn. exact HR.
    - intros [H1 H2]. rewrite H1. apply cx_ext; [reflexivity|]. exact (eq_sym H2).
  Qed.
  Lemma cre_mul_conj (e : cx R) (x : R) : cnorm e = r1 R -> cmul (cconj e) (cmul e (creal x)) = creal x.
  Proof. intro N. apply norm1 in N. replace (cmul (cconj e) (cmul e (creal x))) with (cmul (cmul e (cconj e)) (creal x)) by ring. rewrite N. ring. Qed.
  Lemma asg_exists : exists u : nat -> cx R, asg u.
  Proof.
    exists (pick R 2 c0). destruct (fo_starts F FO) as [s0 [s1 [l [E [H1 H2]]]]]. constructor; try reflexivity.
    - intros j y _ _. unfold pick. destruct (j =? 1); [reflexivity|]. destruct (j =? 2); reflexivity.
    - intros j y Q Hy. unfold pick. destruct (Nat.eqb_spec j 1) as [->|N]; [rewrite E in Q; cbn in Q; injection Q as <-; congruence|]. destruct (j =? 2); reflexivity.
  Qed.
  Lemma nonorient_spec rest i a b r : canon rest -> lower i rest -> 1 < i -> i < len -> herm t i = false -> anti t i = false -> a <> c0 -> b <> c0 -> cnorm a = cnorm b ->
    resolve_nonorientable F (rest ++ [mk_mono i false a; mk_mono i true b]) = Made r ->
    exists k, made_ok (rest ++ [mk_mono i false a; mk_mono i true b]) rest [mk_mono i false a; mk_mono i true b] k r.
  Proof.
    intros C Lo L1 L Nh Na A B N. unfold resolve_nonorientable. rewrite rev_app_distr. cbn [rev app m_f m_id]. rewrite removelast2.
    destruct (direction F (cdiv b a)) as [e|] eqn:D; [|discriminate]. destruct (direction_spec _ e (norm_div a b A N) D) as [De Ne].
    pose proof (unit_ne e Ne) as He. assert (Eb : b = cmul (cmul e e) a) by (rewrite De; field; exact A).
    set (f := cdiv (copp (cconj e)) (cmul two a)). set (q := scale f rest). set (im := imag_part t srt q).
    set (q' := match im with [] => q | _ => real_part t srt q end). intros [= <-].
    assert (Cq : canon q) by now apply (scale_canonical R t lt).
    destruct (parts_spec R t lt srt q HO HS Cq) as [[Cr Vr] [Ci Vi]]. fold im in Ci, Vi.
    assert (Vq : forall u, value u q = cmul f (value u rest)) by (intro u; apply (scale_value R)).
    assert (Wq : forall Q, within Q rest -> within Q q) by (intros Q W; now apply within_scale).
    assert (Cq' : canon q') by (unfold q'; destruct im; assumption).
    assert (Vq' : forall u, asg u -> value u q' = creal (cre (value u q))).
    { intros u U. unfold q'. destruct im as [|x l] eqn:E; [|now apply Vr]. specialize (Vi u U). cbn in Vi. apply (f_equal cre) in Vi. cbn in Vi.
      apply cx_ext; cbn; [reflexivity|now symmetry]. }
    assert (Wq' : forall Q, within Q rest -> within Q q') by (intros Q W; unfold q'; destruct im; [now apply Wq|apply (within_real R F FO); auto]).
    assert (Ck : canon (scale e q')) by now apply (scale_canonical R t lt).
    assert (Wk : forall Q, within Q rest -> within Q (scale e q')) by (intros Q W; apply within_scale; now apply Wq').
    assert (Lk : lower i (scale e q')) by (apply within_lower, Wk; exact Lo).
    assert (Vk : forall u, asg u -> value u (scale e q') = cmul e (creal (cre (value u q)))) by (intros u U; now rewrite (scale_value R), (Vq' u U)).
    rewrite (free_form i e L1 L Nh Na He). destruct (append_tail (scale e q') i e Ck Lk L1 L Nh Na He) as [Ea Ca]. rewrite Ea.
    exists (scale e q'). constructor; cbn [ru_lhs ru_rhs ru_partial ru_dir ru_split]; auto.
    - unfold shaped. cbn [ru_lhs ru_rhs ru_partial ru_dir]. split; [exact Lk|split; [exact Ck|split; [reflexivity|split; [exact Ne|split; [exact Nh|split; [exact Na|]]]]]]. intros u U. rewrite (Vk u U), (cre_mul_conj e _ Ne). reflexivity.
    - split; congruence.
    - intros u U. rewrite value_two, Eb, (nonorient_equiv a e (u i) (value u rest) A Ne). cbn zeta. fold f. rewrite <- (Vq u), (value_app R), (Vk u U), tail2_value.
      apply and_iff_compat_l. split.
      + intros Hi s Hs. assert (Es : s = im) by (destruct im; congruence). subst s. rewrite (Vi u U), Hi. reflexivity.
      + intro Hs. destruct im as [|x l] eqn:E.
        * specialize (Vi u U). cbn in Vi. apply (f_equal cre) in Vi. cbn in Vi. now symmetry.
        * specialize (Hs _ eq_refl). rewrite (Vi u U) in Hs. now apply (f_equal cre) in Hs.
    - intros s Hs. assert (Es : s = im) by (destruct im; congruence). subst s. split; [exact Ci|]. intros u U. now rewrite (Vi u U).
    - intro RV. assert (Im : im = []); [|now rewrite Im]. apply (unique R F FO); [exact Ci|apply nil_canonical|]. intros u U. rewrite (Vi u U). cbn.
      assert (K : forall z, cim (cadd (value u rest) (cadd (cmul a z) (cmul b (cconj z)))) = r0 R).
      { intro z. assert (U' : asg (upd R u i z)) by (apply (upd_asg R F); auto; congruence). specialize (RV _ U').
        rewrite value_two, (upd_same R), (value_upd R F FO u i z rest L (canon_ok R F rest C) Lo) in RV. exact RV. }
      assert (K0 : cim (value u rest) = r0 R) by (rewrite <- (K c0); f_equal; rewrite (cconj_0 R); ring).
      assert (K1 := K c1). assert (K2 := K ci). cbn in K1, K2. rewrite K0 in K1, K2.
      assert (S1 : cim b = ropp R (cim a)) by (apply (f_equal (fun z => rsub R z (cim a))) in K1; rewrite <- (Radd_0_l (F_R (r_field R)) (cim b)); transitivity (rsub R (r0 R) (cim a)); [|ring]; rewrite <- K1; ring).
      assert (S2 : cre b = cre a) by (transitivity (radd R (r0 R) (cre b)); [ring|]; rewrite <- K2; ring).
      assert (Bc : b = cconj a) by (apply cx_ext; cbn; assumption). clear K K1 K2 S1 S2.
      assert (Rfac : cconj f = f).
      { unfold f. pose proof (conj_nonzero R a A) as A'. pose proof (two_ne R) as T. pose proof Ne as Ne'. apply norm1 in Ne'.
        rewrite (conj_div R) by (now apply mul_nonzero). rewrite (cconj_opp R), (cconj_conj R), (cconj_mul R), (two_conj R). rewrite <- Bc, Eb.
        replace (cconj e) with (cdiv c1 e) by (rewrite <- Ne'; field; exact He). field. repeat split; assumption. }
      rewrite (Vq u). replace (cim (cmul f (value u rest))) with (r0 R); [reflexivity|]. symmetry. apply (creal_part R). rewrite (cconj_mul R), Rfac. f_equal. now apply (creal_part R).
    - intros u w U W H. rewrite (Vk u U), (Vk w W), (Vq u), (Vq w), H. reflexivity.
    - exists a. split; [exact A|]. now rewrite <- Eb.
  Qed.

  (** ** make_rule *)
  Lemma view_last p x : rev (p ++ [x]) = x :: rev p. Proof. now rewrite rev_app_distr. Qed.
  Theorem make_spec q r : canon q -> q <> [] -> make_rule F q = Made r -> exists rest tl k, made_ok q rest tl k r.
  Proof.
    intros C Nq E. pose proof (canon_view R F FO q C) as V. destruct V as [|p x Cp Lo C1|p i a b Cp Lo L N0 Nh Na A B]; [contradiction| |].
    - unfold make_rule in E. destruct (cp_terms t lt _ C x) as [L [Nf [N0 _]]]; [apply in_or_app; right; now left|]. unfold in_table in L.
      assert (D : get_difficulty (p ++ [x]) = if m_id x =? 1 then Contradiction else Simple).
      { unfold get_difficulty. rewrite view_last. destruct (m_id x =? 1); [reflexivity|]. destruct (rev p) as [|y l] eqn:Ep; [reflexivity|].
        destruct (Nat.eqb_spec (m_id x) (m_id y)) as [Q|Q]; [|reflexivity]. exfalso. apply rev_last in Ep. subst p.
        apply (lower_neq R F FO (m_id x) _ y L (canon_ok R F _ Cp) Lo); [apply in_or_app; right; now left|now symmetry]. }
      rewrite D in E. destruct (Nat.eqb_spec (m_id x) 1) as [Q|Q]; [discriminate|]. unfold last_id in E. rewrite view_last in E.
      destruct x as [i cj f]. cbn [m_id m_f] in *. destruct (simple_spec R F FO p i cj f r Cp Lo C1 ltac:(lia) E) as [k Hk]. eauto.
    - unfold make_rule in E. unfold last_id in E. assert (N1 : i <> 1).
      { intro Q. subst i. pose proof (starts_herm1 t (fo_starts F FO)). congruence. }
      unfold get_difficulty in E. rewrite rev_app_distr in E. cbn [rev app m_id m_f] in E.
      rewrite (proj2 (Nat.eqb_neq i 1) N1), Nat.eqb_refl in E. cbn [negb] in E. destruct (r_eqb R (cnorm b) (cnorm a)) eqn:Q; cbn [negb] in E.
      + apply (r_eqb_spec R) in Q. destruct (nonorient_spec p i a b r Cp Lo ltac:(lia) L Nh Na A B (eq_sym Q) E) as [k Hk]. eauto.
      + assert (Q' : cnorm a <> cnorm b) by (intro G; symmetry in G; apply (r_eqb_spec R) in G; congruence).
        destruct (reorient_spec p i a b r Cp Lo ltac:(lia) L Nh Na A B Q' E) as [k Hk]. eauto.
  Qed.
  Lemma make_nil : make_rule F [] = Made (mk_rule 0 [] false c0 None). Proof. reflexivity. Qed.
  Lemma make_invalid q : canon q -> make_rule F q = Invalid -> exists c, c <> c0 /\ forall u, asg u -> value u q = c.
  Proof.
    intros C E. unfold make_rule in E. destruct (get_difficulty q) eqn:D; try discriminate.
    - clear E. unfold get_difficulty in D. destruct (rev q) as [|x l] eqn:Er; [discriminate|]. apply rev_last in Er. subst q.
      destruct (Nat.eqb_spec (m_id x) 1) as [Q|Q].
      2:{ destruct l as [|y l]; [discriminate|]. destruct (negb _); [discriminate|]. destruct (negb _); discriminate. }
      destruct (cp_terms t lt _ C x) as [Lx [Nf [N0 Hc]]]; [apply in_or_app; right; now left|].
      assert (l = []).
      { destruct l as [|y l]; [reflexivity|exfalso]. cbn [rev] in C. destruct (sorted_app_inv _ _ _ (cp_sorted t lt _ C)) as [_ [_ H]].
        assert (Hy : In y (rev l ++ [y])) by (apply in_or_app; right; now left). specialize (H y x Hy (or_introl eq_refl)).
        destruct (cp_terms t lt _ C y (in_or_app _ _ _ (or_introl Hy))) as [Ly [Nfy [N0y Hcy]]].
        destruct (Nat.eq_dec (m_id y) 1) as [E1|E1].
        - pose proof (starts_herm1 t (fo_starts F FO)) as H1. destruct (lt_pair R t lt HO y x Ly Lx H ltac:(congruence)) as [_ Z].
          rewrite Hc in Z; [discriminate|]. left. now rewrite Q.
        - pose proof (fo_first F FO x y Lx Ly Q ltac:(lia)) as H'. rewrite (lt_asym R t lt HO x y Lx Ly H') in H. discriminate. }
      subst l. cbn [rev app] in *. exists (m_f x). split; [exact Nf|]. intros u U. rewrite (value_one R). unfold term_value. rewrite Q, (as_one t u U).
      destruct (m_cj x); rewrite ?(cconj_1 R); ring.
    - unfold resolve_nonorientable in E. destruct (rev q) as [|x [|y l]]; try discriminate. destruct (direction F _); discriminate.
  Qed.
  Lemma make_no_root q : make_rule F q = NoRoot -> canon q -> exists z, cnorm z = r1 R /\ fa_sqrt F z = None.
  Proof.
    intros E C. unfold make_rule in E. destruct (get_difficulty q) eqn:D; try discriminate; try (unfold regular_rule in E; discriminate).
    unfold resolve_nonorientable in E. unfold get_difficulty in D. destruct (rev q) as [|x [|y l]] eqn:Er; try discriminate.
    destruct (m_id x =? 1); [discriminate|]. destruct (Nat.eqb_spec (m_id x) (m_id y)) as [Q|Q]; [|discriminate]. cbn [negb] in D.
      destruct (r_eqb R (cnorm (m_f x)) (cnorm (m_f y))) eqn:G; [|discriminate]. apply (r_eqb_spec R) in G.
      destruct (direction F (cdiv (m_f x) (m_f y))) eqn:Z; [discriminate|]. exists (cdiv (m_f x) (m_f y)). split; [|now apply direction_none].
      apply norm_div; [|now symmetry]. apply (cp_terms t lt _ C y). apply in_rev. rewrite Er. right. now left.
  Qed.
  Lemma make_no_bad q : make_rule F q <> BadAccess.
  Proof.
    intros E. unfold make_rule in E. destruct (get_difficulty q) eqn:D; try discriminate; try (unfold regular_rule in E; discriminate).
    unfold resolve_nonorientable in E. unfold get_difficulty in D. destruct (rev q) as [|x [|y l]] eqn:Er; try discriminate.
    - destruct (m_id x =? 1); discriminate.
    - destruct (direction F _); discriminate.
  Qed.
End Orient.
