(** What completed moment rulebooks are, in the terms of the specification. *)
From Coq Require Import List NArith ZArith Arith Bool Sorted Permutation Lia Ring Field.
From Verif Require Import CoreModel FieldModel FieldProofs SymModel SymSpec PolyModel PolySpec PolyProofs PolyOpsProofs PolyTableProofs PolyFinalProofs RuleModel RuleSpec RuleProofs RuleMakeProofs RuleOrientProofs RuleBookProofs RuleLoopProofs.
Import ListNotations.

Section Final.
  Variable R : rfield.
  Add Field Rf : (r_field R).
  Add Field Cf : (cx_field R).
  Notation mono := (mono R).
  Notation rule := (rule R).
  Notation rulebook := (rulebook (R := R)).
  Variable F : factory R.
  Hypothesis FO : factory_ok F.
  Notation t := (fa_table F).
  Notation lt := (fa_lt F).
  Notation srt := (fa_sort F).
  Notation ok := (@in_table R t).
  Notation len := (length (t_syms t)).
  Notation canon := (canonical t lt).
  Notation asg := (assignment (R := R) t).
  Notation lower := (lower R F).
  Notation within := (within R).
  Notation shaped := (shaped R F).
  Notation fits := (fits R F).
  Notation tail2 := (tail2 R).
  Notation subst := (subst R).
  Notation before := (before R F).
  Notation good_rule := (good_rule R F).
  Notation good := (good R F).
  Notation invariant := (invariant R F).
  Implicit Types (u v w : nat -> cx R) (p q : list mono) (rules : list rule).
  Let HO := fo_order F FO.
  Let HS := fo_sort F FO.

  (** ** rules as polynomials *)
  Lemma as_poly_ok r : good_rule r -> canon (as_polynomial F r) /\ forall v, value v (as_polynomial F r) = csub (value v (ru_rhs r)) (v (ru_lhs r)).
  Proof.
    intro G. destruct (gr_lhs R F r G) as [L1 L]. unfold as_polynomial. destruct (Nat.eqb_spec (ru_lhs r) 0) as [E|_]; [lia|].
    unfold poly_of_mono. cbn [m_id m_f]. destruct (Nat.eqb_spec (ru_lhs r) 0) as [E|_]; [lia|]. cbn [negb andb].
    assert (Z : is_zero (copp (@c1 R)) = false). { destruct (is_zero (copp (@c1 R))) eqn:Z; [|reflexivity]. apply (is_zero_true R) in Z. now apply (opp1_ne R) in Z. }
    rewrite Z. cbn [negb]. rewrite (append_merge R lt).
    assert (C1 : canon [mk_mono (ru_lhs r) false (copp c1)]) by (apply (canon_one R F); cbn; auto; [apply (opp1_ne R)|lia]).
    pose proof (gr_canon R F r G) as Cr. split; [now apply (merge_canonical R t lt HO)|]. intro v. change (merge_terms lt) with (@sum_pp R lt).
    rewrite (sum_value R t lt HO) by assumption. rewrite (value_one R). unfold term_value. cbn. ring.
  Qed.
  Lemma insert_id_perm (n : rule) rules : Permutation (n :: rules) (insert_id n rules).
  Proof.
    induction rules as [|r rules IH]; [reflexivity|]. cbn. destruct (_ <=? _); [reflexivity|]. etransitivity; [apply perm_swap|]. now constructor.
  Qed.
  Lemma by_id_perm rules : Permutation rules (by_id rules).
  Proof. induction rules as [|r rules IH]; [reflexivity|]. cbn. etransitivity; [|apply insert_id_perm]. now constructor. Qed.
  Lemma by_id_in rules r : In r (by_id rules) <-> In r rules.
  Proof. split; apply Permutation_in; [symmetry|]; apply by_id_perm. Qed.
  Lemma obeys_polys rules v : (forall r, In r rules -> good_rule r) -> (solves v (map (as_polynomial F) (by_id rules)) <-> obeys v rules).
  Proof.
    intro G. unfold solves, obeys. split.
    - intros H r Hr. assert (Q : value v (as_polynomial F r) = c0) by (apply H, in_map, by_id_in, Hr). rewrite (proj2 (as_poly_ok r (G r Hr))) in Q.
      transitivity (csub (value v (ru_rhs r)) (csub (value v (ru_rhs r)) (v (ru_lhs r)))); [ring|]. rewrite Q. ring.
    - intros H p Hp. apply in_map_iff in Hp as [r [<- Hr]]. apply (proj1 (by_id_in _ _)) in Hr. rewrite (proj2 (as_poly_ok r (G r Hr))), (H r Hr). ring.
  Qed.

  (** ** form *)
  Lemma good_tidy rules : good rules -> tidy_rules F rules.
  Proof.
    intro G. pose proof (g_rule R F rules G) as Gr. constructor.
    - assert (S1 := g_sorted R F rules G). clear G. induction S1 as [|a l S1 IH Fa]; cbn; constructor; [|apply IH; intros; apply Gr; now right].
      intro H. apply in_map_iff in H as [b [E Hb]]. rewrite Forall_forall in Fa. specialize (Fa b Hb). apply (key_neq R F FO (ru_lhs a) (ru_lhs b)); [apply Gr; now left|exact Fa|now symmetry].
    - intros r Hr. apply (Gr r Hr).
    - intros r Hr. apply (Gr r Hr).
    - intros r x Hr Hx. exact (g_free R F rules G r Hr x Hx).
    - intros r x Hr Hx. specialize (Gr r Hr). destruct (gr_lhs R F r Gr) as [_ L]. destruct (gr_shape R F r Gr) as [k [Lo [Ck Sk]]].
      assert (Q : In x k -> lt x (mk_mono (ru_lhs r) false c1) = true).
      { intro Hk. apply (proj2 (lt_key R F FO x (mk_mono (ru_lhs r) false c1) (proj1 (cp_terms t lt _ Ck x Hk)) L (lower_neq R F FO _ _ x L (canon_ok R F k Ck) Lo Hk))). now apply Lo. }
      destruct (ru_partial r); [|rewrite Sk in Hx; left; now apply Q]. destruct Sk as [Sk _]. rewrite Sk in Hx. apply in_app_or in Hx as [Hx|[<-|[<-|[]]]]; auto.
  Qed.
  Lemma good_hermitian rules : good rules -> all_hermitian F rules = true.
  Proof.
    intro G. apply forallb_forall. intros r Hr. destruct (g_rule R F rules G r Hr) as [[_ L] C _ [Fh _]]. destruct (herm t (ru_lhs r)); [|reflexivity]. cbn.
    apply (hermitian_iff R t lt HO); [apply FO|apply FO|exact C|]. now apply Fh.
  Qed.

  (** ** rulebooks *)
  Variable psrt : list (list mono) -> list (list mono).
  Hypothesis PS : forall l, Permutation l (psrt l).
  Record state (b : rulebook) (eqs : list (list mono)) : Prop := mk_state {
    st_good : good (rb_rules b);
    st_raw : Forall canon (rb_raw b);
    st_same : forall v, asg v -> (solves v eqs <-> obeys v (rb_rules b) /\ solves v (rb_raw b));
    st_herm : rb_herm b = true;
    st_mono : rb_mono b = all_monomial (rb_rules b) }.
  Lemma solves_perm v l l' : Permutation l l' -> (solves v l <-> solves v l').
  Proof. intro P. unfold solves. split; intros H p Hp; apply H; [now apply (Permutation_in p (Permutation_sym P))|now apply (Permutation_in p P)]. Qed.
  Lemma complete_spec fuel b eqs : state b eqs -> match complete F psrt fuel b with
    | RDone b' n => state b' eqs /\ rb_raw b' = [] /\ length (rb_rules b') = n + length (rb_rules b) /\ rb_safe b' = rb_safe b /\ rb_uses b' = rb_uses b /\ rb_expand b' = rb_expand b
    | RThrow b' => (locked b = true /\ b' = b) \/ (locked b = false /\ (forall v, asg v -> ~ solves v eqs) /\ rb_mono b' = rb_mono b /\ rb_herm b' = rb_herm b /\ rb_safe b' = rb_safe b /\ rb_uses b' = rb_uses b /\ rb_expand b' = rb_expand b)
    | RStuck => exists z, cnorm z = r1 R /\ fa_sqrt F z = None
    | RFuel => fuel < 2 * length (rb_raw b) end.
  Proof.
    intro S1. unfold complete. destruct (locked b) eqn:Lk; [now left|]. destruct (rb_raw b) as [|p raw] eqn:Er; [auto 10|]. rewrite <- Er.
    assert (P := PS (rb_raw b)). assert (Cr : Forall canon (psrt (rb_raw b))).
    { apply Forall_forall. intros q Hq. apply (Permutation_in q (Permutation_sym P)) in Hq. revert q Hq. apply Forall_forall, (st_raw _ _ S1). }
    pose proof (loop_spec R F FO fuel (rb_rules b) 0 [] (psrt (rb_raw b)) (st_good _ _ S1) Cr) as L.
    assert (N : complete_loop F fuel (rb_rules b) 0 [] (psrt (rb_raw b)) = OutOfFuel -> fuel < 2 * length (rb_raw b)).
    { intro H. destruct (le_lt_dec (2 * length (rb_raw b)) fuel) as [Q|Q]; [|exact Q]. exfalso.
      apply (loop_fuel R F FO fuel (rb_rules b) 0 [] (psrt (rb_raw b)) []); [apply S1|now rewrite app_nil_r|constructor| |now rewrite app_nil_r].
      rewrite <- (Permutation_length P). cbn [length]. lia. }
    destruct (complete_loop F fuel (rb_rules b) 0 [] (psrt (rb_raw b))) as [rules n|rules raw'| |]; cbn in L.
    - destruct L as [G [Ln Eq]]. split; [|cbn; repeat split; auto; lia]. constructor; cbn [rb_rules rb_raw rb_herm rb_mono]; auto.
      + intros v A. rewrite (st_same _ _ S1 v A), (Eq v A), (solves_perm v _ _ P). split; [intro H; split; [exact H|easy]|now intros [H _]].
      + now apply good_hermitian.
    - right. destruct L as [_ L]. split; [reflexivity|]. split; [|auto]. intros v A H. apply (st_same _ _ S1 v A) in H as [O H]. apply (L v A O). now apply (solves_perm v _ _ P).
    - exact L.
    - now apply N.
  Qed.
  Definition unchanged (b b' : rulebook) : Prop := rb_rules b' = rb_rules b /\ rb_raw b' = rb_raw b /\ rb_mono b' = rb_mono b /\ rb_herm b' = rb_herm b /\
    rb_safe b' = rb_safe b /\ rb_uses b' = rb_uses b /\ rb_expand b' = rb_expand b.
  Lemma unchanged_eq b b' : unchanged b b' -> b' = b.
  Proof. destruct b, b'. unfold unchanged. cbn. intros [-> [-> [-> [-> [-> [-> ->]]]]]]. reflexivity. Qed.
  Lemma combine_spec fuel b eqs other eqs' : state b eqs -> state other eqs' -> match combine_and_complete F psrt fuel b other with
    | RDone b' n => state b' (eqs ++ eqs') /\ rb_raw b' = [] /\ length (rb_rules b') = n + length (rb_rules b) /\ locked b = false /\ rb_uses other = 0 /\ rb_raw b = [] /\ rb_raw other = []
    | RThrow b' => b' = b /\ (locked b = true \/ 0 < rb_uses other \/ rb_raw b <> [] \/ rb_raw other <> [] \/ forall v, asg v -> ~ solves v (eqs ++ eqs'))
    | RStuck => exists z, cnorm z = r1 R /\ fa_sqrt F z = None
    | RFuel => fuel < 2 * length (rb_rules other) end.
  Proof.
    intros S1 S2. unfold combine_and_complete. destruct (locked b) eqn:Lk; cbn [orb]; [auto|]. destruct (Nat.ltb_spec 0 (rb_uses other)) as [U|U]; [auto|].
    destruct (rb_raw b) as [|p raw] eqn:E1; [|split; [reflexivity|right; right; left; discriminate]].
    destruct (rb_raw other) as [|p raw] eqn:E2; [|split; [reflexivity|right; right; right; left; discriminate]].
    assert (Eq1 : forall v, asg v -> (solves v eqs <-> obeys v (rb_rules b))).
    { intros v A. rewrite (st_same _ _ S1 v A), E1. split; [now intros [H _]|intro H; split; [exact H|easy]]. }
    assert (Eq2 : forall v, asg v -> (solves v eqs' <-> obeys v (rb_rules other))).
    { intros v A. rewrite (st_same _ _ S2 v A), E2. split; [now intros [H _]|intro H; split; [exact H|easy]]. }
    destruct (rb_rules b) as [|r1 rs1] eqn:B1; [|destruct (rb_rules other) as [|r2 rs2] eqn:B2].
    - split; [|cbn; rewrite Nat.add_0_r; repeat split; auto; lia]. constructor; cbn [rb_rules rb_raw rb_herm rb_mono]; try apply S2; [constructor|].
      intros v A. rewrite (solves_app R), (Eq1 v A), (Eq2 v A). split; [intros [_ H]; split; [exact H|easy]|intros [H _]; split; [easy|exact H]].
    - split; [|rewrite B1; cbn; repeat split; auto; lia]. constructor; try apply S1. intros v A. rewrite (solves_app R), (Eq1 v A), (Eq2 v A), B1, E1.
      split; [intros [H _]; split; [exact H|easy]|intros [H _]; split; [exact H|easy]].
    - rewrite <- B1, <- B2 in *. pose proof (g_rule R F _ (st_good _ _ S2)) as Go.
      assert (S3 : state (set_raw b (map (as_polynomial F) (by_id (rb_rules other)))) (eqs ++ eqs')).
      { constructor; cbn [set_raw rb_rules rb_raw rb_herm rb_mono]; try apply S1.
        - apply Forall_forall. intros q Hq. apply in_map_iff in Hq as [r [<- Hr]]. apply as_poly_ok, Go, by_id_in, Hr.
        - intros v A. rewrite (solves_app R), (Eq1 v A), (Eq2 v A), (obeys_polys _ v Go). reflexivity. }
      assert (L := complete_spec fuel _ _ S3). assert (Lk' : locked (set_raw b (map (as_polynomial F) (by_id (rb_rules other)))) = false) by exact Lk.
      rewrite Lk' in L. destruct (complete F psrt fuel _) as [b' n|b'| |].
      + destruct L as [L1 [L2 [L3 _]]]. split; [exact L1|]. split; [exact L2|]. split; [exact L3|]. repeat split; auto. lia.
      + destruct L as [[L _]|[_ [L [L1 [L2 [L3 [L4 L5]]]]]]]; [discriminate|]. split; [|now right; right; right; right]. apply unchanged_eq. unfold unchanged. cbn [rb_rules rb_raw rb_mono rb_herm rb_safe rb_uses rb_expand].
        rewrite L1, L2, L3, L4, L5, E1. cbn. auto 10.
      + exact L.
      + cbn [set_raw rb_raw] in L. rewrite map_length, <- (Permutation_length (by_id_perm (rb_rules other))) in L. exact L.
  Qed.
  Theorem session_state b eqs : session F psrt b eqs -> state b eqs.
  Proof.
    intro H. induction H as [safe|b eqs ps b' n H IH C E|b eqs fuel b' n H IH E|b eqs other eqs' fuel b' n H IH H' IH' E|b eqs other eqs' fuel b' H IH H' IH' E|b eqs H IH|b eqs H IH|b eqs H IH].
    - constructor; cbn; auto; [apply good_nil|]. intros v A. split; [intro H; split; [easy|exact H]|now intros [_ H]].
    - unfold add_raw_rules in E. destruct (locked b); [discriminate|]. injection E as <- <-. constructor; cbn [set_raw rb_rules rb_raw rb_herm rb_mono]; try apply IH.
      + apply Forall_app. split; [apply IH|exact C].
      + intros v A. rewrite !(solves_app R), (st_same _ _ IH v A). tauto.
    - pose proof (complete_spec fuel b eqs IH) as L. rewrite E in L. apply L.
    - pose proof (combine_spec fuel b eqs other eqs' IH IH') as L. rewrite E in L. apply L.
    - pose proof (combine_spec fuel b eqs other eqs' IH IH') as L. rewrite E in L. destruct L as [-> _]. exact IH.
    - constructor; apply IH.
    - constructor; apply IH.
    - constructor; apply IH.
  Qed.

  (** ** substituting decides *)
  Lemma reduce_decides rules p q : good rules -> canon p -> canon q ->
    (reduce F rules p = reduce F rules q <-> forall v, asg v -> obeys v rules -> value v p = value v q).
  Proof.
    intros G Cp Cq. pose proof (good_ok R F rules G) as K. split.
    - intros E v A O. rewrite <- (reduced_zero R F FO rules p v G Cp A O), <- (reduced_zero R F FO rules q v G Cq A O), E. reflexivity.
    - intro H. apply (unique R F FO); [now apply (reduce_canonical R F FO)|now apply (reduce_canonical R F FO)|]. intros u A.
      rewrite !(reduce_value R F FO u rules) by assumption. apply H; [apply (subst_asg R F); [apply G|exact A]|now apply (subst_obeys R F FO)].
  Qed.
  Lemma reduce_idem rules p : good rules -> canon p -> reduce F rules (reduce F rules p) = reduce F rules p.
  Proof.
    intros G C. assert (Cr := reduce_canonical R F FO rules p (good_ok R F rules G) C). apply (reduce_decides rules _ p G Cr C). intros v A O. now apply (reduced_zero R F FO).
  Qed.
  Lemma mono_canon x : canon [x] -> poly_of_mono x = [x].
  Proof.
    intro C. destruct (cp_terms t lt _ C x (or_introl eq_refl)) as [_ [Nf [N0 _]]]. unfold poly_of_mono. apply Nat.eqb_neq in N0. rewrite N0. cbn.
    destruct (is_zero (m_f x)) eqn:Z; [apply (is_zero_true R) in Z; contradiction|reflexivity].
  Qed.
  Lemma reduce_mono_eq rules x : good rules -> canon [x] -> reduce_mono F rules x = reduce F rules [x].
  Proof.
    intros G C. unfold reduce_mono, reduce, any_match, reduce_terms. cbn [existsb flat_map]. destruct (find_rule rules (m_id x)) as [r|] eqn:E.
    - cbn [orb]. rewrite app_nil_r. unfold rule_reduce_mono. apply find_in in E as [_ E]. rewrite E, Nat.eqb_refl. reflexivity.
    - cbn [orb]. now apply mono_canon.
  Qed.
  Lemma fix_term_value u x : asg u -> in_table t x -> term_value u (fix_term t x) = term_value u x.
  Proof.
    intros A K. assert (Q : value u (map (fix_term t) [x]) = value u [x]) by (apply (fix_value R t); [exact A|constructor; [exact K|constructor]]).
    cbn [map] in Q. now rewrite !(value_one R) in Q.
  Qed.
  Lemma reduce_monomial_spec rules x : good rules -> canon [x] -> match reduce_monomial F rules x with
    | Some y => reduce F rules [x] = poly_of_mono y
    | None => exists r, In r rules /\ ru_lhs r = m_id x /\ 1 < length (ru_rhs r) end.
  Proof.
    intros G C. assert (K := good_ok R F rules G). unfold reduce_monomial. destruct (find_rule rules (m_id x)) as [r|] eqn:E.
    - destruct (find_in R rules _ r E) as [Hr Er]. destruct (Nat.leb_spec (length (ru_rhs r)) 1) as [L|L]; [|eauto].
      destruct (cp_terms t lt _ C x (or_introl eq_refl)) as [Kx [Nf [N0 Hc]]]. assert (Crd := reduce_canonical R F FO rules [x] K C).
      assert (V : forall u, asg u -> value u (reduce F rules [x]) = cmul (m_f x) (if m_cj x then cconj (value u (ru_rhs r)) else value u (ru_rhs r))).
      { intros u A. rewrite (reduce_value R F FO u rules [x] K C A), (value_one R). unfold term_value, RuleBookProofs.subst. now rewrite E. }
      unfold rule_reduce_monomial. rewrite Er, Nat.eqb_refl. cbn [negb]. destruct (ru_rhs r) as [|y l] eqn:Q.
      + cbn [poly_of_mono m_id Nat.eqb negb andb]. unfold poly_of_mono. cbn. apply (unique R F FO); [exact Crd|apply nil_canonical|]. intros u A. rewrite (V u A). cbn. destruct (m_cj x); rewrite ?(cconj_0 R); ring.
      + destruct l as [|z l]; [|cbn in L; lia]. assert (Cy : canon [y]) by (rewrite <- Q; now apply K). destruct (cp_terms t lt _ Cy y (or_introl eq_refl)) as [Ky [Nfy [N0y Hcy]]].
        set (w := if m_cj x then mk_mono (m_id y) (negb (m_cj y)) (cmul (m_f x) (cconj (m_f y))) else mk_mono (m_id y) (m_cj y) (cmul (m_f x) (m_f y))).
        assert (Idw : m_id w = m_id y) by (unfold w; destruct (m_cj x); reflexivity). assert (Kw : in_table t w) by (unfold in_table; rewrite Idw; exact Ky).
        assert (Nw : m_f w <> c0) by (unfold w; destruct (m_cj x); cbn; apply (mul_nonzero R); auto; now apply (conj_nonzero R)).
        assert (Ew : make_canonical F w = fix_term t w). { unfold make_canonical. rewrite Idw. apply Nat.eqb_neq in N0y. now rewrite N0y. }
        fold w. rewrite Ew. set (z := fix_term t w). assert (Idz : m_id z = m_id y) by (unfold z; now rewrite fix_term_id).
        assert (Cz : canon [z]).
        { apply (canon_one R F).
          - unfold in_table. rewrite Idz. exact Ky.
          - unfold z, fix_term. destruct (herm t (m_id w)); cbn [m_id m_cj m_f]; [|destruct (anti t (m_id w) && m_cj w); cbn; [now apply (opp_nonzero R)|exact Nw]].
            destruct (anti t (m_id w) && false); cbn; [now apply (opp_nonzero R)|exact Nw].
          - now rewrite Idz.
          - rewrite Idz. intro H. unfold z, fix_term. rewrite Idw. destruct (herm t (m_id y)) eqn:Hh; cbn [m_id m_cj].
            + destruct (anti t (m_id y) && false); reflexivity.
            + destruct H as [H|H]; [discriminate|]. rewrite Idw, H. cbn [andb]. destruct (m_cj w) eqn:Cw; [reflexivity|exact Cw]. }
        rewrite (mono_canon z Cz). apply (unique R F FO); [exact Crd|exact Cz|]. intros u A. rewrite (V u A), !(value_one R). unfold z. rewrite (fix_term_value u w A Kw).
        unfold w, term_value. destruct (m_cj x); cbn [m_id m_cj m_f]; [|destruct (m_cj y); ring]. rewrite (cconj_mul R). destruct (m_cj y); cbn [negb]; rewrite ?(cconj_conj R); ring.
    - rewrite (mono_canon x C). unfold reduce, any_match. cbn [existsb]. rewrite E. reflexivity.
  Qed.

  (** ** comparing *)
  Lemma nontrivial r u : good_rule r -> asg u -> exists z, asg (upd R u (ru_lhs r) z) /\ z <> value (upd R u (ru_lhs r) z) (ru_rhs r).
  Proof.
    intros [[L1 L] Cr [k Sk] [Fh Fa]] A.
    pose proof Sk as [Lo [Ck Sk']]. destruct (ru_partial r) eqn:P.
          - destruct Sk' as [Er [Ne [Nh [Na Re]]]]. exists (cadd (value u k) (ru_dir r)). split; [now apply (zero_asg R F)|].
            rewrite Er, (value_app R), (tail2_value R), (upd_same R), (value_upd R F FO u _ _ k L (canon_ok R F k Ck) Lo). intro H.
            pose proof (turned R (ru_dir r) _ Ne (Re u A)) as Tk. pose proof Ne as Ne'. apply (norm1 R) in Ne'. apply (unit_ne R (ru_dir r) Ne).
            transitivity (csub (cadd (value u k) (ru_dir r)) (value u k)); [ring|]. rewrite H at 1. rewrite (cconj_add R).
            transitivity (cmul half (csub (cadd (value u k) (ru_dir r)) (cadd (cmul (cmul (ru_dir r) (ru_dir r)) (cconj (value u k))) (cmul (ru_dir r) (cmul (ru_dir r) (cconj (ru_dir r))))))); [ring|].
            rewrite Tk, Ne'. ring.
          - exists (cadd (value u k) (if anti t (ru_lhs r) then ci else c1)). rewrite Sk' in *. split.
            + apply (upd_asg R F); auto; intro H.
              * destruct (anti t (ru_lhs r)) eqn:Ha; [exfalso; apply (fo_null F FO (ru_lhs r)); auto; lia|]. cbn. rewrite (Fh H u A). ring.
              * rewrite H. cbn. rewrite (Fa H u A). ring.
            + rewrite (value_upd R F FO u _ _ k L (canon_ok R F k Ck) Lo). intro H. assert (Q' : (if anti t (ru_lhs r) then ci else c1) = @c0 R).
              { transitivity (csub (cadd (value u k) (if anti t (ru_lhs r) then ci else c1)) (value u k)); [ring|]. rewrite H. ring. }
              destruct (anti t (ru_lhs r)); [apply (f_equal cim) in Q'; cbn in Q'; apply (F_1_neq_0 (r_field R)); exact Q'|exact (c1_neq_0 R Q')].
  Qed.
  Lemma contained_iff a b : good a -> good b -> (first_noncontained F a b = None <-> forall v, asg v -> obeys v a -> obeys v b).
  Proof.
    intros Ga Gb. pose proof (g_rule R F b Gb) as Gr.
    assert (One : forall r, In r b -> (reduce F a (as_polynomial F r) = [] <-> forall v, asg v -> obeys v a -> v (ru_lhs r) = value v (ru_rhs r))).
    { intros r Hr. destruct (as_poly_ok r (Gr r Hr)) as [C V]. pose proof (reduce_decides a _ [] Ga C (nil_canonical R t lt)) as D. change (reduce F a []) with (@nil mono) in D. rewrite D.
      split; intros H v A O; specialize (H v A O).
      - rewrite V in H. cbn in H. transitivity (csub (value v (ru_rhs r)) (csub (value v (ru_rhs r)) (v (ru_lhs r)))); [ring|]. rewrite H. ring.
      - rewrite V, H. cbn. ring. }
    assert (All : (forall r, In r b -> reduce F a (as_polynomial F r) = []) <-> forall v, asg v -> obeys v a -> obeys v b).
    { split.
      - intros H v A O r Hr. now apply (proj1 (One r Hr) (H r Hr)).
      - intros H r Hr. apply One; [exact Hr|]. intros v A O. now apply (H v A O). }
    rewrite <- All. unfold first_noncontained. destruct (by_id b) as [|r l] eqn:E.
    - split; [|reflexivity]. intros _ r Hr. apply (proj2 (by_id_in _ _)) in Hr. rewrite E in Hr. destruct Hr.
    - destruct a as [|a0 a].
      + split; [discriminate|]. intro H. exfalso. assert (Hr : In r b) by (apply by_id_in; rewrite E; now left). specialize (H r Hr).
        destruct (asg_exists R F FO) as [u A]. destruct (nontrivial r u (Gr r Hr) A) as [z [Az Nz]].
        pose proof (proj1 (One r Hr) H) as Q. apply Nz. rewrite <- (Q _ Az); [now rewrite (upd_same R)|easy].
      + rewrite <- E. split.
        * intros H r' Hr'. apply (proj2 (by_id_in _ _)) in Hr'. apply (find_none _ _ H) in Hr'. destruct (reduce F (a0 :: a) (as_polynomial F r')); [reflexivity|discriminate].
        * intro H. destruct (find _ (by_id b)) as [r'|] eqn:Q; [|reflexivity]. apply find_some in Q as [Q1 Q2]. apply (proj1 (by_id_in _ _)) in Q1. rewrite (H r' Q1) in Q2. discriminate.
  Qed.
  Lemma noncontained_some a b r : good a -> good b -> first_noncontained F a b = Some r -> In r b /\ ~ (forall v, asg v -> obeys v a -> v (ru_lhs r) = value v (ru_rhs r)).
  Proof.
    intros Ga Gb H. unfold first_noncontained in H. destruct (by_id b) as [|x l] eqn:E; [discriminate|]. destruct a as [|a0 a].
    - injection H as <-. assert (Hr : In x b) by (apply by_id_in; rewrite E; now left). split; [exact Hr|]. intro Q. destruct (asg_exists R F FO) as [u A].
      destruct (nontrivial x u (g_rule R F b Gb x Hr) A) as [z [Az Nz]]. apply Nz. rewrite <- (Q _ Az); [now rewrite (upd_same R)|easy].
    - rewrite <- E in H. apply find_some in H as [H1 H2]. apply (proj1 (by_id_in _ _)) in H1. split; [exact H1|]. intro Q. destruct (as_poly_ok r (g_rule R F b Gb r H1)) as [C V].
      assert (Z : reduce F (a0 :: a) (as_polynomial F r) = reduce F (a0 :: a) []); [|rewrite Z in H2; discriminate].
      apply (reduce_decides (a0 :: a) _ [] Ga C (nil_canonical R t lt)). intros v A O. rewrite V, (Q v A O). cbn. ring.
  Qed.
End Final.
