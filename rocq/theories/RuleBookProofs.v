(** Proofs about sets of moment rules: substitution, and entering a rule. *)
From Coq Require Import List NArith ZArith Arith Bool Sorted Permutation Lia Ring Field.
From Verif Require Import CoreModel FieldModel FieldProofs SymModel SymSpec PolyModel PolySpec PolyProofs PolyOpsProofs PolyTableProofs PolyFinalProofs RuleModel RuleSpec RuleProofs RuleMakeProofs RuleOrientProofs.
Import ListNotations.

Section Book.
  Variable R : rfield.
  Add Field Rf : (r_field R).
  Add Field Cf : (cx_field R).
  Notation mono := (mono R).
  Notation rule := (rule R).
  Variable F : factory R.
  Hypothesis FO : factory_ok F.
  Notation t := (fa_table F).
  Notation lt := (fa_lt F).
  Notation srt := (fa_sort F).
  Notation ok := (@in_table R t).
  Notation len := (length (t_syms t)).
  Notation canon := (canonical t lt).
  Notation asg := (assignment (R := R) t).
  Notation lower := (lower R F).
  Notation within := (within R).
  Notation made_ok := (made_ok R F).
  Notation shaped := (shaped R F).
  Notation fits := (fits R F).
  Notation tail2 := (tail2 R).
  Implicit Types (u v w : nat -> cx R) (p q : list mono) (rules : list rule).
  Let HO := fo_order F FO.
  Let HS := fo_sort F FO.

  (** ** substitution *)
  Definition subst rules u (id : nat) : cx R := match find_rule rules id with Some r => value u (ru_rhs r) | None => u id end.
  Lemma transformed_value u (r : rule) (x : mono) :
    value u (transformed r x) = cmul (m_f x) (if m_cj x then cconj (value u (ru_rhs r)) else value u (ru_rhs r)).
  Proof.
    unfold transformed. destruct (m_cj x); induction (ru_rhs r) as [|y l IH]; cbn [map]; rewrite ?(value_cons R), ?IH.
    - cbn. rewrite (cconj_0 R). ring.
    - rewrite (cconj_add R). unfold term_value. cbn [m_id m_cj m_f]. rewrite (cconj_mul R). destruct (m_cj y); cbn [negb]; rewrite ?(cconj_conj R); ring.
    - cbn. ring.
    - unfold term_value. cbn [m_id m_cj m_f]. destruct (m_cj y); ring.
  Qed.
  Lemma transformed_ids (Q : nat -> Prop) (r : rule) (x : mono) : within Q (ru_rhs r) -> within Q (transformed r x).
  Proof. intros W y. unfold transformed. destruct (m_cj x); intro H; apply in_map_iff in H as [z [<- Hz]]; exact (W z Hz). Qed.
  Lemma ok_within p : Forall ok p <-> within (fun i => i < len) p.
  Proof. rewrite Forall_forall. reflexivity. Qed.
  Definition rhs_ok rules : Prop := forall r, In r rules -> canon (ru_rhs r).
  Lemma find_in rules id r : find_rule rules id = Some r -> In r rules /\ ru_lhs r = id.
  Proof. unfold find_rule. intro H. apply find_some in H as [A B]. apply Nat.eqb_eq in B. auto. Qed.
  Lemma find_not rules id : find_rule rules id = None <-> forall r, In r rules -> ru_lhs r <> id.
  Proof.
    unfold find_rule. split.
    - intros H r Hr E. apply (find_none _ _ H) in Hr. apply Nat.eqb_neq in Hr. contradiction.
    - intro H. destruct (find _ rules) as [r|] eqn:E; [|reflexivity]. apply find_some in E as [A B]. apply Nat.eqb_eq in B. now apply H in B.
  Qed.
  Lemma reduce_terms_value u rules p : value u (reduce_terms rules p) = value (subst rules u) p.
  Proof.
    induction p as [|x p IH]; [reflexivity|]. unfold reduce_terms in *. cbn [flat_map]. rewrite (value_app R), (value_cons R), IH. f_equal.
    unfold term_value, subst. destruct (find_rule rules (m_id x)) as [r|]; [apply transformed_value|apply (value_one R)].
  Qed.
  (** the symbols of the reduced polynomial *)
  Lemma reduce_terms_within (Q : nat -> Prop) rules p : (forall x, In x p -> find_rule rules (m_id x) = None -> Q (m_id x)) ->
    (forall x r, In x p -> find_rule rules (m_id x) = Some r -> within Q (ru_rhs r)) -> within Q (reduce_terms rules p).
  Proof.
    intros A B y Hy. unfold reduce_terms in Hy. apply in_flat_map in Hy as [x [Hx Hy]]. destruct (find_rule rules (m_id x)) as [r|] eqn:E.
    - exact (transformed_ids Q r x (B x r Hx E) y Hy).
    - destruct Hy as [<-|[]]. now apply A.
  Qed.
  Lemma reduce_terms_ok rules p : rhs_ok rules -> canon p -> Forall ok (reduce_terms rules p).
  Proof.
    intros K C. apply ok_within. apply reduce_terms_within.
    - intros x Hx _. now apply (cp_terms t lt _ C x Hx).
    - intros x r Hx E. apply find_in in E as [E _]. apply ok_within, (canon_ok R F). now apply K.
  Qed.
  Lemma no_match rules p : any_match rules p = false -> forall x, In x p -> find_rule rules (m_id x) = None.
  Proof.
    intros H x Hx. destruct (find_rule rules (m_id x)) eqn:E; [|reflexivity]. assert (T : any_match rules p = true); [|congruence].
    apply existsb_exists. exists x. split; [exact Hx|]. now rewrite E.
  Qed.
  Lemma reduce_canonical rules p : rhs_ok rules -> canon p -> canon (reduce F rules p).
  Proof.
    intros K C. unfold reduce. destruct (any_match rules p); [|exact C]. apply (make_poly_canonical R t lt HO srt HS). now apply reduce_terms_ok.
  Qed.
  Lemma reduce_value u rules p : rhs_ok rules -> canon p -> asg u -> value u (reduce F rules p) = value (subst rules u) p.
  Proof.
    intros K C A. unfold reduce. destruct (any_match rules p) eqn:E.
    - rewrite (make_poly_value R t lt srt HS); [apply reduce_terms_value|now apply reduce_terms_ok|exact A].
    - apply (value_ext R). intros x Hx. unfold subst. now rewrite (no_match rules p E x Hx).
  Qed.
  Lemma reduce_within (Q : nat -> Prop) rules p : rhs_ok rules -> canon p -> (forall x, In x p -> find_rule rules (m_id x) = None -> Q (m_id x)) ->
    (forall x r, In x p -> find_rule rules (m_id x) = Some r -> within Q (ru_rhs r)) -> within Q (reduce F rules p).
  Proof.
    intros K C A B. unfold reduce. destruct (any_match rules p) eqn:E.
    - apply (within_build R F FO); [now apply reduce_terms_ok|]. now apply reduce_terms_within.
    - intros x Hx. apply A; [exact Hx|]. exact (no_match rules p E x Hx).
  Qed.

  (** ** one rule *)
  Lemma match_none id p : match_info id p = None -> forall x, In x p -> m_id x <> id.
  Proof.
    induction p as [|y p IH]; intros H x Hx; [destruct Hx|]. cbn in H. destruct (Nat.eqb_spec (m_id y) id) as [E|E].
    - destruct p as [|z p]; [discriminate|]. destruct (m_id z =? id); discriminate.
    - destruct (match_info id p) as [[[[pre a] b] post]|]; [discriminate|]. destruct Hx as [<-|Hx]; [exact E|now apply IH].
  Qed.
  Lemma match_some id p pre a b post : match_info id p = Some (pre, a, b, post) ->
    p = pre ++ a :: (match b with Some y => [y] | None => [] end) ++ post /\ m_id a = id /\ (forall y, b = Some y -> m_id y = id) /\
    (forall x, In x pre -> m_id x <> id) /\ (b = None -> match post with [] => True | y :: _ => m_id y <> id end).
  Proof.
    revert pre a b post. induction p as [|x p IH]; intros pre a b post H; [discriminate|]. cbn in H. destruct (Nat.eqb_spec (m_id x) id) as [E|E].
    - destruct p as [|y p].
      + injection H as <- <- <- <-. repeat split; auto; easy.
      + destruct (Nat.eqb_spec (m_id y) id) as [E'|E']; injection H as <- <- <- <-; (repeat split; auto; try easy).
        intros z [= <-]. exact E'.
    - destruct (match_info id p) as [[[[pre' a'] b'] post']|]; [|discriminate]. injection H as <- <- <- <-.
      destruct (IH _ _ _ _ eq_refl) as [A [B [C [D G]]]]. repeat split; auto.
      + cbn. now rewrite A at 1.
      + intros z [<-|Hz]; [exact E|now apply D].
  Qed.
  Lemma match_post id p pre a b post : canon p -> match_info id p = Some (pre, a, b, post) -> forall x, In x post -> m_id x <> id.
  Proof.
    intros C H x Hx Ex. destruct (match_some _ _ _ _ _ _ H) as [Ep [Ea [Eb [_ Eh]]]]. rewrite Ep in C. clear Ep H.
    apply (canon_app R F) in C as [_ C]. pose proof (canon_ok R F _ C) as K. rewrite Forall_forall in K. pose proof (cp_sorted t lt _ C) as S1.
    destruct b as [y|].
    - cbn [app] in S1, K. apply StronglySorted_inv in S1 as [S2 F1]. apply StronglySorted_inv in S2 as [S3 F2]. rewrite Forall_forall in F1, F2.
      assert (Ky : ok y) by (apply K; right; now left). assert (Kx : ok x) by (apply K; right; now right). assert (Ka : ok a) by (apply K; now left).
      pose proof (Eb y eq_refl) as E'.
      destruct (lt_pair R t lt HO a y Ka Ky (F1 y (or_introl eq_refl)) ltac:(congruence)) as [_ Y].
      destruct (lt_pair R t lt HO y x Ky Kx (F2 x Hx) ltac:(congruence)) as [Y' _]. congruence.
    - cbn [app] in S1, K. specialize (Eh eq_refl). destruct post as [|y post]; [destruct Hx|]. apply StronglySorted_inv in S1 as [S2 F1]. apply StronglySorted_inv in S2 as [S3 F2].
      rewrite Forall_forall in F1, F2. destruct Hx as [<-|Hx]; [contradiction|].
      assert (Ky : ok y) by (apply K; right; now left). assert (Kx : ok x) by (apply K; right; now right). assert (Ka : ok a) by (apply K; now left).
      assert (Q1 := F1 y (or_introl eq_refl)). assert (Q2 := F2 x Hx).
      apply (proj1 (lt_key R F FO a y Ka Ky ltac:(congruence))) in Q1. apply (proj1 (lt_key R F FO y x Ky Kx ltac:(congruence))) in Q2. rewrite Ex, <- Ea in Q2.
      rewrite (key_asym R F FO _ _ Ka Ky Q1) in Q2. discriminate.
  Qed.
  Lemma rule_reduce_list (r : rule) p : canon p -> exists l, rule_reduce F r p = (if match match_info (ru_lhs r) p with Some _ => true | None => false end then make_poly t srt l else p) /\
    (forall Q, within Q l <-> within Q (reduce_terms [r] p)) /\ forall u, value u l = value (subst [r] u) p.
  Proof.
    intro C. unfold rule_reduce. destruct (match_info (ru_lhs r) p) as [[[[pre a] b] post]|] eqn:E.
    - eexists. split; [reflexivity|]. pose proof (match_post _ _ _ _ _ _ C E) as P. destruct (match_some _ _ _ _ _ _ E) as [Ep [Ea [Eb [D _]]]].
      assert (N : forall l, (forall x, In x l -> m_id x <> ru_lhs r) -> reduce_terms [r] l = l).
      { induction l as [|x l IH]; intro H; [reflexivity|]. unfold reduce_terms in *. cbn [flat_map]. rewrite IH by (intros y Hy; apply H; now right).
        unfold find_rule. cbn [find]. destruct (Nat.eqb_spec (ru_lhs r) (m_id x)) as [G|G]; [|reflexivity]. exfalso. apply (H x (or_introl eq_refl)). now symmetry. }
      assert (H1 : forall x : mono, m_id x = ru_lhs r -> find_rule [r] (m_id x) = Some r) by (intros x Hx; unfold find_rule; cbn [find]; now rewrite Hx, Nat.eqb_refl).
      assert (Q : pre ++ transformed r a ++ match b with Some y => transformed r y | None => [] end ++ post = reduce_terms [r] p).
      { rewrite Ep. unfold reduce_terms at 1. rewrite flat_map_app. cbn [flat_map]. rewrite flat_map_app. fold (reduce_terms [r] pre). fold (reduce_terms [r] post).
        rewrite (N pre D), (N post P), (H1 a Ea). destruct b as [y|]; [|reflexivity]. cbn [flat_map]. rewrite (H1 y (Eb y eq_refl)), app_nil_r. reflexivity. }
      rewrite Q. split; [reflexivity|]. intro u. apply reduce_terms_value.
    - exists p. split; [reflexivity|]. pose proof (match_none _ _ E) as M.
      assert (Nf : forall x, In x p -> find_rule [r] (m_id x) = None).
      { intros x Hx. unfold find_rule. cbn [find]. destruct (Nat.eqb_spec (ru_lhs r) (m_id x)) as [G|G]; [|reflexivity]. exfalso. apply (M x Hx). now symmetry. }
      assert (Q : reduce_terms [r] p = p).
      { clear C E M. induction p as [|x p IH]; [reflexivity|]. unfold reduce_terms in *. cbn [flat_map]. rewrite (Nf x (or_introl eq_refl)), IH; [reflexivity|]. intros y Hy. apply Nf. now right. }
      rewrite Q. split; [reflexivity|]. intro u. apply (value_ext R). intros x Hx. unfold subst. now rewrite (Nf x Hx).
  Qed.
  Lemma one_ok (r : rule) : canon (ru_rhs r) -> rhs_ok [r]. Proof. intros C x [<-|[]]. exact C. Qed.
  Lemma rule_reduce_canonical (r : rule) p : canon (ru_rhs r) -> canon p -> canon (rule_reduce F r p).
  Proof.
    intros K C. destruct (rule_reduce_list r p C) as [l [E [W _]]]. rewrite E. destruct (match match_info _ _ with Some _ => _ | None => _ end); [|exact C].
    apply (make_poly_canonical R t lt HO srt HS). apply ok_within, W, ok_within, reduce_terms_ok; [now apply one_ok|exact C].
  Qed.
  Lemma rule_reduce_value u (r : rule) p : canon (ru_rhs r) -> canon p -> asg u -> value u (rule_reduce F r p) = value (subst [r] u) p.
  Proof.
    intros K C A. destruct (rule_reduce_list r p C) as [l [E [W V]]]. rewrite E. destruct (match_info (ru_lhs r) p) eqn:M.
    - rewrite (make_poly_value R t lt srt HS); [apply V| |exact A]. apply ok_within, W, ok_within, reduce_terms_ok; [now apply one_ok|exact C].
    - apply (value_ext R). intros x Hx. unfold subst, find_rule. cbn [find]. destruct (Nat.eqb_spec (ru_lhs r) (m_id x)) as [G|G]; [|reflexivity].
      exfalso. apply (match_none _ _ M x Hx). now symmetry.
  Qed.
  Lemma rule_reduce_within (Q : nat -> Prop) (r : rule) p : canon (ru_rhs r) -> canon p -> within Q (ru_rhs r) -> (forall x, In x p -> m_id x <> ru_lhs r -> Q (m_id x)) -> within Q (rule_reduce F r p).
  Proof.
    intros K C A B. destruct (rule_reduce_list r p C) as [l [E [W V]]]. rewrite E. destruct (match_info (ru_lhs r) p) eqn:M.
    - apply (within_build R F FO); [apply ok_within, W, ok_within, reduce_terms_ok; [now apply one_ok|exact C]|]. apply W. apply reduce_terms_within.
      + intros x Hx Hn. apply B; [exact Hx|]. apply find_not with (r := r) in Hn; [congruence|now left].
      + intros x r' Hx Hr. apply find_in in Hr as [[<-|[]] _]. exact A.
    - intros x Hx. apply B; [exact Hx|]. exact (match_none _ _ M x Hx).
  Qed.

  (** ** good sets of rules *)
  Definition before (a b : rule) : Prop := key_less F (ru_lhs a) (ru_lhs b) = true.
  Record good_rule (r : rule) : Prop := mk_good_rule {
    gr_lhs : 1 < ru_lhs r /\ ru_lhs r < len;
    gr_canon : canon (ru_rhs r);
    gr_shape : exists k, shaped r k;
    gr_fits : fits (ru_lhs r) (ru_rhs r) }.
  Definition invariant rules p : Prop := forall u, asg u -> value (subst rules u) p = value u p.
  Record good rules : Prop := mk_good {
    g_sorted : StronglySorted before rules;
    g_rule : forall r, In r rules -> good_rule r;
    g_free : forall r, In r rules -> within (fun i => ~ determined rules i) (ru_rhs r);
    g_inv : forall r, In r rules -> invariant rules (ru_rhs r) }.
  Lemma good_ok rules : good rules -> rhs_ok rules. Proof. intros G r Hr. now apply (g_rule rules G r Hr). Qed.
  Lemma good_nil : good []. Proof. constructor; [constructor|easy|easy|easy]. Qed.
  Lemma subst_asg rules u : (forall r, In r rules -> good_rule r) -> asg u -> asg (subst rules u).
  Proof.
    intros G A. assert (N : forall i, i <= 1 -> find_rule rules i = None). { intros i Hi. apply find_not. intros r Hr E. destruct (gr_lhs r (G r Hr)). lia. }
    constructor.
    - unfold subst. rewrite N by lia. apply A.
    - unfold subst. rewrite N by lia. apply A.
    - intros i s E Hs. unfold subst. destruct (find_rule rules i) as [r|] eqn:Q; [|now apply (as_herm t u A i s E)]. apply find_in in Q as [Q <-].
      apply (gr_fits r (G r Q)); [now rewrite (herm_sym t _ s E)|exact A].
    - intros i s E Hs. unfold subst. destruct (find_rule rules i) as [r|] eqn:Q; [|now apply (as_anti t u A i s E)]. apply find_in in Q as [Q <-].
      apply (gr_fits r (G r Q)); [now rewrite (anti_sym t _ s E)|exact A].
  Qed.
  Lemma subst_idem rules u i : good rules -> asg u -> subst rules (subst rules u) i = subst rules u i.
  Proof.
    intros G A. unfold subst at 1 3. destruct (find_rule rules i) as [r|] eqn:E; [|unfold subst; now rewrite E]. apply find_in in E as [E _]. now apply (g_inv rules G r E).
  Qed.
  Lemma reduce_invariant rules p : good rules -> canon p -> invariant rules (reduce F rules p).
  Proof.
    intros G C u A. pose proof (good_ok rules G) as K. pose proof (subst_asg rules u (g_rule rules G) A) as A'.
    rewrite !(reduce_value _ rules p K C) by assumption. apply (value_ext R). intros x _. now apply subst_idem.
  Qed.
  Lemma reduce_free rules p : good rules -> canon p -> within (fun i => ~ determined rules i) (reduce F rules p).
  Proof.
    intros G C. apply reduce_within; [now apply good_ok|exact C| |].
    - intros x _ E [r [Hr [Er _]]]. exact (proj1 (find_not rules (m_id x)) E r Hr Er).
    - intros x r _ E. apply find_in in E as [E _]. now apply (g_free rules G).
  Qed.
  Lemma sorted_find rules : (forall r, In r rules -> good_rule r) -> StronglySorted before rules -> forall r, In r rules -> find_rule rules (ru_lhs r) = Some r.
  Proof.
    intros G S1. induction S1 as [|a rules S1 IH Fa]; intros r Hr; [destruct Hr|]. unfold find_rule. cbn [find]. destruct Hr as [->|Hr]; [now rewrite Nat.eqb_refl|].
    rewrite Forall_forall in Fa. specialize (Fa r Hr). destruct (Nat.eqb_spec (ru_lhs a) (ru_lhs r)) as [E|E].
    - exfalso. apply (key_neq R F FO (ru_lhs a) (ru_lhs r)); [apply G; now left|exact Fa|exact E].
    - apply IH; [intros x Hx; apply G; now right|exact Hr].
  Qed.
  Lemma obeys_iff rules v : (forall r, In r rules -> good_rule r) -> StronglySorted before rules -> (obeys v rules <-> forall i, subst rules v i = v i).
  Proof.
    intros G S1. split.
    - intros O i. unfold subst. destruct (find_rule rules i) as [r|] eqn:E; [|reflexivity]. apply find_in in E as [E <-]. symmetry. now apply O.
    - intros H r Hr. rewrite <- (H (ru_lhs r)). unfold subst. now rewrite (sorted_find rules G S1 r Hr).
  Qed.
  Lemma subst_obeys rules u : good rules -> asg u -> obeys (subst rules u) rules.
  Proof. intros G A. apply obeys_iff; [apply G|apply G|]. intro i. now apply subst_idem. Qed.

  (** ** partial rules *)
  Lemma tail2_norm (e x k : cx R) : cnorm e = r1 R -> cim (cmul (cconj e) k) = r0 R ->
    let y := cadd k (cmul half (csub x (cmul (cmul e e) (cconj x)))) in csub y (cmul (cmul e e) (cconj y)) = csub x (cmul (cmul e e) (cconj x)).
  Proof.
    intros N H y. apply (norm1 R) in N. apply (creal_part R) in H. rewrite (cconj_mul R), (cconj_conj R) in H.
    assert (Kc : cmul (cmul e e) (cconj k) = k).
    { replace (cmul (cmul e e) (cconj k)) with (cmul e (cmul e (cconj k))) by ring. rewrite H. replace (cmul e (cmul (cconj e) k)) with (cmul (cmul e (cconj e)) k) by ring. rewrite N. ring. }
    assert (E1 : cmul (cmul e e) (cmul (cconj e) (cconj e)) = c1) by (replace (cmul (cmul e e) (cmul (cconj e) (cconj e))) with (cmul (cmul e (cconj e)) (cmul e (cconj e))) by ring; rewrite N; ring).
    unfold y. rewrite !(cconj_add R), !(cconj_mul R), (cconj_sub R), !(cconj_mul R), (cconj_conj R), (half_conj R).
    replace (csub (cadd k (cmul half (csub x (cmul (cmul e e) (cconj x))))) (cmul (cmul e e) (cadd (cconj k) (cmul half (csub (cconj x) (cmul (cmul (cconj e) (cconj e)) x))))))
      with (cadd (csub k (cmul (cmul e e) (cconj k))) (cmul half (csub (cadd x (cmul (cmul (cmul e e) (cmul (cconj e) (cconj e))) x)) (cmul (cadd c1 c1) (cmul (cmul e e) (cconj x)))))) by ring.
    rewrite Kc, E1. replace (csub (cadd x (cmul c1 x)) (cmul (cadd c1 c1) (cmul (cmul e e) (cconj x)))) with (cmul (cadd c1 c1) (csub x (cmul (cmul e e) (cconj x)))) by ring.
    replace (cadd (csub k k) (cmul half (cmul (cadd c1 c1) (csub x (cmul (cmul e e) (cconj x)))))) with (cmul (cadd half half) (csub x (cmul (cmul e e) (cconj x)))) by ring.
    rewrite (half_half R). ring.
  Qed.
  Lemma shaped_value (r : rule) k u : shaped r k -> value u (ru_rhs r) = cadd (value u k) (if ru_partial r then value u (tail2 (ru_lhs r) (ru_dir r)) else c0).
  Proof.
    intros [_ [_ H]]. destruct (ru_partial r); [destruct H as [-> _]; apply (value_app R)|rewrite H; ring].
  Qed.
  (** the rule alone is a projection *)
  Lemma one_idem (r : rule) u i : good_rule r -> asg u -> subst [r] (subst [r] u) i = subst [r] u i.
  Proof.
    intros G A. destruct (gr_shape r G) as [k Sk]. destruct (gr_lhs r G) as [_ L]. unfold subst at 1 3. unfold find_rule. cbn [find].
    destruct (Nat.eqb_spec (ru_lhs r) i) as [E|E]; [|unfold subst, find_rule; cbn [find]; destruct (Nat.eqb_spec (ru_lhs r) i); [contradiction|reflexivity]].
    rewrite !(shaped_value r k) by exact Sk. destruct Sk as [Lo [Ck Sk]].
    assert (Vk : value (subst [r] u) k = value u k).
    { apply (value_ext R). intros x Hx. unfold subst, find_rule. cbn [find]. destruct (Nat.eqb_spec (ru_lhs r) (m_id x)) as [Q|Q]; [|reflexivity].
      exfalso. apply (lower_neq R F FO (ru_lhs r) k x L (canon_ok R F k Ck) Lo Hx). now symmetry. }
    rewrite Vk. f_equal. destruct (ru_partial r) eqn:P; [|reflexivity]. rewrite !(tail2_value R). f_equal.
    assert (Q : subst [r] u (ru_lhs r) = cadd (value u k) (cmul half (csub (u (ru_lhs r)) (cmul (cmul (ru_dir r) (ru_dir r)) (cconj (u (ru_lhs r))))))).
    { unfold subst, find_rule. cbn [find]. rewrite Nat.eqb_refl. destruct Sk as [-> _]. rewrite (value_app R), (tail2_value R). reflexivity. }
    rewrite Q. apply tail2_norm; [apply Sk|apply Sk; exact A].
  Qed.

  (** ** entering a rule *)
  Definition entered (lo : list rule) (m : rule) (hi : list rule) : list rule := lo ++ m :: map (update_rule F m) hi.
  Lemma update_good (m r : rule) : good_rule m -> good_rule r -> before m r -> good_rule (update_rule F m r) /\ ru_lhs (update_rule F m r) = ru_lhs r /\ ru_partial (update_rule F m r) = ru_partial r.
  Proof.
    intros Gm Gr B. split; [|auto]. pose proof (gr_canon m Gm) as Cm. pose proof (gr_canon r Gr) as Cr. destruct (gr_lhs r Gr) as [L1 L]. destruct (gr_lhs m Gm) as [M1 M].
    assert (One : forall x, In x [m] -> good_rule x) by (intros x [<-|[]]; exact Gm).
    constructor; cbn [update_rule ru_lhs ru_rhs ru_partial ru_dir].
    - now split.
    - now apply rule_reduce_canonical.
    - destruct (gr_shape r Gr) as [k [Lo [Ck Sk]]]. exists (rule_reduce F m k).
      assert (Lk : lower (ru_lhs r) (rule_reduce F m k)).
      { apply (within_lower R F). apply rule_reduce_within; auto. intros x Hx. destruct (gr_shape m Gm) as [km [Lm [_ Sm]]].
        assert (Q : key_less F (m_id x) (ru_lhs m) = true \/ m_id x = ru_lhs m).
        { destruct (ru_partial m); [|rewrite Sm in Hx; left; now apply Lm]. destruct Sm as [Sm _]. rewrite Sm in Hx. apply in_app_or in Hx as [Hx|[<-|[<-|[]]]]; [left; now apply Lm|now right|now right]. }
        destruct Q as [Q| ->]; [|exact B]. apply (key_trans R F FO _ (ru_lhs m)); auto. apply (cp_terms t lt _ Cm x Hx). }
      assert (Ck' : canon (rule_reduce F m k)) by now apply rule_reduce_canonical.
      unfold RuleMakeProofs.shaped. cbn [update_rule ru_lhs ru_rhs ru_partial ru_dir]. split; [exact Lk|]. split; [exact Ck'|]. destruct (ru_partial r) eqn:P; [|now rewrite Sk].
      destruct Sk as [Sk [Ne [Nh [Na Re]]]]. assert (He : ru_dir r <> c0) by now apply (unit_ne R).
      destruct (append_tail R F FO (rule_reduce F m k) (ru_lhs r) (ru_dir r) Ck' Lk L1 L Nh Na He) as [_ Ca].
      split; [|split; [exact Ne|split; [exact Nh|split; [exact Na|]]]].
      + apply (unique R F FO); [now apply rule_reduce_canonical|exact Ca|]. intros u A. rewrite (rule_reduce_value u m _ Cm Cr A), (value_app R), (rule_reduce_value u m k Cm Ck A), Sk, (value_app R).
        f_equal. apply (value_ext R). intros x Hx. assert (Q : m_id x = ru_lhs r) by (destruct Hx as [<-|[<-|[]]]; reflexivity).
        unfold subst, find_rule. cbn [find]. destruct (Nat.eqb_spec (ru_lhs m) (m_id x)) as [G|G]; [|reflexivity]. exfalso. rewrite Q in G. exact (key_neq R F FO _ _ M B G).
      + intros u A. rewrite (rule_reduce_value u m k Cm Ck A). apply Re. now apply subst_asg.
    - destruct (gr_fits r Gr) as [F1 F2]. split; intros H u A; rewrite (rule_reduce_value u m _ Cm Cr A); [apply F1|apply F2]; auto; now apply subst_asg.
  Qed.
  Lemma lower_same (m r : rule) u : good_rule m -> good_rule r -> before r m -> value (subst [m] u) (ru_rhs r) = value u (ru_rhs r).
  Proof.
    intros Gm Gr B. apply (value_ext R). intros x Hx. unfold subst, find_rule. cbn [find]. destruct (Nat.eqb_spec (ru_lhs m) (m_id x)) as [E|E]; [|reflexivity]. exfalso.
    destruct (gr_lhs m Gm) as [_ M]. destruct (gr_lhs r Gr) as [_ L]. destruct (gr_shape r Gr) as [k [Lo [Ck Sk]]].
    assert (Q : key_less F (m_id x) (ru_lhs r) = true \/ m_id x = ru_lhs r).
    { destruct (ru_partial r); [|rewrite Sk in Hx; left; now apply Lo]. destruct Sk as [Sk _]. rewrite Sk in Hx. apply in_app_or in Hx as [Hx|[<-|[<-|[]]]]; [left; now apply Lo|now right|now right]. }
    unfold before in B. destruct Q as [Q|Q]; rewrite <- E in Q.
    - rewrite (key_asym R F FO _ _ M L Q) in B. discriminate.
    - rewrite <- Q in B. rewrite (key_irr R F FO _ M) in B. discriminate.
  Qed.
  Record enters rules (lo : list rule) (m : rule) (hi : list rule) : Prop := mk_enters {
    en_rules : rules = lo ++ hi \/ exists r, rules = lo ++ r :: hi /\ ru_lhs r = ru_lhs m /\ ru_partial m = false;
    en_lo : forall r, In r lo -> before r m;
    en_hi : forall r, In r hi -> before m r;
    en_good : good_rule m;
    en_value : forall u, asg u -> subst rules (subst [m] u) (ru_lhs m) = value u (ru_rhs m);
    en_inv : invariant rules (ru_rhs m);
    en_free : within (fun i => ~ determined rules i) (ru_rhs m) }.
  Lemma en_in rules lo m hi r : enters rules lo m hi -> In r lo \/ In r hi -> In r rules.
  Proof. intros E H. destruct (en_rules _ _ _ _ E) as [->|[r0 [-> _]]]; apply in_or_app; destruct H; auto. right. now right. Qed.
  Lemma sorted_map (f : rule -> rule) l : (forall r, In r l -> ru_lhs (f r) = ru_lhs r) -> StronglySorted before l -> StronglySorted before (map f l).
  Proof.
    intros H S1. induction S1 as [|a l S1 IH Fa]; cbn; constructor; [apply IH; intros; apply H; now right|]. rewrite Forall_forall in *. intros y Hy.
    apply in_map_iff in Hy as [z [<- Hz]]. unfold before. rewrite !H by (try (now left); now right). now apply Fa.
  Qed.
  Lemma enters_sorted rules lo m hi : good rules -> enters rules lo m hi -> StronglySorted before (entered lo m hi).
  Proof.
    intros G E. assert (S1 : StronglySorted before lo /\ StronglySorted before hi).
    { destruct (en_rules _ _ _ _ E) as [Q|[r0 [Q _]]]; pose proof (g_sorted rules G) as S1; rewrite Q in S1; apply sorted_app_inv in S1 as [A [B _]]; split; auto.
      now inversion B. }
    destruct S1 as [S1 S2]. unfold entered.
    assert (S3 : StronglySorted before (map (update_rule F m) hi)) by (apply sorted_map; auto).
    apply sorted_app; [exact S1|constructor; [exact S3|]|].
    - rewrite Forall_forall. intros y Hy. apply in_map_iff in Hy as [z [<- Hz]]. exact (en_hi _ _ _ _ E z Hz).
    - intros x y Hx [<-|Hy]; [now apply (en_lo _ _ _ _ E)|]. apply in_map_iff in Hy as [z [<- Hz]]. unfold before. cbn [update_rule ru_lhs].
      pose proof (g_rule rules G) as Gr. destruct (gr_lhs m (en_good _ _ _ _ E)).
      assert (Lx : ru_lhs x < len) by (apply Gr; apply (en_in rules lo m hi); auto). assert (Lz : ru_lhs z < len) by (apply Gr; apply (en_in rules lo m hi); auto).
      apply (key_trans R F FO _ (ru_lhs m)); auto; [now apply (en_lo _ _ _ _ E)|now apply (en_hi _ _ _ _ E)].
  Qed.
  Lemma enters_rules rules lo m hi : good rules -> enters rules lo m hi -> forall r, In r (entered lo m hi) -> good_rule r.
  Proof.
    intros G E r Hr. unfold entered in Hr. apply in_app_or in Hr as [Hr|[<-|Hr]]; [apply G; apply (en_in rules lo m hi); auto|apply (en_good _ _ _ _ E)|].
    apply in_map_iff in Hr as [z [<- Hz]]. apply update_good; [apply (en_good _ _ _ _ E)|apply G; apply (en_in rules lo m hi); auto|now apply (en_hi _ _ _ _ E)].
  Qed.
  Lemma one_same (m : rule) u : subst [m] u (ru_lhs m) = value u (ru_rhs m). Proof. unfold subst, find_rule. cbn [find]. now rewrite Nat.eqb_refl. Qed.
  Lemma one_other (m : rule) u i : i <> ru_lhs m -> subst [m] u i = u i.
  Proof. intro N. unfold subst, find_rule. cbn [find]. destruct (Nat.eqb_spec (ru_lhs m) i); [congruence|reflexivity]. Qed.
  (** the new substitution is the old one after the new rule *)
  Lemma enters_subst rules lo m hi u i : good rules -> enters rules lo m hi -> asg u -> subst (entered lo m hi) u i = subst rules (subst [m] u) i.
  Proof.
    intros G E A. pose proof (enters_rules rules lo m hi G E) as Gn. pose proof (enters_sorted rules lo m hi G E) as Sn. pose proof (g_rule rules G) as Go. pose proof (g_sorted rules G) as So.
    destruct (Nat.eq_dec i (ru_lhs m)) as [->|N].
    - rewrite (en_value _ _ _ _ E u A). unfold subst. rewrite (sorted_find _ Gn Sn m); [reflexivity|]. apply in_or_app. right. now left.
    - unfold subst at 1. destruct (find_rule (entered lo m hi) i) as [r|] eqn:Q.
      + apply find_in in Q as [Q Er]. apply in_app_or in Q as [Q|[<-|Q]]; [|congruence|].
        * unfold subst at 1. assert (Ho : In r rules) by (apply (en_in rules lo m hi); auto). rewrite <- Er, (sorted_find _ Go So r Ho). symmetry.
          apply lower_same; [apply (en_good _ _ _ _ E)|now apply Go|now apply (en_lo _ _ _ _ E)].
        * apply in_map_iff in Q as [z [<- Hz]]. cbn [update_rule ru_lhs ru_rhs] in *. assert (Ho : In z rules) by (apply (en_in rules lo m hi); auto).
          rewrite rule_reduce_value; [|apply (en_good _ _ _ _ E)|now apply Go|exact A]. unfold subst at 2. rewrite <- Er, (sorted_find _ Go So z Ho). reflexivity.
      + assert (Qo : find_rule rules i = None).
        { apply find_not. intros r Hr Er. rewrite find_not in Q. destruct (en_rules _ _ _ _ E) as [Q0|[r0 [Q0 [L0 _]]]]; rewrite Q0 in Hr; apply in_app_or in Hr as [Hr|Hr].
          - apply (Q r); [apply in_or_app; now left|exact Er].
          - apply (Q (update_rule F m r)); [apply in_or_app; right; right; now apply in_map|exact Er].
          - apply (Q r); [apply in_or_app; now left|exact Er].
          - destruct Hr as [<-|Hr]; [congruence|]. apply (Q (update_rule F m r)); [apply in_or_app; right; right; now apply in_map|exact Er]. }
        unfold subst at 1. rewrite Qo. symmetry. now apply one_other.
  Qed.
  Lemma subst_ext rules u w i : (forall j, u j = w j) -> subst rules u i = subst rules w i.
  Proof. intro H. unfold subst. destruct (find_rule rules i); [apply (value_ext R); intros; apply H|apply H]. Qed.
  Lemma enters_idem rules lo m hi u i : good rules -> enters rules lo m hi -> asg u -> subst (entered lo m hi) (subst (entered lo m hi) u) i = subst (entered lo m hi) u i.
  Proof.
    intros G E A. assert (Gm := en_good _ _ _ _ E). assert (One : forall x, In x [m] -> good_rule x) by (intros x [<-|[]]; exact Gm).
    pose proof (enters_rules rules lo m hi G E) as Gn. assert (A1 := subst_asg _ u Gn A). assert (A2 := subst_asg _ u One A). assert (A3 := subst_asg _ _ (g_rule rules G) A2).
    rewrite (enters_subst rules lo m hi _ i G E A1), (enters_subst rules lo m hi u i G E A).
    rewrite (subst_ext rules _ (subst rules (subst [m] u))); [now apply subst_idem|].
    intro j. rewrite (subst_ext [m] _ (subst rules (subst [m] u))) by (intro; now apply enters_subst).
    destruct (Nat.eq_dec j (ru_lhs m)) as [->|N]; [|now apply one_other]. rewrite one_same, (en_value _ _ _ _ E u A), (en_inv _ _ _ _ E _ A2).
    pose proof (one_idem m u (ru_lhs m) Gm A) as Q. now rewrite !one_same in Q.
  Qed.
  Lemma enters_determined rules lo m hi i : enters rules lo m hi -> determined (entered lo m hi) i -> determined rules i \/ (ru_partial m = false /\ i = ru_lhs m).
  Proof.
    intros E [r [Hr [Er Pr]]]. apply in_app_or in Hr as [Hr|[<-|Hr]]; [left|now right|left].
    - exists r. split; [apply (en_in rules lo m hi); auto|auto].
    - apply in_map_iff in Hr as [z [<- Hz]]. exists z. split; [apply (en_in rules lo m hi); auto|auto].
  Qed.
  Lemma enters_good rules lo m hi : good rules -> enters rules lo m hi -> good (entered lo m hi).
  Proof.
    intros G E. assert (Gm := en_good _ _ _ _ E). pose proof (enters_rules rules lo m hi G E) as Gn. pose proof (enters_sorted rules lo m hi G E) as Sn.
    assert (Fm : within (fun i => ~ determined (entered lo m hi) i) (ru_rhs m)).
    { intros x Hx D. destruct (enters_determined _ _ _ _ _ E D) as [D'|[P Q]]; [exact (en_free _ _ _ _ E x Hx D')|].
      destruct (gr_shape m Gm) as [k [Lo [Ck Sk]]]. rewrite P in Sk. rewrite Sk in Hx. destruct (gr_lhs m Gm) as [_ L]. exact (lower_neq R F FO _ _ x L (canon_ok R F k Ck) Lo Hx Q). }
    constructor; auto.
    - intros r Hr. apply in_app_or in Hr as [Hr|[<-|Hr]]; [|exact Fm|].
      + assert (Ho : In r rules) by (apply (en_in rules lo m hi); auto). intros x Hx D. destruct (enters_determined _ _ _ _ _ E D) as [D'|[P Q]]; [exact (g_free rules G r Ho x Hx D')|].
        pose proof (lower_same m r) as LS. assert (B := en_lo _ _ _ _ E r Hr). destruct (g_rule rules G r Ho) as [[_ L] Cr [k [Lo [Ck Sk]]] _]. destruct (gr_lhs m Gm) as [_ M].
        assert (Z : key_less F (m_id x) (ru_lhs r) = true \/ m_id x = ru_lhs r).
        { destruct (ru_partial r); [|rewrite Sk in Hx; left; now apply Lo]. destruct Sk as [Sk _]. rewrite Sk in Hx. apply in_app_or in Hx as [Hx|[<-|[<-|[]]]]; [left; now apply Lo|now right|now right]. }
        unfold before in B. rewrite Q in Z. destruct Z as [Z|Z]; [rewrite (key_asym R F FO _ _ M L Z) in B; discriminate|]. rewrite <- Z, (key_irr R F FO _ M) in B. discriminate.
      + apply in_map_iff in Hr as [z [<- Hz]]. cbn [update_rule ru_rhs]. assert (Ho : In z rules) by (apply (en_in rules lo m hi); auto).
        apply rule_reduce_within; [apply Gm|now apply (g_rule rules G)|exact Fm|]. intros x Hx N D. destruct (enters_determined _ _ _ _ _ E D) as [D'|[P Q]]; [|contradiction].
        exact (g_free rules G z Ho x Hx D').
    - intros r Hr u A. assert (Q := enters_idem rules lo m hi u (ru_lhs r) G E A). unfold subst at 1 3 in Q. now rewrite (sorted_find _ Gn Sn r Hr) in Q.
  Qed.
  Lemma enters_obeys rules lo m hi v : good rules -> enters rules lo m hi -> asg v -> (obeys v (entered lo m hi) <-> obeys v rules /\ v (ru_lhs m) = value v (ru_rhs m)).
  Proof.
    intros G E A. pose proof (enters_rules rules lo m hi G E) as Gn. pose proof (enters_sorted rules lo m hi G E) as Sn.
    rewrite (obeys_iff _ v Gn Sn), (obeys_iff rules v (g_rule rules G) (g_sorted rules G)).
    assert (One : v (ru_lhs m) = value v (ru_rhs m) -> forall i, subst [m] v i = v i).
    { intros H i. destruct (Nat.eq_dec i (ru_lhs m)) as [->|N]; [rewrite one_same; now symmetry|now apply one_other]. }
    split.
    - intro H. assert (Hm : v (ru_lhs m) = value v (ru_rhs m)). { rewrite <- (H (ru_lhs m)) at 1. now rewrite (enters_subst rules lo m hi v _ G E A), (en_value _ _ _ _ E v A). }
      split; [|exact Hm]. intro i. rewrite <- (H i), (enters_subst rules lo m hi v i G E A). symmetry. apply subst_ext. exact (One Hm).
    - intros [H Hm] i. rewrite (enters_subst rules lo m hi v i G E A), (subst_ext rules (subst [m] v) v i (One Hm)). apply H.
  Qed.
End Book.
