(** Proofs about completing moment rulebooks. *)
From Coq Require Import List NArith ZArith Arith Bool Sorted Permutation Lia Ring Field.
From Verif Require Import CoreModel FieldModel FieldProofs SymModel SymSpec PolyModel PolySpec PolyProofs PolyOpsProofs PolyTableProofs PolyFinalProofs RuleModel RuleSpec RuleProofs RuleMakeProofs RuleOrientProofs RuleBookProofs.
Import ListNotations.

Section Loop.
  Variable R : rfield.
  Add Field Rf : (r_field R).
  Add Field Cf : (cx_field R).
  Notation mono := (mono R).
  Notation rule := (rule R).
  Variable F : factory R.
  Hypothesis FO : factory_ok F.
  Notation t := (fa_table F).
  Notation lt := (fa_lt F).
  Notation srt := (fa_sort F).
  Notation ok := (@in_table R t).
  Notation len := (length (t_syms t)).
  Notation canon := (canonical t lt).
  Notation asg := (assignment (R := R) t).
  Notation lower := (lower R F).
  Notation within := (within R).
  Notation made_ok := (made_ok R F).
  Notation shaped := (shaped R F).
  Notation fits := (fits R F).
  Notation tail2 := (tail2 R).
  Notation subst := (subst R).
  Notation before := (before R F).
  Notation good_rule := (good_rule R F).
  Notation good := (good R F).
  Notation invariant := (invariant R F).
  Notation enters := (enters R F).
  Notation entered := (entered R F).
  Notation real_valued := (real_valued R F).
  Implicit Types (u v w : nat -> cx R) (p q : list mono) (rules : list rule).
  Let HO := fo_order F FO.
  Let HS := fo_sort F FO.

  (** ** finding the place *)
  Lemma split_keys_spec id rules : let s := split_keys F id rules in fst s ++ snd s = rules /\ (forall r, In r (fst s) -> key_less F (ru_lhs r) id = true) /\
    match snd s with [] => True | r :: _ => key_less F (ru_lhs r) id = false end.
  Proof.
    induction rules as [|r rules IH]; cbn; [easy|]. destruct (key_less F (ru_lhs r) id) eqn:E; cbn [fst snd].
    - destruct IH as [A [B C]]. split; [cbn; now rewrite A|]. split; [intros x [<-|Hx]; auto|exact C].
    - split; [reflexivity|]. split; [easy|exact E].
  Qed.
  Definition place_form rules (n : rule) : Prop := exists lo hi, (forall r, In r lo -> before r n) /\ (forall r, In r hi -> before n r) /\
    ((rules = lo ++ hi /\ place F rules n = (entered lo n hi, 1)) \/
     (exists r0, rules = lo ++ r0 :: hi /\ ru_lhs r0 = ru_lhs n /\ place F rules n = (entered lo (merge_partial F r0 n) hi, 0))).
  Lemma place_spec rules n : good rules -> ru_lhs n < len -> place_form rules n.
  Proof.
    intros G L. pose proof (g_sorted R F rules G) as S1. pose proof (g_rule R F rules G) as Gr. unfold place_form, place.
    destruct (match rev rules with [] => true | l :: _ => key_less F (ru_lhs l) (ru_lhs n) end) eqn:E.
    - exists rules, []. split; [|split; [easy|left; split; [now rewrite app_nil_r|reflexivity]]].
      intros r Hr. destruct (rev rules) as [|l rl] eqn:Er; [apply in_rev in Hr; rewrite Er in Hr; destruct Hr|]. apply rev_last in Er. rewrite Er in Hr, S1, Gr.
      apply in_app_or in Hr as [Hr|[<-|[]]]; [|exact E]. apply sorted_app_inv in S1 as [_ [_ S2]]. specialize (S2 r l Hr (or_introl eq_refl)).
      unfold RuleBookProofs.before in *. apply (key_trans R F FO _ (ru_lhs l)); auto; [apply Gr; apply in_or_app; now left|apply Gr; apply in_or_app; right; now left].
    - destruct (split_keys_spec (ru_lhs n) rules) as [A [B C]]. destruct (split_keys F (ru_lhs n) rules) as [lo hi] eqn:Es. cbn [fst snd] in A, B, C.
      destruct hi as [|r hi].
      + exists lo, []. split; [exact B|]. split; [easy|]. left. split; [now symmetry|reflexivity].
      + assert (Lr : ru_lhs r < len) by (apply Gr; rewrite <- A; apply in_or_app; right; now left).
        assert (Sh : forall x, In x hi -> before r x). { rewrite <- A in S1. apply sorted_app_inv in S1 as [_ [S2 _]]. apply StronglySorted_inv in S2 as [_ S2]. now apply Forall_forall. }
        destruct (key_less F (ru_lhs n) (ru_lhs r)) eqn:K; cbn [negb].
        * exists lo, (r :: hi). split; [exact B|]. split; [|left; split; [now symmetry|reflexivity]]. intros x [<-|Hx]; [exact K|]. specialize (Sh x Hx). unfold RuleBookProofs.before in *.
          apply (key_trans R F FO _ (ru_lhs r)); auto. apply Gr. rewrite <- A. apply in_or_app. right. now right.
        * pose proof (key_total R F FO _ _ Lr L C K) as Q. exists lo, hi. split; [exact B|]. split; [|right; exists r; split; [now symmetry|split; [exact Q|reflexivity]]].
          intros x Hx. specialize (Sh x Hx). unfold RuleBookProofs.before in *. now rewrite <- Q.
  Qed.

  (** ** the leading terms *)
  Lemma lead_form q rest tl k r : made_ok q rest tl k r -> (forall x, In x tl -> m_id x = ru_lhs r) /\ tl <> [] /\
    exists a b, (forall w, value w tl = cadd (cmul a (w (ru_lhs r))) (cmul b (cconj (w (ru_lhs r))))) /\
      if ru_partial r then a <> c0 /\ b = cmul (cmul (ru_dir r) (ru_dir r)) a else cnorm a <> cnorm b.
  Proof.
    intros M. pose proof (mo_form R F _ _ _ _ _ M) as H. destruct (ru_partial r).
    - destruct H as [a [Na ->]]. split; [intros x [<-|[<-|[]]]; reflexivity|]. split; [discriminate|]. exists a, (cmul (cmul (ru_dir r) (ru_dir r)) a). split; [|auto].
      intro w. rewrite (value_cons R), (value_one R). reflexivity.
    - destruct H as [[cj [f [Nf ->]]]|[a [b [N ->]]]].
      + split; [intros x [<-|[]]; reflexivity|]. split; [discriminate|]. assert (Nn : cnorm f <> cnorm (@c0 R)).
        { intro H. apply Nf. apply (norm_zero R). rewrite H. unfold cnorm. cbn. ring. }
        destruct cj.
        * exists c0, f. split; [|congruence]. intro w. rewrite (value_one R). unfold term_value. cbn. ring.
        * exists f, c0. split; [|exact Nn]. intro w. rewrite (value_one R). unfold term_value. cbn. ring.
      + split; [intros x [<-|[<-|[]]]; reflexivity|]. split; [discriminate|]. exists a, b. split; [|exact N]. intro w. rewrite (value_cons R), (value_one R). reflexivity.
  Qed.
  Lemma unsplit_good q rest tl k r : made_ok q rest tl k r -> good_rule (unsplit r).
  Proof. intros [H1 H2 H3 H4 _ _ _ _ _ _ _ _]. constructor; auto. exists k. exact H3. Qed.
  Lemma rest_free rules q rest tl k r : made_ok q rest tl k r -> within (fun i => ~ determined rules i) q -> within (fun i => ~ determined rules i) k.
  Proof. intros M W. apply (mo_within R F _ _ _ _ _ M). intros x Hx. apply W. rewrite (mo_tail R F _ _ _ _ _ M). apply in_or_app. now left. Qed.

  (** ** a rule for a new symbol *)
  Lemma enters_new rules q rest tl k r lo hi : good rules -> made_ok q rest tl k r -> invariant rules q -> within (fun i => ~ determined rules i) q ->
    rules = lo ++ hi -> (forall x, In x lo -> before x r) -> (forall x, In x hi -> before r x) -> enters rules lo (unsplit r) hi.
  Proof.
    intros G M I W E Blo Bhi. pose proof (unsplit_good _ _ _ _ _ M) as Gn. destruct (mo_lhs R F _ _ _ _ _ M) as [L1 L].
    assert (Nr : find_rule rules (ru_lhs r) = None).
    { apply find_not. intros x Hx Q. assert (Lx : ru_lhs x < len) by (apply (g_rule R F rules G x Hx)). rewrite E in Hx. unfold RuleBookProofs.before in *. apply in_app_or in Hx as [Hx|Hx].
      - exact (key_neq R F FO _ _ Lx (Blo x Hx) Q).
      - exact (key_neq R F FO _ _ L (Bhi x Hx) (eq_sym Q)). }
    assert (Sx : forall u, subst rules u (ru_lhs r) = u (ru_lhs r)) by (intro u; unfold RuleBookProofs.subst; now rewrite Nr).
    pose proof (g_rule R F rules G) as Gr.
    constructor; auto.
    - intros u A. cbn [unsplit ru_lhs]. rewrite Sx. apply (one_same R (unsplit r)).
    - intros u A. pose proof (subst_asg R F rules u Gr A) as A'. destruct (lead_form _ _ _ _ _ M) as [Ti _]. assert (Q := I u A).
      rewrite (mo_tail R F _ _ _ _ _ M), !(value_app R) in Q. assert (T : value (subst rules u) tl = value u tl) by (apply (value_ext R); intros x Hx; rewrite (Ti x Hx); apply Sx).
      rewrite T in Q. assert (Q' : value (subst rules u) rest = value u rest).
      { replace (value (subst rules u) rest) with (csub (cadd (value (subst rules u) rest) (value u tl)) (value u tl)) by ring. rewrite Q. ring. }
      assert (Qk := mo_same R F _ _ _ _ _ M _ _ A' A Q'). cbn [unsplit ru_rhs]. rewrite !(shaped_value R F r k) by exact (mo_shape R F _ _ _ _ _ M). rewrite Qk. f_equal.
      destruct (ru_partial r); [|reflexivity]. rewrite !(tail2_value R). now rewrite !Sx.
    - cbn [unsplit ru_rhs]. pose proof (rest_free rules _ _ _ _ _ M W) as Wk. pose proof (mo_shape R F _ _ _ _ _ M) as [_ [_ Sk]]. destruct (ru_partial r); [|now rewrite Sk].
      destruct Sk as [Sk _]. rewrite Sk. intros x Hx. apply in_app_or in Hx as [Hx|Hx]; [now apply Wk|]. assert (Q : m_id x = ru_lhs r) by (destruct Hx as [<-|[<-|[]]]; reflexivity).
      rewrite Q. intros [y [Hy [Ey _]]]. exact (proj1 (find_not R rules (ru_lhs r)) Nr y Hy Ey).
  Qed.

  (** ** a second rule for a symbol with a partial rule *)
  Lemma rhs_before r x : good_rule r -> In x (ru_rhs r) -> key_less F (m_id x) (ru_lhs r) = true \/ m_id x = ru_lhs r.
  Proof.
    intros G Hx. destruct (gr_shape R F r G) as [k [Lo [Ck Sk]]]. destruct (ru_partial r); [|rewrite Sk in Hx; left; now apply Lo].
    destruct Sk as [Sk _]. rewrite Sk in Hx. apply in_app_or in Hx as [Hx|[<-|[<-|[]]]]; [left; now apply Lo|now right|now right].
  Qed.
  (** substitution below a symbol does not depend on it *)
  Lemma subst_upd rules u i z j : good rules -> i < len -> j < len -> key_less F j i = true -> subst rules (upd R u i z) j = subst rules u j.
  Proof.
    intros G Li Lj K. unfold RuleBookProofs.subst. destruct (find_rule rules j) as [r|] eqn:E.
    - apply find_in in E as [E <-]. apply (value_ext R). intros x Hx. apply (upd_other R). intro Q. pose proof (g_rule R F rules G r E) as Gr.
      destruct (rhs_before r x Gr Hx) as [B|B]; rewrite Q in B.
      + rewrite (key_asym R F FO _ _ Li Lj B) in K. discriminate.
      + rewrite <- B in K. rewrite (key_irr R F FO _ Li) in K. discriminate.
    - apply (upd_other R). exact (key_neq R F FO _ _ Lj K).
  Qed.
  Lemma two_coefficients (a b e D D0 K0 : cx R) : cnorm e = r1 R -> cmul (cmul e e) (cconj K0) = K0 ->
    (forall z, cadd D (cadd (cmul a (cadd K0 (cmul half (csub z (cmul (cmul e e) (cconj z)))))) (cmul b (cconj (cadd K0 (cmul half (csub z (cmul (cmul e e) (cconj z)))))))) =
      cadd D0 (cadd (cmul a z) (cmul b (cconj z)))) ->
    b = cmul (copp (cmul e e)) a /\ D = D0.
  Proof.
    intros N HK H. apply (norm1 R) in N. assert (H0 := H c0). assert (H1 := H c1). assert (H2 := H ci). clear H.
    pose proof (half_half R) as HH. pose proof (half_conj R) as HC. pose proof (ci_sq R) as CI.
    rewrite ?(cconj_add R), ?(cconj_mul R), ?(cconj_sub R), ?(cconj_mul R), ?(cconj_conj R), ?HC in H0, H1, H2.
    rewrite (cconj_0 R) in H0. rewrite (cconj_1 R) in H1. rewrite (cconj_i R) in H2.
    set (h := @half R) in *. set (f := cconj e) in *. set (k := cconj K0) in *.
    assert (E0 : D0 = cadd D (cadd (cmul a K0) (cmul b k))).
    { transitivity (cadd D0 (cadd (cmul a c0) (cmul b c0))); [ring|]. rewrite <- H0. ring. }
    assert (E1 : csub (cmul h (csub (cadd a b) (cadd (cmul a (cmul e e)) (cmul b (cmul f f))))) (cadd a b) = c0).
    { transitivity (csub (csub (cadd D (cadd (cmul a (cadd K0 (cmul h (csub c1 (cmul (cmul e e) c1))))) (cmul b (cadd k (cmul h (csub c1 (cmul (cmul f f) c1))))))) (cadd D0 (cadd (cmul a c1) (cmul b c1))))
        (csub (cadd D (cadd (cmul a K0) (cmul b k))) D0)); [ring|]. rewrite H1, E0. ring. }
    assert (E2 : cmul ci (csub (cmul h (csub (cadd a (cmul a (cmul e e))) (cadd b (cmul b (cmul f f))))) (csub a b)) = c0).
    { transitivity (csub (csub (cadd D (cadd (cmul a (cadd K0 (cmul h (csub ci (cmul (cmul e e) (copp ci)))))) (cmul b (cadd k (cmul h (csub (copp ci) (cmul (cmul f f) ci))))))) (cadd D0 (cadd (cmul a ci) (cmul b (copp ci)))))
        (csub (cadd D (cadd (cmul a K0) (cmul b k))) D0)); [ring|]. rewrite H2, E0. ring. }
    assert (Nci : @ci R <> c0). { intro Q. apply (f_equal cim) in Q. cbn in Q. apply (F_1_neq_0 (r_field R)). exact Q. }
    apply (cmul_zero R) in E2 as [E2|E2]; [contradiction|].
    assert (E3 : cadd a (cmul b (cmul f f)) = c0).
    { assert (Q : cmul (cadd h h) (csub a (cmul b (cmul f f))) = cadd a a).
      { transitivity (cadd (cadd (csub (cmul h (csub (cadd a b) (cadd (cmul a (cmul e e)) (cmul b (cmul f f))))) (cadd a b)) (csub (cmul h (csub (cadd a (cmul a (cmul e e))) (cadd b (cmul b (cmul f f))))) (csub a b))) (cadd a a)); [ring|].
        rewrite E1, E2. ring. }
      rewrite HH in Q. transitivity (csub (cadd a a) (cmul c1 (csub a (cmul b (cmul f f))))); [ring|]. rewrite Q. ring. }
    assert (N2 : cmul (cmul e e) (cmul f f) = c1) by (transitivity (cmul (cmul e f) (cmul e f)); [ring|rewrite N; ring]).
    assert (Eb : b = cmul (copp (cmul e e)) a).
    { transitivity (cmul b c1); [ring|]. rewrite <- N2. transitivity (csub (cmul (cmul e e) (cadd a (cmul b (cmul f f)))) (cmul (cmul e e) a)); [ring|]. rewrite E3. ring. }
    split; [exact Eb|]. rewrite E0, Eb. transitivity (cadd D (cmul a (csub K0 (cmul (cmul e e) k)))); [rewrite HK; ring|ring].
  Qed.
  Lemma turned (e k : cx R) : cnorm e = r1 R -> cim (cmul (cconj e) k) = r0 R -> cmul (cmul e e) (cconj k) = k.
  Proof.
    intros N H. apply (norm1 R) in N. apply (creal_part R) in H. rewrite (cconj_mul R), (cconj_conj R) in H.
    transitivity (cmul e (cmul e (cconj k))); [ring|]. rewrite H. transitivity (cmul (cmul e (cconj e)) k); [ring|]. rewrite N. ring.
  Qed.
  Lemma zero_asg u i : asg u -> 1 < i -> herm t i = false -> anti t i = false -> forall z, asg (upd R u i z).
  Proof. intros A L H1 H2 z. apply (upd_asg R F); auto; congruence. Qed.
  Lemma merge_facts rules q rest tl k r r0 : good rules -> made_ok q rest tl k r -> invariant rules q -> within (fun i => ~ determined rules i) q ->
    In r0 rules -> ru_lhs r0 = ru_lhs r -> exists k0, shaped r0 k0 /\ ru_partial r0 = true /\ ru_partial r = true /\
      cmul (ru_dir r) (ru_dir r) = copp (cmul (ru_dir r0) (ru_dir r0)) /\ invariant rules k0 /\ invariant rules k.
  Proof.
    intros G M I W H0 Q. destruct (lead_form _ _ _ _ _ M) as [Ti [Tn [a [b [Tv Tp]]]]]. destruct (mo_lhs R F _ _ _ _ _ M) as [L1 L].
    pose proof (g_rule R F rules G) as Gr. pose proof (Gr r0 H0) as G0. destruct (gr_shape R F r0 G0) as [k0 Sk0]. exists k0. split; [exact Sk0|].
    assert (P0 : ru_partial r0 = true).
    { destruct (ru_partial r0) eqn:P; [reflexivity|exfalso]. destruct tl as [|x tl]; [congruence|]. apply (W x); [rewrite (mo_tail R F _ _ _ _ _ M); apply in_or_app; right; now left|].
      exists r0. rewrite (Ti x (or_introl eq_refl)). auto. }
    split; [exact P0|]. pose proof Sk0 as Sk0'. destruct Sk0 as [Lo0 [Ck0 Sk0]]. rewrite P0 in Sk0. destruct Sk0 as [Er0 [Ne0 [Nh [Na Re0]]]]. rewrite Q in *.
    destruct (mo_rest R F _ _ _ _ _ M) as [Cr Lr].
    assert (Fx : forall w, subst rules w (ru_lhs r) = cadd (value w k0) (cmul half (csub (w (ru_lhs r)) (cmul (cmul (ru_dir r0) (ru_dir r0)) (cconj (w (ru_lhs r))))))).
    { intro w. unfold RuleBookProofs.subst. rewrite <- Q, (sorted_find R F FO rules Gr (g_sorted R F rules G) r0 H0), Q, Er0, (value_app R), (tail2_value R). reflexivity. }
    assert (Two : forall u, asg u -> b = cmul (copp (cmul (ru_dir r0) (ru_dir r0))) a /\ value (subst rules u) rest = value u rest).
    { intros u A. apply (two_coefficients a b (ru_dir r0) _ _ (value u k0) Ne0); [apply turned; auto|]. intro z.
      pose proof (zero_asg u (ru_lhs r) A L1 Nh Na z) as Az. assert (Iz := I _ Az). rewrite (mo_tail R F _ _ _ _ _ M), !(value_app R), !Tv, (upd_same R), Fx, (upd_same R) in Iz.
      rewrite (value_upd R F FO u (ru_lhs r) z rest L (canon_ok R F rest Cr) Lr), (value_upd R F FO u (ru_lhs r) z k0 L (canon_ok R F k0 Ck0) Lo0) in Iz.
      rewrite <- Iz. f_equal. apply (value_ext R). intros x Hx. symmetry. apply subst_upd; auto. apply (cp_terms t lt _ Cr x Hx). }
    destruct (asg_exists R F FO) as [u0 A0]. destruct (Two u0 A0) as [Eb _].
    assert (P : ru_partial r = true).
    { destruct (ru_partial r); [reflexivity|exfalso]. apply Tp. apply (creal_inj R). rewrite <- !(cnorm_conj R), Eb. apply (norm1 R) in Ne0.
      rewrite (cconj_mul R), (cconj_opp R), (cconj_mul R). transitivity (cmul (cmul (cmul (ru_dir r0) (cconj (ru_dir r0))) (cmul (ru_dir r0) (cconj (ru_dir r0)))) (cmul a (cconj a))); [|ring].
      rewrite Ne0. ring. }
    split; [exact P|]. rewrite P in Tp. destruct Tp as [Na' Ea]. split.
    { assert (Z : cmul a (cadd (cmul (ru_dir r) (ru_dir r)) (cmul (ru_dir r0) (ru_dir r0))) = c0).
      { transitivity (csub (cmul (cmul (ru_dir r) (ru_dir r)) a) (cmul (copp (cmul (ru_dir r0) (ru_dir r0))) a)); [ring|]. rewrite <- Ea, <- Eb. ring. }
      apply (cmul_zero R) in Z as [Z|Z]; [contradiction|]. transitivity (csub (cadd (cmul (ru_dir r) (ru_dir r)) (cmul (ru_dir r0) (ru_dir r0))) (cmul (ru_dir r0) (ru_dir r0))); [ring|]. rewrite Z. ring. }
    split.
    - intros u A. assert (I0 := g_inv R F rules G r0 H0 u A). rewrite Er0, !(value_app R), !(tail2_value R), Fx in I0.
      rewrite (tail2_norm R (ru_dir r0) (u (ru_lhs r)) (value u k0) Ne0 (Re0 u A)) in I0.
      set (d := cmul half (csub (u (ru_lhs r)) (cmul (cmul (ru_dir r0) (ru_dir r0)) (cconj (u (ru_lhs r)))))) in *.
      transitivity (csub (cadd (value (subst rules u) k0) d) d); [ring|]. rewrite I0. ring.
    - intros u A. apply (mo_same R F _ _ _ _ _ M); [now apply (subst_asg R F)|exact A|]. apply (Two u A).
  Qed.
  Lemma merge_value r0 r k0 k : ru_lhs r0 = ru_lhs r -> ru_partial r0 = true -> ru_partial r = true -> shaped r0 k0 -> shaped r k ->
    ru_rhs (merge_partial F r0 (unsplit r)) = append lt k0 k.
  Proof.
    intros Q P0 P [_ [_ S0]] [_ [_ S1]]. rewrite P0 in S0. rewrite P in S1. destruct S0 as [S0 _], S1 as [S1 _]. cbn [merge_partial unsplit ru_rhs]. rewrite S0, S1.
    unfold RuleMakeProofs.tail2. now rewrite !(removelast2 R).
  Qed.
  Lemma enters_merge rules q rest tl k r lo hi r0 : good rules -> made_ok q rest tl k r -> invariant rules q -> within (fun i => ~ determined rules i) q ->
    rules = lo ++ r0 :: hi -> ru_lhs r0 = ru_lhs r -> (forall x, In x lo -> before x r) -> (forall x, In x hi -> before r x) ->
    enters rules lo (merge_partial F r0 (unsplit r)) hi /\
    forall v, asg v -> obeys v rules -> (v (ru_lhs r) = value v (ru_rhs (merge_partial F r0 (unsplit r))) <-> v (ru_lhs r) = value v (ru_rhs r)).
  Proof.
    intros G M I W E Q Blo Bhi. assert (H0 : In r0 rules) by (rewrite E; apply in_or_app; right; now left).
    destruct (merge_facts rules q rest tl k r r0 G M I W H0 Q) as [k0 [S0 [P0 [P [Ed [I0 Ik]]]]]]. pose proof (mo_shape R F _ _ _ _ _ M) as Sk.
    pose proof (merge_value r0 r k0 k Q P0 P S0 Sk) as Em. destruct (mo_lhs R F _ _ _ _ _ M) as [L1 L].
    pose proof S0 as [Lo0 [Ck0 Z0]]. rewrite P0 in Z0. destruct Z0 as [Er0 [Ne0 [Nh [Na Re0]]]]. pose proof Sk as [Lok [Ck Z]]. rewrite P in Z. destruct Z as [Er [Ne [_ [_ Re]]]].
    rewrite Q in Lo0, Er0, Nh, Na.
    assert (Cm : canon (append lt k0 k)) by (rewrite (append_merge R lt); now apply (merge_canonical R t lt HO)).
    assert (Vm : forall u, value u (append lt k0 k) = cadd (value u k0) (value u k)) by (intro u; rewrite (append_merge R lt); change (merge_terms lt) with (@sum_pp R lt); now apply (sum_value R t lt HO)).
    assert (Lm : lower (ru_lhs r) (append lt k0 k)) by (apply (within_lower R F); apply within_append; assumption).
    assert (Dm : ru_dir r0 <> c0) by now apply (unit_ne R).
    pose proof (g_rule R F rules G) as Gr. set (m := merge_partial F r0 (unsplit r)) in *. assert (Lhm : ru_lhs m = ru_lhs r) by exact Q.
    assert (Kt : forall u, asg u -> cmul (cmul (ru_dir r0) (ru_dir r0)) (cconj (value u k)) = copp (value u k)).
    { intros u A. transitivity (copp (cmul (copp (cmul (ru_dir r0) (ru_dir r0))) (cconj (value u k)))); [ring|]. rewrite <- Ed. now rewrite (turned (ru_dir r) _ Ne (Re u A)). }
    split.
    - constructor.
      + right. exists r0. repeat split; auto.
      + intros x Hx. unfold RuleBookProofs.before. rewrite Lhm. now apply Blo.
      + intros x Hx. unfold RuleBookProofs.before. rewrite Lhm. now apply Bhi.
      + constructor; rewrite ?Lhm, ?Em; auto.
        * exists (append lt k0 k). unfold RuleMakeProofs.shaped. rewrite Lhm, Em. split; [exact Lm|]. split; [exact Cm|]. reflexivity.
        * split; congruence.
      + intros u A. rewrite Lhm, Em, Vm. unfold RuleBookProofs.subst at 1. rewrite <- Q, (sorted_find R F FO rules Gr (g_sorted R F rules G) r0 H0), Er0, (value_app R), (tail2_value R).
        assert (T0 : RuleBookProofs.subst R [m] u (ru_lhs r) = cadd (value u k0) (value u k)) by (rewrite <- Lhm, (one_same R), Em; apply Vm). rewrite T0.
        assert (T1 : value (RuleBookProofs.subst R [m] u) k0 = value u k0).
        { apply (value_ext R). intros x Hx. apply (one_other R). rewrite Lhm. exact (lower_neq R F FO _ _ x L (canon_ok R F k0 Ck0) Lo0 Hx). }
        rewrite T1, (cconj_add R). f_equal.
        transitivity (cmul half (csub (cadd (value u k0) (value u k)) (cadd (cmul (cmul (ru_dir r0) (ru_dir r0)) (cconj (value u k0))) (cmul (cmul (ru_dir r0) (ru_dir r0)) (cconj (value u k)))))); [f_equal; ring|].
        rewrite (turned (ru_dir r0) _ Ne0 (Re0 u A)), (Kt u A). transitivity (cmul (cadd half half) (value u k)); [ring|]. rewrite (half_half R). ring.
      + intros u A. rewrite Em, !Vm, (I0 u A), (Ik u A). reflexivity.
      + rewrite Em. apply within_append; [|exact (rest_free rules _ _ _ _ _ M W)]. intros x Hx. apply (g_free R F rules G r0 H0). rewrite Er0. apply in_or_app. now left.
    - intros v A Ob. rewrite Em, Vm, Er, (value_app R), (tail2_value R). assert (O0 := Ob r0 H0). rewrite Q, Er0, (value_app R), (tail2_value R) in O0. rewrite Ed.
      set (x := v (ru_lhs r)) in *. set (y := cconj x) in *. set (e := cmul (ru_dir r0) (ru_dir r0)) in *. set (K0 := value v k0) in *. set (K := value v k) in *. pose proof (half_half R) as HH. set (h := @half R) in *.
      assert (X : x = cmul (cadd h h) x) by (rewrite HH; ring). split; intro H.
      + transitivity (csub (cadd (cadd K0 K) (cmul (cadd h h) x)) (cadd K0 (cmul h (csub x (cmul e y))))); [|ring]. rewrite <- H, <- O0, HH. ring.
      + transitivity (csub (cadd (cadd K0 (cmul h (csub x (cmul e y)))) (cadd K (cmul h (csub x (cmul (copp e) y))))) (cmul (cadd h h) x)); [|ring]. rewrite <- H, <- O0, HH. ring.
  Qed.

  (** ** one step of the completion *)
  Theorem step rules p r : good rules -> canon p -> reduce F rules p <> [] -> make_rule F (reduce F rules p) = Made r ->
    let x := place F rules (unsplit r) in
    good (fst x) /\ length (fst x) = snd x + length rules /\
    (forall v, asg v -> (obeys v rules /\ value v p = c0 <-> obeys v (fst x) /\ forall s, ru_split r = Some s -> value v s = c0)) /\
    (forall s, ru_split r = Some s -> canon s /\ real_valued s) /\ (real_valued p -> ru_split r = None) /\ ru_lhs r <> 0.
  Proof.
    intros G C Nq E x. pose proof (good_ok R F rules G) as K. pose proof (g_rule R F rules G) as Gr.
    set (q := reduce F rules p) in *. assert (Cq : canon q) by now apply (reduce_canonical R F FO).
    destruct (make_spec R F FO q r Cq Nq E) as [rest [tl [k M]]].
    assert (I := reduce_invariant R F FO rules p G C). assert (W := reduce_free R F FO rules p G C). fold q in I, W.
    destruct (mo_lhs R F _ _ _ _ _ M) as [L1 L].
    assert (Eq : forall v, asg v -> obeys v rules -> value v q = value v p).
    { intros v A Ob. unfold q. rewrite (reduce_value R F FO v rules p K C A). apply (value_ext R). intros y _. now apply (obeys_iff R F FO rules v Gr (g_sorted R F rules G)). }
    assert (Main : good (fst x) /\ length (fst x) = snd x + length rules /\ forall v, asg v -> (obeys v (fst x) <-> obeys v rules /\ v (ru_lhs r) = value v (ru_rhs r))).
    { destruct (place_spec rules (unsplit r) G L) as [lo [hi [Blo [Bhi [[Er Ep]|[r0 [Er [Lr Ep]]]]]]]]; unfold x; rewrite Ep; cbn [fst snd].
      - pose proof (enters_new rules q rest tl k r lo hi G M I W Er Blo Bhi) as En. split; [now apply (enters_good R F FO rules)|]. split.
        + rewrite Er. unfold RuleBookProofs.entered. rewrite !app_length. cbn [length]. rewrite map_length. lia.
        + intros v A. exact (enters_obeys R F FO rules lo (unsplit r) hi v G En A).
      - destruct (enters_merge rules q rest tl k r lo hi r0 G M I W Er Lr Blo Bhi) as [En Ev]. split; [now apply (enters_good R F FO rules)|]. split.
        + rewrite Er. unfold RuleBookProofs.entered. rewrite !app_length. cbn [length]. rewrite map_length. lia.
        + intros v A. rewrite (enters_obeys R F FO rules lo _ hi v G En A). assert (Q : ru_lhs (merge_partial F r0 (unsplit r)) = ru_lhs r) by exact Lr. rewrite Q.
          split; intros [O1 O2]; (split; [exact O1|]); now apply (Ev v A O1). }
    destruct Main as [Gx [Lx Ox]]. split; [exact Gx|]. split; [exact Lx|]. split; [|split; [|split]].
    - intros v A. rewrite (Ox v A). split.
      + intros [O Hp]. rewrite <- (Eq v A O) in Hp. apply (mo_equiv R F _ _ _ _ _ M v A) in Hp as [H1 H2]. auto.
      + intros [[O H1] H2]. split; [exact O|]. rewrite <- (Eq v A O). apply (mo_equiv R F _ _ _ _ _ M v A). auto.
    - apply (mo_split R F _ _ _ _ _ M).
    - intro Rp. apply (mo_none R F _ _ _ _ _ M). intros u A. unfold q. rewrite (reduce_value R F FO u rules p K C A). apply Rp. now apply (subst_asg R F).
    - lia.
  Qed.

  (** ** the loop *)
  Definition loop_ok rules (todo : list (list mono)) (c : completion (R := R)) (n : nat) : Prop := match c with
    | Completed rules' n' => good rules' /\ n' + length rules = n + length rules' /\ forall v, asg v -> (obeys v rules' <-> obeys v rules /\ solves v todo)
    | Threw rules' raw => good rules' /\ forall v, asg v -> obeys v rules -> ~ solves v todo
    | Stuck => exists z, cnorm z = r1 R /\ fa_sqrt F z = None
    | OutOfFuel => True end.
  Lemma solves_cons v p l : solves v (p :: l) <-> value v p = c0 /\ solves v l.
  Proof. unfold solves. split; [intro H; split; [apply H; now left|intros; apply H; now right]|intros [H1 H2] x [<-|Hx]; auto]. Qed.
  Lemma solves_app v l l' : solves v (l ++ l') <-> solves v l /\ solves v l'.
  Proof. unfold solves. split; [intro H; split; intros; apply H; apply in_or_app; auto|intros [H1 H2] x Hx; apply in_app_or in Hx as [Hx|Hx]; auto]. Qed.
  Lemma reduced_zero rules p v : good rules -> canon p -> asg v -> obeys v rules -> value v (reduce F rules p) = value v p.
  Proof.
    intros G C A O. rewrite (reduce_value R F FO v rules p (good_ok R F rules G) C A). apply (value_ext R). intros y _.
    now apply (obeys_iff R F FO rules v (g_rule R F rules G) (g_sorted R F rules G)).
  Qed.
  Theorem loop_spec fuel : forall rules n gone todo, good rules -> Forall canon todo -> loop_ok rules todo (complete_loop F fuel rules n gone todo) n.
  Proof.
    induction fuel as [|fuel IH]; intros rules n gone todo G C; destruct todo as [|p todo]; cbn [complete_loop].
    - cbn. split; [exact G|]. split; [lia|]. intros v A. split; [intro H; split; [exact H|easy]|now intros [H _]].
    - exact I.
    - cbn. split; [exact G|]. split; [lia|]. intros v A. split; [intro H; split; [exact H|easy]|now intros [H _]].
    - apply Forall_cons_iff in C as [Cp C]. assert (Cq := reduce_canonical R F FO rules p (good_ok R F rules G) Cp). destruct (make_rule F (reduce F rules p)) as [r| | |] eqn:E.
      + destruct (reduce F rules p) as [|y q] eqn:Q.
        * rewrite make_nil in E. injection E as <-. cbn [ru_lhs Nat.eqb]. specialize (IH rules n (moved p :: gone) todo G C).
          assert (Z : forall v, asg v -> obeys v rules -> value v p = c0) by (intros v A O; rewrite <- (reduced_zero rules p v G Cp A O), Q; reflexivity).
          destruct (complete_loop F fuel rules n (moved p :: gone) todo) as [rules' n'|rules' raw| |]; cbn in IH |- *; auto.
          -- destruct IH as [I1 [I2 I3]]. split; [exact I1|]. split; [exact I2|]. intros v A. rewrite (I3 v A), solves_cons. split; [intros [H1 H2]; auto|tauto].
          -- destruct IH as [I1 I2]. split; [exact I1|]. intros v A O. rewrite solves_cons. intros [_ H]. exact (I2 v A O H).
        * rewrite <- Q in E. assert (Nq : reduce F rules p <> []) by (rewrite Q; discriminate). destruct (step rules p r G Cp Nq E) as [G' [Ln [Eqv [Sp [_ L0]]]]].
          apply Nat.eqb_neq in L0. rewrite L0. set (x := place F rules (unsplit r)) in *. set (more := match ru_split r with Some s => [s] | None => [] end).
          assert (C' : Forall canon (todo ++ more)). { apply Forall_app. split; [exact C|]. unfold more. destruct (ru_split r) as [s|]; constructor; [now apply (Sp s)|constructor]. }
          assert (Sm : forall v, solves v more <-> forall s, ru_split r = Some s -> value v s = c0).
          { intro v. unfold more, solves. destruct (ru_split r) as [s|]; split; intro H; [intros s' [= <-]; apply H; now left|intros s' [<-|[]]; now apply H|discriminate|easy]. }
          specialize (IH (fst x) (snd x + n) (moved p :: gone) (todo ++ more) G' C').
          destruct (complete_loop F fuel (fst x) (snd x + n) (moved p :: gone) (todo ++ more)) as [rules' n'|rules' raw| |]; cbn in IH |- *; auto.
          -- destruct IH as [I1 [I2 I3]]. split; [exact I1|]. split; [lia|]. intros v A. rewrite (I3 v A), solves_app, solves_cons, Sm. specialize (Eqv v A). tauto.
          -- destruct IH as [I1 I2]. split; [exact I1|]. intros v A O. rewrite solves_cons. intros [H1 H2]. destruct (proj1 (Eqv v A) (conj O H1)) as [O' H'].
             apply (I2 v A O'). rewrite solves_app, Sm. auto.
      + cbn. split; [exact G|]. intros v A O S1. apply solves_cons in S1 as [S1 _]. destruct (make_invalid R F FO _ Cq E) as [c [Nc Hc]]. apply Nc.
        rewrite <- (Hc v A), (reduced_zero rules p v G Cp A O). exact S1.
      + cbn. exact (make_no_root R F _ E Cq).
      + exfalso. exact (make_no_bad R F _ E).
  Qed.
  Theorem loop_fuel fuel : forall rules n gone a b, good rules -> Forall canon (a ++ b) -> Forall real_valued b -> 2 * length a + length b <= fuel ->
    complete_loop F fuel rules n gone (a ++ b) <> OutOfFuel.
  Proof.
    induction fuel as [|fuel IH]; intros rules n gone a b G C Rb L; destruct (a ++ b) as [|p todo] eqn:Eab; cbn [complete_loop]; try discriminate.
    - exfalso. destruct a; cbn in L, Eab; [|lia]. subst b. cbn in L. lia.
    - apply Forall_cons_iff in C as [Cp C]. assert (Sp : exists a' b', todo = a' ++ b' /\ Forall real_valued b' /\ ((real_valued p /\ 2 * length a' + length b' <= fuel) \/ 2 * length a' + length b' + 1 <= fuel)).
      { destruct a as [|p' a].
        - cbn in Eab. subst b. apply Forall_cons_iff in Rb as [Rp Rb]. exists [], todo. cbn in L |- *. split; [reflexivity|]. split; [exact Rb|]. left. split; [exact Rp|lia].
        - cbn in Eab. injection Eab as -> <-. exists a, b. cbn in L. split; [reflexivity|]. split; [exact Rb|]. right. lia. }
      destruct Sp as [a' [b' [-> [Rb' Hf]]]]. destruct (make_rule F (reduce F rules p)) as [r| | |] eqn:E; try discriminate.
      destruct (Nat.eqb_spec (ru_lhs r) 0) as [L0|L0]; [apply IH; auto; destruct Hf as [[_ Hf]|Hf]; lia|].
      assert (Nq : reduce F rules p <> []). { intro Q. rewrite Q, make_nil in E. injection E as <-. now apply L0. }
      destruct (step rules p r G Cp Nq E) as [G' [_ [_ [Hs [Hn _]]]]]. rewrite <- app_assoc. destruct (ru_split r) as [s|] eqn:Es.
      + destruct (Hs s eq_refl) as [Cs Rs]. destruct Hf as [[Rp _]|Hf]; [specialize (Hn Rp); discriminate|]. apply IH; auto.
        * rewrite app_assoc. apply Forall_app. split; [exact C|constructor; [exact Cs|constructor]].
        * apply Forall_app. split; [exact Rb'|constructor; [exact Rs|constructor]].
        * rewrite app_length. cbn. lia.
      + rewrite app_nil_r. apply IH; auto. destruct Hf as [[_ Hf]|Hf]; lia.
  Qed.
End Loop.
