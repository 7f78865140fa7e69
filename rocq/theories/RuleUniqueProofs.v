(** The completed rules are determined by their solutions; equations from maps. *)
From Coq Require Import List NArith ZArith Arith Bool Sorted Permutation Lia Ring Field Wf_nat.
From Verif Require Import CoreModel FieldModel FieldProofs SymModel SymSpec PolyModel PolySpec PolyProofs PolyOpsProofs PolyTableProofs PolyFinalProofs RuleModel RuleSpec RuleProofs RuleMakeProofs RuleOrientProofs RuleBookProofs RuleLoopProofs RuleFinalProofs.
Import ListNotations.

Section Unique.
  Variable R : rfield.
  Add Field Rf : (r_field R).
  Add Field Cf : (cx_field R).
  Notation mono := (mono R).
  Notation rule := (rule R).
  Variable F : factory R.
  Hypothesis FO : factory_ok F.
  Notation t := (fa_table F).
  Notation lt := (fa_lt F).
  Notation len := (length (t_syms t)).
  Notation canon := (canonical t lt).
  Notation asg := (assignment (R := R) t).
  Notation shaped := (shaped R F).
  Notation subst := (subst R).
  Notation before := (before R F).
  Notation good_rule := (good_rule R F).
  Notation good := (good R F).
  Notation invariant := (invariant R F).
  Implicit Types (u v w : nat -> cx R) (p q : list mono) (rules A B : list rule).
  Let HO := fo_order F FO.

  Lemma k_invariant rules r k : good rules -> In r rules -> shaped r k -> invariant rules k.
  Proof.
    intros G H S1 u Au. assert (I0 := g_inv R F rules G r H u Au). rewrite !(shaped_value R F r k) in I0 by exact S1. pose proof S1 as [_ [_ Sk]].
    destruct (ru_partial r) eqn:P.
    - destruct Sk as [Er [Ne [Nh [Na Re]]]]. rewrite !(tail2_value R) in I0.
      assert (Fx : subst rules u (ru_lhs r) = cadd (value u k) (cmul half (csub (u (ru_lhs r)) (cmul (cmul (ru_dir r) (ru_dir r)) (cconj (u (ru_lhs r))))))).
      { unfold RuleBookProofs.subst. rewrite (sorted_find R F FO rules (g_rule R F rules G) (g_sorted R F rules G) r H), Er, (value_app R), (tail2_value R). reflexivity. }
      rewrite Fx, (tail2_norm R (ru_dir r) (u (ru_lhs r)) (value u k) Ne (Re u Au)) in I0.
      set (d := cmul half (csub (u (ru_lhs r)) (cmul (cmul (ru_dir r) (ru_dir r)) (cconj (u (ru_lhs r)))))) in *.
      transitivity (csub (cadd (value (subst rules u) k) d) d); [ring|]. rewrite I0. ring.
    - transitivity (csub (cadd (value (subst rules u) k) c0) c0); [ring|]. rewrite I0. ring.
  Qed.
  Section Two.
    Variables A B : list rule.
    Hypothesis GA : good A.
    Hypothesis GB : good B.
    Hypothesis EQ : forall v, asg v -> (obeys v A <-> obeys v B).
    Let sA u (Hu : asg u) : asg (subst A u) := subst_asg R F A u (g_rule R F A GA) Hu.
    Let sB u (Hu : asg u) : asg (subst B u) := subst_asg R F B u (g_rule R F B GB) Hu.
    Lemma BA u i : asg u -> subst B (subst A u) i = subst A u i.
    Proof.
      intro Hu. apply (obeys_iff R F FO B _ (g_rule R F B GB) (g_sorted R F B GB)). apply EQ; [now apply sA|]. now apply (subst_obeys R F FO).
    Qed.
    (** lower symbols already agree *)
    Definition agree (i : nat) : Prop := forall u, asg u -> subst A u i = subst B u i.
    Lemma same_below k (i : nat) u : (forall x, In x k -> agree (m_id x)) -> asg u -> value (subst A u) k = value (subst B u) k.
    Proof. intros H Hu. apply (value_ext R). intros x Hx. now apply H. Qed.
    (** a rule of [B] that is not partial *)
    Lemma agree_full i r : (forall j, j < len -> key_less F j i = true -> agree j) -> find_rule B i = Some r -> ru_partial r = false -> agree i.
    Proof.
      intros IH E P u Hu. destruct (find_in R B i r E) as [Hr Er]. pose proof (g_rule R F B GB r Hr) as Gr. destruct (gr_shape R F r Gr) as [k Sk].
      pose proof Sk as [Lo [Ck Z]]. rewrite P in Z. assert (V : forall w, subst B w i = value w k) by (intro w; unfold RuleBookProofs.subst; now rewrite E, Z).
      assert (Ek : forall x, In x k -> agree (m_id x)) by (intros x Hx; apply IH; [apply (cp_terms t lt _ Ck x Hx)|rewrite <- Er; now apply Lo]).
      rewrite <- (BA u i Hu), V, (same_below k i u Ek Hu), (k_invariant B r k GB Hr Sk u Hu). symmetry. apply V.
    Qed.
    (** no rule in [A], a partial one in [B] *)
    Lemma agree_none i r : (forall j, j < len -> key_less F j i = true -> agree j) -> find_rule B i = Some r -> ru_partial r = true -> find_rule A i = None -> agree i.
    Proof.
      intros IH E P N u Hu. destruct (find_in R B i r E) as [Hr Er]. pose proof (g_rule R F B GB r Hr) as Gr. destruct (gr_shape R F r Gr) as [k Sk].
      pose proof Sk as [Lo [Ck Z]]. rewrite P in Z. destruct Z as [Z _]. rewrite Er in Z.
      assert (V : forall w, subst B w i = cadd (value w k) (value w (tail2 R i (ru_dir r)))) by (intro w; unfold RuleBookProofs.subst; now rewrite E, Z, (value_app R)).
      assert (Ek : forall x, In x k -> agree (m_id x)) by (intros x Hx; apply IH; [apply (cp_terms t lt _ Ck x Hx)|rewrite <- Er; now apply Lo]).
      rewrite <- (BA u i Hu), !V, (same_below k i u Ek Hu), (k_invariant B r k GB Hr Sk u Hu). f_equal. rewrite !(tail2_value R). unfold RuleBookProofs.subst. now rewrite N.
    Qed.
    Lemma two_partial (e f KA KB : cx R) : cnorm e = r1 R -> cmul (cmul e e) (cconj KA) = KA ->
      (forall z, let y := cadd KA (cmul half (csub z (cmul (cmul e e) (cconj z)))) in cadd KB (cmul half (csub y (cmul f (cconj y)))) = y) -> f = cmul e e /\ KA = KB.
    Proof.
      intros N HK H. cbv zeta in H. apply (norm1 R) in N. assert (H0 := H c0). assert (H1 := H c1). assert (H2 := H ci). clear H.
      pose proof (half_half R) as HH. pose proof (half_conj R) as HC.
      rewrite ?(cconj_add R), ?(cconj_mul R), ?(cconj_sub R), ?(cconj_mul R), ?(cconj_conj R), ?HC in H0, H1, H2.
      rewrite (cconj_0 R) in H0. rewrite (cconj_1 R) in H1. rewrite (cconj_i R) in H2.
      set (h := @half R) in *. set (g := cconj e) in *. set (k := cconj KA) in *.
      assert (E0 : KB = csub KA (cmul h (csub KA (cmul f k)))).
      { transitivity (csub (cadd KB (cmul h (csub (cadd KA (cmul h (csub c0 (cmul (cmul e e) c0)))) (cmul f (cadd k (cmul h (csub c0 (cmul (cmul g g) c0)))))))) (cmul h (csub KA (cmul f k)))); [ring|]. rewrite H0. ring. }
      (* coefficients of z and of its conjugate *)
      assert (Hh : h <> c0) by apply (half_ne R). assert (N2 : cmul (cmul e e) (cmul g g) = c1) by (transitivity (cmul (cmul e g) (cmul e g)); [ring|rewrite N; ring]).
      assert (Q : forall z c, cadd KB (cmul h (csub (cadd KA (cmul h (csub z (cmul (cmul e e) c)))) (cmul f (cadd k (cmul h (csub c (cmul (cmul g g) z))))))) = cadd KA (cmul h (csub z (cmul (cmul e e) c))) ->
        cadd (csub z (cmul (cmul e e) c)) (cmul f (csub c (cmul (cmul g g) z))) = c0).
      { intros z c Hz. rewrite E0 in Hz. assert (Hz' : cmul (cmul h h) (cadd (csub z (cmul (cmul e e) c)) (cmul f (csub c (cmul (cmul g g) z)))) = c0).
        { set (d := csub z (cmul (cmul e e) c)) in *. set (d' := csub c (cmul (cmul g g) z)) in *.
          transitivity (csub (cmul (cadd h h) (cmul h d)) (cmul (cmul h h) (csub d (cmul f d')))); [ring|]. rewrite HH.
          transitivity (csub (cadd KA (cmul h d)) (cadd (csub KA (cmul h (csub KA (cmul f k)))) (cmul h (csub (cadd KA (cmul h d)) (cmul f (cadd k (cmul h d'))))))); [ring|]. rewrite Hz. ring. }
        apply (cmul_zero R) in Hz' as [Hz'|Hz']; [|exact Hz']. apply (cmul_zero R) in Hz' as [Hz'|Hz']; contradiction. }
      apply Q in H1. apply Q in H2.
      assert (E1 : cadd (cmul (csub c1 (cmul f (cmul g g))) (cadd c1 c1)) c0 = c0).
      { transitivity (csub (cadd (csub c1 (cmul (cmul e e) c1)) (cmul f (csub c1 (cmul (cmul g g) c1)))) (cmul ci (cadd (csub ci (cmul (cmul e e) (copp ci))) (cmul f (csub (copp ci) (cmul (cmul g g) ci)))))).
        - transitivity (csub (cadd (csub c1 (cmul (cmul e e) c1)) (cmul f (csub c1 (cmul (cmul g g) c1)))) (cmul (cmul ci ci) (cadd (csub c1 (cmul (cmul e e) (copp c1))) (cmul f (csub (copp c1) (cmul (cmul g g) c1)))))); [|ring].
          rewrite (ci_sq R). ring.
        - rewrite H1, H2. ring. }
      assert (Two : cadd (@c1 R) c1 <> c0). { intro Z. apply (two_ne R). rewrite <- Z. apply cx_ext; cbn; ring. }
      assert (Ef : f = cmul e e).
      { assert (Z : cmul (csub c1 (cmul f (cmul g g))) (cadd c1 c1) = c0) by (rewrite <- E1; ring). apply (cmul_zero R) in Z as [Z|Z]; [|contradiction].
        transitivity (cmul f c1); [ring|]. rewrite <- N2. transitivity (cmul (cmul e e) (csub c1 (csub c1 (cmul f (cmul g g))))); [ring|]. rewrite Z. ring. }
      split; [exact Ef|]. rewrite E0, Ef, HK. ring.
    Qed.
    Lemma agree_partial i a r : (forall j, j < len -> key_less F j i = true -> agree j) -> find_rule B i = Some r -> ru_partial r = true -> find_rule A i = Some a -> ru_partial a = true -> agree i.
    Proof.
      intros IH E P N Pa u Hu. destruct (find_in R B i r E) as [Hr Er]. pose proof (g_rule R F B GB r Hr) as Gr. destruct (gr_shape R F r Gr) as [k Sk].
      destruct (find_in R A i a N) as [Ha Ea]. pose proof (g_rule R F A GA a Ha) as Gra. destruct (gr_shape R F a Gra) as [ka Ska]. destruct (gr_lhs R F a Gra) as [L1 L]. rewrite Ea in L1, L.
      pose proof Sk as [Lo [Ck Z]]. rewrite P in Z. destruct Z as [Z [Ne [_ [_ Re]]]]. rewrite Er in Z, Lo.
      pose proof Ska as [Loa [Cka Za]]. rewrite Pa in Za. destruct Za as [Za [Nea [Nh [Na Rea]]]]. rewrite Ea in Za, Loa, Nh, Na.
      assert (VB : forall w, subst B w i = cadd (value w k) (cmul half (csub (w i) (cmul (cmul (ru_dir r) (ru_dir r)) (cconj (w i)))))) by (intro w; unfold RuleBookProofs.subst; now rewrite E, Z, (value_app R), (tail2_value R)).
      assert (VA : forall w, subst A w i = cadd (value w ka) (cmul half (csub (w i) (cmul (cmul (ru_dir a) (ru_dir a)) (cconj (w i)))))) by (intro w; unfold RuleBookProofs.subst; now rewrite N, Za, (value_app R), (tail2_value R)).
      assert (Low : forall w, asg w -> value (subst A w) k = value w k).
      { intros w Hw. assert (Ek : forall x, In x k -> agree (m_id x)) by (intros x Hx; apply IH; [apply (cp_terms t lt _ Ck x Hx)|now apply Lo]).
        rewrite (same_below k i w Ek Hw). exact (k_invariant B r k GB Hr Sk w Hw). }
      destruct (two_partial (ru_dir a) (cmul (ru_dir r) (ru_dir r)) (value u ka) (value u k) Nea (turned R _ _ Nea (Rea u Hu))) as [Q1 Q2].
      - intro z. cbv zeta. pose proof (zero_asg R F u i Hu L1 Nh Na z) as Hz. assert (Hb := BA _ i Hz). rewrite VB, (Low _ Hz), VA, (upd_same R) in Hb.
        rewrite (value_upd R F FO u i z k L (canon_ok R F k Ck) Lo), (value_upd R F FO u i z ka L (canon_ok R F ka Cka) Loa) in Hb. exact Hb.
      - rewrite VA, VB, Q1, Q2. reflexivity.
    Qed.
  End Two.
  Lemma agree_sym A B i : agree A B i -> agree B A i. Proof. intros H u Hu. symmetry. now apply H. Qed.
  Lemma agree_all A B : good A -> good B -> (forall v, asg v -> (obeys v A <-> obeys v B)) -> forall i, i < len -> agree A B i.
  Proof.
    intros GA GB EQ. destruct HO as [rk [Ij O]].
    assert (K : forall i j, i < len -> j < len -> (key_less F i j = true <-> (rk i < rk j)%N)).
    { intros i j Hi Hj. unfold key_less. rewrite (O (mk_mono i false c1) (mk_mono j false c1) Hi Hj). cbn. split; [intros [H|[_ [_ H]]]; [exact H|discriminate]|now left]. }
    assert (W : forall n i, N.to_nat (rk i) < n -> i < len -> agree A B i); [|intros i Hi; exact (W (S (N.to_nat (rk i))) i (Nat.lt_succ_diag_r _) Hi)].
    induction n as [|n IHn]; intros i Hn Hi; [lia|].
    assert (IH : forall j, j < len -> key_less F j i = true -> agree A B j). { intros j Hj H. apply K in H; auto. apply IHn; auto. lia. }
    assert (IH' : forall j, j < len -> key_less F j i = true -> agree B A j) by (intros; apply agree_sym; auto).
    assert (EQ' : forall v, asg v -> (obeys v B <-> obeys v A)) by (intros v Hv; symmetry; auto).
    destruct (find_rule B i) as [b|] eqn:Eb; [destruct (ru_partial b) eqn:Pb|].
    - destruct (find_rule A i) as [a|] eqn:Ea; [destruct (ru_partial a) eqn:Pa|].
      + now apply (agree_partial A B GA GB EQ i a b).
      + apply agree_sym. now apply (agree_full B A GB GA EQ' i a).
      + now apply (agree_none A B GA GB EQ i b).
    - now apply (agree_full A B GA GB EQ i b).
    - destruct (find_rule A i) as [a|] eqn:Ea; [destruct (ru_partial a) eqn:Pa|].
      + apply agree_sym. now apply (agree_none B A GB GA EQ' i a).
      + apply agree_sym. now apply (agree_full B A GB GA EQ' i a).
      + intros u Hu. unfold RuleBookProofs.subst. now rewrite Ea, Eb.
  Qed.
  Definition core (r : rule) : nat * list mono * bool := (ru_lhs r, ru_rhs r, ru_partial r).
  Lemma core_find A B i : good A -> good B -> (forall v, asg v -> (obeys v A <-> obeys v B)) -> option_map core (find_rule A i) = option_map core (find_rule B i).
  Proof.
    intros GA GB EQ. destruct (le_lt_dec len i) as [L|L].
    - assert (N : forall C, good C -> find_rule C i = None). { intros C GC. apply find_not. intros r Hr E. destruct (gr_lhs R F r (g_rule R F C GC r Hr)). lia. }
      rewrite (N A GA), (N B GB). reflexivity.
    - pose proof (agree_all A B GA GB EQ i L) as H.
      assert (Nt : forall C r, good C -> find_rule C i = Some r -> ~ forall u, asg u -> value u (ru_rhs r) = u i).
      { intros C r GC E Hn. destruct (find_in R C i r E) as [Hr Er]. destruct (asg_exists R F FO) as [u Au].
        destruct (nontrivial R F FO r u (g_rule R F C GC r Hr) Au) as [z [Az Nz]]. apply Nz. rewrite (Hn _ Az), Er. now rewrite (upd_same R). }
      destruct (find_rule A i) as [a|] eqn:Ea, (find_rule B i) as [b|] eqn:Eb; cbn; [| | |reflexivity].
      + destruct (find_in R A i a Ea) as [Ha La]. destruct (find_in R B i b Eb) as [Hb Lb]. pose proof (g_rule R F A GA a Ha) as Ga. pose proof (g_rule R F B GB b Hb) as Gb.
        assert (Er : ru_rhs a = ru_rhs b). { apply (unique R F FO); [apply Ga|apply Gb|]. intros u Hu. specialize (H u Hu). unfold RuleBookProofs.subst in H. now rewrite Ea, Eb in H. }
        unfold core. rewrite Er, La, Lb. do 2 f_equal.
        assert (Sh : forall r, good_rule r -> ru_lhs r = i -> (ru_partial r = true <-> exists x, In x (ru_rhs r) /\ m_id x = i)).
        { intros r Gr Lr. destruct (gr_shape R F r Gr) as [k [Lo [Ck Sk]]]. destruct (ru_partial r).
          - split; [|reflexivity]. intros _. destruct Sk as [-> _]. exists (mk_mono (ru_lhs r) false half). split; [apply in_or_app; right; now left|exact Lr].
          - split; [discriminate|]. intros [x [Hx Ex]]. exfalso. rewrite Sk in Hx. destruct (gr_lhs R F r Gr) as [_ L']. apply (lower_neq R F FO _ _ x L' (canon_ok R F k Ck) Lo Hx). congruence. }
        pose proof (Sh a Ga La) as Sa. pose proof (Sh b Gb Lb) as Sb. rewrite Er, <- Sb in Sa. destruct (ru_partial a), (ru_partial b); try reflexivity; destruct Sa as [S1 S2]; [exact (eq_sym (S1 eq_refl))|exact (S2 eq_refl)].
      + exfalso. apply (Nt A a GA Ea). intros u Hu. specialize (H u Hu). unfold RuleBookProofs.subst in H. now rewrite Ea, Eb in H.
      + exfalso. apply (Nt B b GB Eb). intros u Hu. specialize (H u Hu). unfold RuleBookProofs.subst in H. now rewrite Ea, Eb in H.
  Qed.
  Lemma core_lhs (a b : rule) : core a = core b -> ru_lhs a = ru_lhs b. Proof. unfold core. congruence. Qed.
  Lemma core_lists A : forall B, (forall r, In r A -> good_rule r) -> (forall r, In r B -> good_rule r) -> StronglySorted before A -> StronglySorted before B ->
    (forall i, option_map core (find_rule A i) = option_map core (find_rule B i)) -> map core A = map core B.
  Proof.
    induction A as [|a A IH]; intros B GA GB SA SB H.
    - destruct B as [|b B]; [reflexivity|]. specialize (H (ru_lhs b)). unfold find_rule in H. cbn [find] in H. rewrite Nat.eqb_refl in H. discriminate.
    - destruct B as [|b B]; [specialize (H (ru_lhs a)); unfold find_rule in H; cbn [find] in H; rewrite Nat.eqb_refl in H; discriminate|].
      apply StronglySorted_inv in SA as [SA FA]. apply StronglySorted_inv in SB as [SB FB]. rewrite Forall_forall in FA, FB.
      assert (La : ru_lhs a < len) by (apply GA; now left). assert (Lb : ru_lhs b < len) by (apply GB; now left).
      assert (Ha := H (ru_lhs a)). assert (Hb := H (ru_lhs b)). unfold find_rule in Ha, Hb. cbn [find] in Ha, Hb. rewrite Nat.eqb_refl in Ha, Hb.
      destruct (Nat.eqb_spec (ru_lhs b) (ru_lhs a)) as [E|E].
      + cbn in Ha. injection Ha as Ha1 Ha2 Ha3. cbn [map]. f_equal; [unfold core; congruence|]. apply IH; auto; [intros; apply GA; now right|intros; apply GB; now right|].
        intro i. specialize (H i). unfold find_rule in H. cbn [find] in H. rewrite E in H. destruct (Nat.eqb_spec (ru_lhs a) i) as [Q|Q]; [|exact H].
        rewrite <- Q. assert (NA : find_rule A (ru_lhs a) = None). { apply find_not. intros x Hx Ex. exact (key_neq R F FO _ _ La (FA x Hx) (eq_sym Ex)). }
        assert (NB : find_rule B (ru_lhs a) = None). { apply find_not. intros x Hx Ex. apply (key_neq R F FO _ _ Lb (FB x Hx)). congruence. }
        now rewrite NA, NB.
      + exfalso. destruct (Nat.eqb_spec (ru_lhs a) (ru_lhs b)) as [E'|_]; [congruence|].
        destruct (find _ B) as [x|] eqn:Q1 in Ha; [|discriminate]. destruct (find _ A) as [y|] eqn:Q2 in Hb; [|discriminate].
        apply find_some in Q1 as [Q1 _]. apply find_some in Q2 as [Q2 _]. cbn in Ha, Hb. injection Ha as Ha _ _. injection Hb as Hb _ _.
        assert (K1 := FB x Q1). assert (K2 := FA y Q2). unfold RuleBookProofs.before in K1, K2. rewrite <- Ha in K1. rewrite Hb in K2. rewrite (key_asym R F FO _ _ La Lb K2) in K1. discriminate.
  Qed.
  Theorem unique_rules A B : good A -> good B -> (forall v, asg v -> (obeys v A <-> obeys v B)) -> map core A = map core B.
  Proof.
    intros GA GB EQ. apply core_lists; try apply GA; try apply GB. intro i. now apply core_find.
  Qed.

  (** ** equations from maps *)
  Lemma real_equation_spec i (x : R) : 1 < i -> i < len -> canonical t id_less (real_equation F (i, x)) /\ forall v, asg v -> value v (real_equation F (i, x)) = csub (v i) (creal x).
  Proof.
    intros L1 L. unfold real_equation. cbn [fst snd]. destruct (r_eqb R x (r0 R)) eqn:E.
    - apply (r_eqb_spec R) in E. subst x. unfold poly_of_mono. cbn [m_id m_f]. destruct (Nat.eqb_spec i 0) as [Q|_]; [lia|]. cbn [negb andb].
      assert (Z : is_zero (@c1 R) = false) by (apply (is_zero_false R), (c1_neq_0 R)). rewrite Z. cbn [negb]. split.
      + constructor; [repeat constructor|]. intros y [<-|[]]. cbn. split; [exact L|]. split; [apply (c1_neq_0 R)|]. split; [lia|reflexivity].
      + intros v Hv. rewrite (value_one R). unfold term_value. cbn [m_id m_cj m_f]. apply cx_ext; cbn; ring.
    - set (l := [mk_mono i false c1; mk_mono 1 false (creal (ropp R x))]).
      assert (Q : make_plain (fa_idsort F) l = make_poly t (fa_idsort F) l).
      { unfold make_poly, make_plain, fix_cc_in_place. cbn [fst andb]. f_equal. unfold l. cbn [map]. unfold fix_term. cbn [m_id m_cj m_f].
        destruct (herm t i); cbn [m_id m_cj m_f]; rewrite andb_false_r; destruct (herm t 1); cbn [m_id m_cj m_f]; rewrite andb_false_r; reflexivity. }
      assert (K : Forall (in_table t) l). { destruct (fo_starts F FO) as [s0 [s1 [l' [Es _]]]]. repeat constructor; unfold in_table; cbn; [exact L|rewrite Es; cbn; lia]. }
      rewrite Q. split; [apply (make_poly_canonical R t id_less (id_less_order R t) _ (fo_idsort F FO)); exact K|]. intros v Hv.
      rewrite (make_poly_value R t id_less _ (fo_idsort F FO) l v K Hv). unfold l. rewrite (value_cons R), (value_one R). unfold term_value. cbn [m_id m_cj m_f]. rewrite (as_one t v Hv). apply cx_ext; cbn; ring.
  Qed.
  Lemma complex_equation_spec i (x : cx R) : 1 < i -> i < len -> canon (complex_equation F (i, x)) /\ forall v, asg v -> value v (complex_equation F (i, x)) = csub (v i) x.
  Proof.
    intros L1 L. unfold complex_equation. cbn [fst snd]. destruct (ceqb x c0) eqn:E.
    - apply (ceqb_spec R) in E. subst x. unfold poly_of_mono. cbn [m_id m_f]. destruct (Nat.eqb_spec i 0) as [Q|_]; [lia|]. cbn [negb andb].
      assert (Z : is_zero (@c1 R) = false) by (apply (is_zero_false R), (c1_neq_0 R)). rewrite Z. cbn [negb]. split.
      + apply (canon_one R F); cbn; auto; [apply (c1_neq_0 R)|lia].
      + intros v Hv. rewrite (value_one R). unfold term_value. cbn [m_id m_cj m_f]. ring.
    - set (l := [mk_mono i false c1; mk_mono 1 false (copp x)]).
      assert (K : Forall (in_table t) l). { destruct (fo_starts F FO) as [s0 [s1 [l' [Es _]]]]. repeat constructor; unfold in_table; cbn; [exact L|rewrite Es; cbn; lia]. }
      split; [apply (make_poly_canonical R t lt HO _ (fo_sort F FO)); exact K|]. intros v Hv.
      rewrite (make_poly_value R t lt _ (fo_sort F FO) l v K Hv). unfold l. rewrite (value_cons R), (value_one R). unfold term_value. cbn [m_id m_cj m_f]. rewrite (as_one t v Hv). ring.
  Qed.
  (** ** in the factory's order *)
  Lemma real_equation_canonical i (x : R) : 1 < i -> i < len -> canon (real_equation F (i, x)).
  Proof.
    intros L1 L. destruct (real_equation_spec i x L1 L) as [C _]. destruct C as [S T]. constructor; [|exact T].
    assert (W : within R (fun j => j = 1 \/ j = i) (real_equation F (i, x))).
    { unfold real_equation. cbn [fst snd]. destruct (r_eqb R x (r0 R)).
      - unfold poly_of_mono. cbn [m_id m_f]. destruct (negb (Nat.eqb i 0) && negb (is_zero c1)); [|easy]. intros y [<-|[]]. now right.
      - unfold make_plain. apply (within_tidy R).
        + intros z Hz. apply (tidy_in R t id_less _ (fo_idsort F FO)); [|exact Hz]. destruct (fo_starts F FO) as [s0 [s1 [l' [Es _]]]].
          repeat constructor; unfold in_table; cbn; [exact L|rewrite Es; cbn; lia].
        + intros y [<-|[<-|[]]]; cbn; auto. }
    assert (M : forall a b, In a (real_equation F (i, x)) -> In b (real_equation F (i, x)) -> id_less a b = true -> lt a b = true).
    { intros a b Ha Hb H. pose proof (proj1 (T a Ha)) as Ka. pose proof (proj1 (T b Hb)) as Kb. pose proof (W a Ha) as Wa. pose proof (W b Hb) as Wb. cbv beta in Wa, Wb.
      unfold id_less in H. destruct (Nat.ltb_spec (m_id a) (m_id b)) as [Q|Q].
      - destruct Wa as [Wa|Wa], Wb as [Wb|Wb]; rewrite Wa, Wb in Q; try lia. apply (fo_first F FO a b Ka Kb Wa). now rewrite Wb.
      - destruct (Nat.ltb_spec (m_id b) (m_id a)) as [Q'|Q']; [discriminate|]. destruct HO as [rk [Ij O]]. apply (O a b Ka Kb). right.
        split; [lia|]. now destruct (m_cj a), (m_cj b). }
    clear T W. revert S M. generalize (real_equation F (i, x)). intros p S M. induction S as [|a p S IH Fa]; constructor.
    - apply IH. intros; apply M; auto; now right.
    - apply Forall_forall. intros b Hb. rewrite Forall_forall in Fa. apply M; [now left|now right|now apply Fa].
  Qed.
End Unique.
