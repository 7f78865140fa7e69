(** Proofs about making one rule from a polynomial. *)
From Coq Require Import List NArith ZArith Arith Bool Sorted Permutation Lia Ring Field.
From Verif Require Import CoreModel FieldModel FieldProofs SymModel SymSpec PolyModel PolySpec PolyProofs PolyOpsProofs PolyTableProofs PolyFinalProofs RuleModel RuleSpec RuleProofs.
Import ListNotations.

Section Make.
  Variable R : rfield.
  Add Field Rf : (r_field R).
  Add Field Cf : (cx_field R).
  Notation mono := (mono R).
  Notation rule := (rule R).
  Variable F : factory R.
  Hypothesis FO : factory_ok F.
  Notation t := (fa_table F).
  Notation lt := (fa_lt F).
  Notation srt := (fa_sort F).
  Notation ok := (@in_table R t).
  Notation len := (length (t_syms t)).
  Notation canon := (canonical t lt).
  Notation asg := (assignment (R := R) t).
  Notation lower := (lower R F).
  Notation within := (within R).
  Implicit Types (u v w : nat -> cx R) (p q : list mono).
  Let HO := fo_order F FO.
  Let HS := fo_sort F FO.
  Let two := creal (radd R (r1 R) (r1 R)).
  Lemma two_ne : two <> c0. Proof. intro H. apply (f_equal cre) in H. cbn in H. now apply (two_neq_0 R). Qed.
  Lemma two_half : cmul two half = c1. Proof. apply cx_ext; cbn; field; apply (two_neq_0 R). Qed.
  Lemma two_conj : cconj two = two. Proof. apply cx_ext; cbn; ring. Qed.
  Lemma half_ne : @half R <> c0. Proof. intro H. pose proof two_half as E. rewrite H in E. apply (c1_neq_0 R). rewrite <- E. ring. Qed.
  Lemma cnorm_conj (z : cx R) : cmul z (cconj z) = creal (cnorm z). Proof. apply cx_ext; cbn; unfold cnorm; ring. Qed.
  Lemma mul_nonzero (x y : cx R) : x <> c0 -> y <> c0 -> cmul x y <> c0.
  Proof. intros A B H. apply (cmul_zero R) in H as [H|H]; auto. Qed.
  Lemma div_nonzero (x y : cx R) : x <> c0 -> y <> c0 -> cdiv x y <> c0.
  Proof. intros A B H. apply A. replace x with (cmul (cdiv x y) y) by (field; exact B). rewrite H. ring. Qed.
  Lemma conj_nonzero (x : cx R) : x <> c0 -> cconj x <> c0. Proof. intros A H. apply A. now apply (cconj_zero R). Qed.
  Lemma opp_nonzero (x : cx R) : x <> c0 -> copp x <> c0. Proof. intros A H. apply A. replace x with (copp (copp x)) by ring. rewrite H. ring. Qed.
  Lemma opp1_ne : copp (@c1 R) <> c0. Proof. apply opp_nonzero, (c1_neq_0 R). Qed.
  Lemma conj_div (x y : cx R) : y <> c0 -> cconj (cdiv x y) = cdiv (cconj x) (cconj y).
  Proof.
    intro H. pose proof (conj_nonzero y H) as H'. replace (cconj x) with (cmul (cconj (cdiv x y)) (cconj y)); [field; exact H'|].
    rewrite <- (cconj_mul R). f_equal. field. exact H.
  Qed.

  (** ** pop_back_and_normalize *)
  Definition maybe_conj (b : bool) (z : cx R) : cx R := if b then cconj z else z.
  Lemma pop_spec p x : canon p -> m_f x <> c0 ->
    fst (pop_normalize F (p ++ [x])) = m_id x /\ canon (snd (pop_normalize F (p ++ [x]))) /\
    (forall u, asg u -> value u (snd (pop_normalize F (p ++ [x]))) = maybe_conj (m_cj x) (cdiv (copp (value u p)) (m_f x))) /\
    (forall Q, within Q p -> within Q (snd (pop_normalize F (p ++ [x])))).
  Proof.
    intros C N. unfold pop_normalize. rewrite rev_app_distr. cbn [rev app]. rewrite removelast_last. cbn [fst snd].
    set (f := cdiv (copp c1) (m_f x)). set (q := if ceqb f c1 then p else scale f p).
    assert (Cq : canon q) by (unfold q; destruct (ceqb f c1); [exact C|now apply (scale_canonical R t lt)]).
    assert (Vq : forall u, value u q = cdiv (copp (value u p)) (m_f x)).
    { intro u. transitivity (cmul f (value u p)); [|unfold f; field; exact N]. unfold q. destruct (ceqb f c1) eqn:E; [|apply (scale_value R)].
      apply ceqb_spec in E. rewrite E. ring. }
    assert (Wq : forall Q, within Q p -> within Q q) by (intros Q A; unfold q; destruct (ceqb f c1); [exact A|now apply within_scale]).
    split; [reflexivity|]. destruct (m_cj x); cbn [maybe_conj].
    - split; [now apply (conjugate_canonical R t lt HO)|]. split.
      + intros u A. rewrite (conjugate_value R t lt HO u q A Cq). now rewrite Vq.
      + intros Q A. apply (within_conj R F FO Q q Cq). auto.
    - auto.
  Qed.

  (** ** split_regular_rule *)
  Definition real_valued p : Prop := forall u, asg u -> cim (value u p) = r0 R.
  Definition imag_valued p : Prop := forall u, asg u -> cre (value u p) = r0 R.
  (** the right hand side of a rule for symbol [i] has the same kind of values *)
  Definition fits (i : nat) p : Prop := (herm t i = true -> real_valued p) /\ (anti t i = true -> imag_valued p).
  Lemma asg_real u i : asg u -> i < len -> herm t i = true -> cim (u i) = r0 R.
  Proof. intros A L H. destruct (in_table_sym t i L) as [s E]. apply (as_herm t u A i s E). now rewrite <- (herm_sym t i s E). Qed.
  Lemma asg_imag u i : asg u -> i < len -> anti t i = true -> cre (u i) = r0 R.
  Proof. intros A L H. destruct (in_table_sym t i L) as [s E]. apply (as_anti t u A i s E). now rewrite <- (anti_sym t i s E). Qed.
  Record split_ok (i : nat) (P P' : list mono) (s : option (list mono)) : Prop := mk_split_ok {
    so_canon : canon P';
    so_equiv : forall u, asg u -> (u i = value u P <-> u i = value u P' /\ forall q, s = Some q -> value u q = c0);
    so_fits : fits i P';
    so_split : forall q, s = Some q -> canon q /\ real_valued q;
    so_same : forall u w, asg u -> asg w -> value u P = value w P -> value u P' = value w P';
    so_within : forall Q, within Q P -> within Q P';
    so_none : fits i P -> s = None }.
  Lemma split_spec i P : 1 < i -> i < len -> canon P -> split_ok i P (fst (split_regular F i P)) (snd (split_regular F i P)).
  Proof.
    intros L1 L C. unfold split_regular. destruct (Nat.leb_spec i 1) as [H|_]; [lia|].
    destruct (parts_spec R t lt srt P HO HS C) as [[Cr Vr] [Ci Vi]].
    destruct (herm_spec R t lt P HO (fo_starts F FO) (fo_null F FO) C) as [Hh Ha].
    destruct (herm t i) eqn:Eh; [assert (Ea : anti t i = false) by (destruct (anti t i) eqn:Ea; [destruct (fo_null F FO i); auto; lia|reflexivity])|destruct (anti t i) eqn:Ea].
    - destruct (is_hermitian t P) eqn:E; cbn [fst snd].
      + constructor; auto; try (intros; discriminate).
        * intros u A. split; [intro G; split; [exact G|intros; discriminate]|now intros [G _]].
        * split; [intros _; exact (proj1 Hh eq_refl)|congruence].
      + constructor; auto.
        * intros u A. pose proof (asg_real u i A L Eh) as Hu. split.
          -- intro G. split; [rewrite (Vr u A); apply cx_ext; cbn; [now rewrite G|exact Hu]|].
             intros q [= <-]. rewrite (Vi u A), <- G, Hu. reflexivity.
          -- intros [G1 G2]. rewrite G1, (Vr u A). specialize (G2 _ eq_refl). rewrite (Vi u A) in G2. apply (f_equal cre) in G2. cbn in G2.
             apply cx_ext; cbn; [reflexivity|now rewrite G2].
        * split; [intros _ u A; now rewrite (Vr u A)|congruence].
        * intros q [= <-]. split; [exact Ci|]. intros u A. now rewrite (Vi u A).
        * intros u w A B G. rewrite (Vr u A), (Vr w B), G. reflexivity.
        * intros Q W. now apply within_real.
        * intros [G _]. specialize (G Eh). apply Hh in G. congruence.
    - destruct (is_antihermitian t P) eqn:E; cbn [fst snd].
      + constructor; auto; try (intros; discriminate).
        * intros u A. split; [intro G; split; [exact G|intros; discriminate]|now intros [G _]].
        * split; [congruence|intros _; exact (proj1 Ha eq_refl)].
      + assert (Vs : forall u, asg u -> value u (scale ci (imag_part t srt P)) = mk_cx (r0 R) (cim (value u P))).
        { intros u A. rewrite (scale_value R), (Vi u A). apply cx_ext; cbn; ring. }
        constructor; auto.
        * now apply (scale_canonical R t lt).
        * intros u A. pose proof (asg_imag u i A L Ea) as Hu. split.
          -- intro G. split; [rewrite (Vs u A); apply cx_ext; cbn; [exact Hu|now rewrite G]|].
             intros q [= <-]. rewrite (Vr u A), <- G, Hu. reflexivity.
          -- intros [G1 G2]. rewrite G1, (Vs u A). specialize (G2 _ eq_refl). rewrite (Vr u A) in G2. apply (f_equal cre) in G2. cbn in G2.
             apply cx_ext; cbn; [now rewrite G2|reflexivity].
        * split; [congruence|intros _ u A; now rewrite (Vs u A)].
        * intros q [= <-]. split; [exact Cr|]. intros u A. now rewrite (Vr u A).
        * intros u w A B G. rewrite (Vs u A), (Vs w B), G. reflexivity.
        * intros Q W. apply within_scale. now apply within_imag.
        * intros [_ G]. specialize (G Ea). apply Ha in G. congruence.
    - cbn [fst snd]. constructor; auto; try (intros; discriminate).
      + intros u A. split; [intro G; split; [exact G|intros; discriminate]|now intros [G _]].
      + split; congruence.
  Qed.

  (** ** changing one symbol *)
  Definition upd u (i : nat) (z : cx R) (j : nat) : cx R := if Nat.eqb j i then z else u j.
  Lemma upd_same u i z : upd u i z i = z. Proof. unfold upd. now rewrite Nat.eqb_refl. Qed.
  Lemma upd_other u i z j : j <> i -> upd u i z j = u j. Proof. intro H. unfold upd. destruct (Nat.eqb_spec j i); [contradiction|reflexivity]. Qed.
  Lemma upd_asg u i z : asg u -> 1 < i -> (herm t i = true -> cim z = r0 R) -> (anti t i = true -> cre z = r0 R) -> asg (upd u i z).
  Proof.
    intros A L H1 H2. constructor.
    - rewrite upd_other by lia. apply A.
    - rewrite upd_other by lia. apply A.
    - intros j s E Hs. destruct (Nat.eq_dec j i) as [->|N]; [rewrite upd_same; apply H1; now rewrite (herm_sym t i s E)|].
      rewrite upd_other by exact N. now apply (as_herm t u A j s E).
    - intros j s E Hs. destruct (Nat.eq_dec j i) as [->|N]; [rewrite upd_same; apply H2; now rewrite (anti_sym t i s E)|].
      rewrite upd_other by exact N. now apply (as_anti t u A j s E).
  Qed.
  Lemma value_upd u i z p : i < len -> Forall ok p -> lower i p -> value (upd u i z) p = value u p.
  Proof. intros L K H. apply value_ext. intros x Hx. apply upd_other. now apply (lower_neq R F FO i p x). Qed.

  (** ** the shape of rules: [k] is the right hand side without the symbol itself *)
  Definition tail2 (i : nat) (e : cx R) : list mono := [mk_mono i false half; mk_mono i true (cmul (cmul (copp e) e) half)].
  Definition shaped (r : rule) (k : list mono) : Prop :=
    lower (ru_lhs r) k /\ canon k /\
    if ru_partial r then ru_rhs r = k ++ tail2 (ru_lhs r) (ru_dir r) /\ cnorm (ru_dir r) = r1 R /\ herm t (ru_lhs r) = false /\ anti t (ru_lhs r) = false /\
      (forall u, asg u -> cim (cmul (cconj (ru_dir r)) (value u k)) = r0 R)
    else ru_rhs r = k.
  Record made_ok (q rest tl k : list mono) (r : rule) : Prop := mk_made_ok {
    mo_lhs : 1 < ru_lhs r /\ ru_lhs r < len;
    mo_canon : canon (ru_rhs r);
    mo_shape : shaped r k;
    mo_fits : fits (ru_lhs r) (ru_rhs r);
    mo_equiv : forall u, asg u -> (value u q = c0 <-> u (ru_lhs r) = value u (ru_rhs r) /\ forall s, ru_split r = Some s -> value u s = c0);
    mo_split : forall s, ru_split r = Some s -> canon s /\ real_valued s;
    mo_none : real_valued q -> ru_split r = None;
    mo_same : forall u w, asg u -> asg w -> value u rest = value w rest -> value u k = value w k;
    mo_within : forall Q, within Q rest -> within Q k;
    mo_rest : canon rest /\ lower (ru_lhs r) rest;
    mo_tail : q = rest ++ tl;
    mo_form : if ru_partial r then exists a, a <> c0 /\ tl = [mk_mono (ru_lhs r) false a; mk_mono (ru_lhs r) true (cmul (cmul (ru_dir r) (ru_dir r)) a)]
      else (exists cj f, f <> c0 /\ tl = [mk_mono (ru_lhs r) cj f]) \/ (exists a b, cnorm a <> cnorm b /\ tl = [mk_mono (ru_lhs r) false a; mk_mono (ru_lhs r) true b]) }.

  Lemma conj_zero_iff (z : cx R) b : maybe_conj b z = c0 <-> z = c0.
  Proof. destruct b; cbn; [apply (cconj_zero R)|reflexivity]. Qed.
  (** a rule of the form f X + rest = 0 *)
  Lemma simple_spec rest i cj f r : canon rest -> lower i rest -> canon (rest ++ [mk_mono i cj f]) -> 1 < i ->
    regular_rule F i (rest ++ [mk_mono i cj f]) = Made r -> exists k, made_ok (rest ++ [mk_mono i cj f]) rest [mk_mono i cj f] k r.
  Proof.
    intros Cr Lo C L1 E. destruct (cp_terms t lt _ C (mk_mono i cj f)) as [L [Nf [_ Hcj]]]; [apply in_or_app; right; now left|]. cbn in L, Nf, Hcj. unfold in_table in L. cbn in L.
    destruct (pop_spec rest (mk_mono i cj f) Cr Nf) as [_ [Cp [Vp Wp]]]. cbn [m_cj m_f] in Vp. unfold regular_rule in E. injection E as <-.
    set (P := snd (pop_normalize F (rest ++ [mk_mono i cj f]))) in *. pose proof (split_spec i P L1 L Cp) as [A1 A2 A3 A4 A5 A6 A7].
    set (P' := fst (split_regular F i P)) in *. set (s := snd (split_regular F i P)) in *.
    exists P'. assert (Lo' : lower i P') by (apply (A6 (fun j => key_less F j i = true)); apply Wp; exact Lo).
    assert (VQ : forall u, value u (rest ++ [mk_mono i cj f]) = cadd (value u rest) (cmul f (maybe_conj cj (u i)))).
    { intro u. rewrite (value_app R), (value_one R). unfold term_value. cbn. destruct cj; reflexivity. }
    assert (G : forall u, asg u -> (value u (rest ++ [mk_mono i cj f]) = c0 <-> u i = value u P)).
    { intros u A. rewrite VQ, (Vp u A). split; intro H.
      - assert (H' : maybe_conj cj (u i) = cdiv (copp (value u rest)) f) by (replace (copp (value u rest)) with (cmul f (maybe_conj cj (u i))); [field; exact Nf|];
          replace (copp (value u rest)) with (csub (cmul f (maybe_conj cj (u i))) (cadd (value u rest) (cmul f (maybe_conj cj (u i))))) by ring; rewrite H; ring).
        rewrite <- H'. destruct cj; cbn; [now rewrite (cconj_conj R)|reflexivity].
      - rewrite H. destruct cj; cbn; rewrite ?(cconj_conj R); field; exact Nf. }
    constructor; cbn [ru_lhs ru_rhs ru_partial ru_dir ru_split]; auto.
    - split; [exact Lo'|]. split; [exact A1|reflexivity].
    - intros u A. rewrite (G u A). apply (A2 u A).
    - intro RV. apply A7.
      assert (Kr : forall u z, asg (upd u i z) -> asg u -> cim (cadd (value u rest) (cmul f (maybe_conj cj z))) = r0 R).
      { intros u z A' A. specialize (RV _ A'). rewrite VQ, upd_same, (value_upd u i z rest L (canon_ok R F rest Cr) Lo) in RV. exact RV. }
      assert (K0 : real_valued rest).
      { intros u A. assert (A' : asg (upd u i c0)) by (apply upd_asg; auto). specialize (Kr u c0 A' A). rewrite <- Kr. f_equal. destruct cj; cbn [maybe_conj]; rewrite ?(cconj_0 R); ring. }
      assert (A0 : exists u : nat -> cx R, asg u).
      { exists (pick R 2 c0). destruct (fo_starts F FO) as [s0 [s1 [l [E [H1 H2]]]]]. constructor; try reflexivity.
        - intros j y _ _. unfold pick. destruct (j =? 1); [reflexivity|]. destruct (j =? 2); reflexivity.
        - intros j y Q Hy. unfold pick. destruct (Nat.eqb_spec j 1) as [->|N]; [rewrite E in Q; cbn in Q; injection Q as <-; congruence|]. destruct (j =? 2); reflexivity. }
      destruct A0 as [u0 A0]. pose proof (K0 u0 A0) as R0. split; intro Hx.
      + assert (cj = false) by (apply Hcj; auto). subst cj. assert (Rf : cconj f = f).
        { assert (A' : asg (upd u0 i c1)). { apply upd_asg; auto. intro H'. destruct (fo_null F FO i); auto. lia. }
          specialize (Kr u0 c1 A' A0). cbn [maybe_conj] in Kr. apply (creal_part R). cbn in Kr. rewrite R0 in Kr.
          rewrite <- Kr. ring. }
        intros u A. rewrite (Vp u A). cbn [maybe_conj]. apply (creal_part R). rewrite (conj_div _ _ Nf), (cconj_opp R), Rf. f_equal. f_equal.
        apply (creal_part R). now apply K0.
      + assert (cj = false) by (apply Hcj; auto). subst cj. assert (Rf : cconj f = copp f).
        { assert (A' : asg (upd u0 i ci)). { apply upd_asg; auto. intro H'. destruct (fo_null F FO i); auto. lia. }
          specialize (Kr u0 ci A' A0). cbn [maybe_conj] in Kr. apply (cimag_part R). cbn in Kr. rewrite R0 in Kr. rewrite <- Kr. ring. }
        intros u A. rewrite (Vp u A). cbn [maybe_conj]. apply (cimag_part R). rewrite (conj_div _ _ Nf), (cconj_opp R), Rf.
        replace (cconj (value u rest)) with (value u rest) by (symmetry; apply (creal_part R); now apply K0). field. split; [exact Nf|now apply opp_nonzero].
    - intros u w A B H. apply A5; auto. rewrite (Vp u A), (Vp w B), H. reflexivity.
    - left. exists cj, f. auto.
  Qed.
End Make.
