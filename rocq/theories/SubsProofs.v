(** Matrices with substitutions: proofs. *)
From Coq Require Import List NArith ZArith Arith Bool Sorted Permutation Lia Ring Field.
From Verif Require Import CoreModel FieldModel FieldProofs SymModel SymSpec PolyModel PolySpec PolyProofs PolyOpsProofs PolyTableProofs PolyFinalProofs PolyBasisModel RuleModel RuleSpec RuleProofs RuleMakeProofs RuleOrientProofs
  RuleBookProofs RuleLoopProofs RuleFinalProofs RuleThmProofs BasModel BasSpec BasFinalProofs BasThmProofs TransModel SubsModel SubsSpec.
Import ListNotations.

Section Subs.
  Variable R : rfield.
  Add Field Rf : (r_field R).
  Add Field Cf : (cx_field R).
  Notation mono := (mono R).
  Notation rule := (rule R).
  Notation rulebook := (rulebook (R := R)).
  Variable F : factory R.
  Hypothesis FO : factory_ok F.
  Notation t := (fa_table F).
  Notation lt := (fa_lt F).
  Notation canon := (canonical t lt).
  Notation asg := (assignment (R := R) t).
  Variable psrt : list (list mono) -> list (list mono).
  Hypothesis PS : forall l, Permutation l (psrt l).
  Variable nonneg : R -> bool.
  Notation subst := (RuleBookProofs.subst R).
  Notation make := (create_substituted F nonneg).

  Lemma st_map {A B} (f : A -> B) l : transform_st (fun x => Some (f x)) l = Some (map f l).
  Proof. induction l as [|x l IH]; cbn; [reflexivity|now rewrite IH]. Qed.
  Lemma session_good b eqs : session F psrt b eqs -> good R F (rb_rules b).
  Proof. intros S. exact (st_good R F b eqs (session_state R F FO psrt PS b eqs S)). Qed.
  Lemma no_rule rules i : good R F rules -> i <= 1 -> find_rule rules i = None.
  Proof. intros G Hi. apply (find_not R). intros r Hr E. pose proof (gr_lhs R F r (g_rule R F rules G r Hr)). lia. Qed.
  (** the zero symbol *)
  Lemma zero_value v (x : mono) : asg v -> m_id x = 0 -> value v [x] = c0.
  Proof. intros A E. cbn [value fold_right]. unfold term_value. rewrite E, (as_zero t v A). destruct (m_cj x); rewrite ?(cconj_0 R); ring. Qed.
  Lemma poly_mono_value v (x : mono) : asg v -> value v (poly_of_mono x) = value v [x].
  Proof.
    intros A. unfold poly_of_mono. destruct (Nat.eqb_spec (m_id x) 0) as [E|E]; cbn [negb andb]; [now rewrite (zero_value v x A E)|].
    destruct (is_zero (m_f x)) eqn:Z; cbn [negb]; [|reflexivity]. apply (is_zero_true R) in Z. cbn [value fold_right]. unfold term_value. rewrite Z. ring.
  Qed.
  Definition tidy (x : mono) : Prop := m_id x = 0 \/ canon [x].
  Lemma tidy_in x : tidy x -> in_table t x.
  Proof.
    intros [E|C]; [|exact (proj1 (cp_terms t lt _ C x (or_introl eq_refl)))]. unfold in_table. rewrite E. destruct (fo_starts F FO) as (s0 & s1 & l & E' & _). rewrite E'. cbn. lia.
  Qed.
  (** ** one element *)
  Lemma poly_value rules p v : good R F rules -> canon p -> asg v -> value v (reduce F rules p) = value (subst rules v) p.
  Proof. intros G C A. exact (reduce_value R F FO v rules p (good_ok R F rules G) C A). Qed.
  Lemma promoted_value rules x v : good R F rules -> tidy x -> asg v -> value v (reduce_mono F rules x) = value (subst rules v) [x].
  Proof.
    intros G [E|C] A.
    - unfold reduce_mono. rewrite E, (no_rule rules 0 G ltac:(lia)), (poly_mono_value v x A), (zero_value v x A E). symmetry. apply zero_value; [|exact E].
      apply (subst_asg R F); [exact (g_rule R F rules G)|exact A].
    - rewrite (reduce_mono_eq R F rules x G C). now apply poly_value.
  Qed.
  Lemma mono_value rules x y v : good R F rules -> tidy x -> asg v -> reduce_monomial F rules x = Some y -> value v [y] = value (subst rules v) [x].
  Proof.
    intros G [E|C] A H.
    - unfold reduce_monomial in H. rewrite E, (no_rule rules 0 G ltac:(lia)) in H. injection H as <-. rewrite (zero_value v x A E). symmetry. apply zero_value; [|exact E].
      apply (subst_asg R F); [exact (g_rule R F rules G)|exact A].
    - pose proof (reduce_monomial_spec R F FO rules x G C) as S. rewrite H in S. rewrite <- (poly_mono_value v y A), <- S. now apply poly_value.
  Qed.
  Lemma mono_in rules x y : good R F rules -> tidy x -> reduce_monomial F rules x = Some y -> in_table t y /\ (m_id y = 0 \/ ~ determined rules (m_id y)).
  Proof.
    intros G [E|C] H.
    - unfold reduce_monomial in H. rewrite E, (no_rule rules 0 G ltac:(lia)) in H. injection H as <-. split; [apply tidy_in; now left|now left].
    - pose proof (reduce_monomial_spec R F FO rules x G C) as S. rewrite H in S. pose proof (reduce_free R F FO rules [x] G C) as W. rewrite S in W. unfold poly_of_mono in *.
      pose proof (reduce_canonical R F FO rules [x] (good_ok R F rules G) C) as Cy. rewrite S in Cy. unfold poly_of_mono in Cy.
      destruct (Nat.eqb_spec (m_id y) 0) as [E|E]; cbn [negb andb] in *; [split; [apply tidy_in; now left|now left]|].
      destruct (is_zero (m_f y)) eqn:Z; cbn [negb] in *.
      + exfalso. unfold reduce_monomial in H. destruct (find_rule rules (m_id x)) as [r|] eqn:Q.
        * destruct (length (ru_rhs r) <=? 1) eqn:L; [|discriminate]. apply (find_in R) in Q. destruct Q as (Hr & Er). unfold rule_reduce_monomial in H. rewrite Er, Nat.eqb_refl in H. cbn [negb] in H.
          destruct (ru_rhs r) as [|z l] eqn:Q; [injection H as <-; now apply E|]. apply (is_zero_true R) in Z.
          assert (Cr : canon (ru_rhs r)) by exact (gr_canon R F r (g_rule R F rules G r Hr)). rewrite Q in Cr. destruct (cp_terms t lt _ Cr z (or_introl eq_refl)) as (_ & Nz & N0 & _).
          destruct (cp_terms t lt _ C x (or_introl eq_refl)) as (_ & Nx & _ & _).
          set (w := if m_cj x then mk_mono (m_id z) (negb (m_cj z)) (cmul (m_f x) (cconj (m_f z))) else mk_mono (m_id z) (m_cj z) (cmul (m_f x) (m_f z))) in *.
          assert (Iw : m_id w = m_id z) by (unfold w; now destruct (m_cj x)).
          assert (Nw : m_f w <> c0) by (unfold w; destruct (m_cj x); cbn; apply (mul_nonzero R); auto; now apply (conj_nonzero R)).
          injection H as <-. unfold make_canonical in Z. rewrite Iw in Z. apply Nat.eqb_neq in N0. rewrite N0 in Z. unfold fix_term in Z.
          destruct (herm t (m_id w)); cbn [m_f m_cj m_id] in Z; [rewrite andb_false_r in Z; contradiction|]. destruct (anti t (m_id w) && m_cj w); cbn [m_f] in Z; [apply (opp_nonzero R) in Nw|]; contradiction.
        * injection H as <-. apply (is_zero_true R) in Z. destruct (cp_terms t lt _ C x (or_introl eq_refl)) as (_ & Nx & _ & _). contradiction.
      + split; [exact (proj1 (cp_terms t lt _ Cy y (or_introl eq_refl)))|]. right. exact (W y (or_introl eq_refl)).
  Qed.
  Lemma promoted_canon rules x : good R F rules -> tidy x -> canon (reduce_mono F rules x) /\ forall y, In y (reduce_mono F rules x) -> ~ determined rules (m_id y).
  Proof.
    intros G [E|C].
    - unfold reduce_mono. rewrite E, (no_rule rules 0 G ltac:(lia)). unfold poly_of_mono. rewrite E. cbn. split; [apply nil_canonical|intros y []].
    - rewrite (reduce_mono_eq R F rules x G C). split; [exact (reduce_canonical R F FO rules [x] (good_ok R F rules G) C)|exact (reduce_free R F FO rules [x] G C)].
  Qed.
  Lemma determined_pos rules i : good R F rules -> determined rules i -> 1 < i.
  Proof. intros G (r & Hr & <- & _). exact (proj1 (gr_lhs R F r (g_rule R F rules G r Hr))). Qed.

  (** ** the matrix *)
  (** what is known of the result: dimension, and element by element *)
  Record outcome_of (rules : list rule) (d : nat) (s : source (R := R)) (m : smat R) : Prop := {
    o_dim : sm_dim m = d;
    o_len : length (sm_cells m) = d * d;
    o_value : forall v, asg v -> forall r c, r < d -> c < d -> value v (result_entry m r c) = value (subst rules v) (source_entry d s r c);
    o_free : forall p x, In p (sm_cells m) -> In x p -> ~ determined rules (m_id x) }.
  Lemma place r c d : r < d -> c < d -> c * d + r < d * d.
  Proof. intros H H'. assert (S c * d <= d * d) by (apply Nat.mul_le_mono_r; lia). cbn in *. lia. Qed.
  Lemma poly_made (cells : list (list mono)) d : Forall canon cells -> exists m, poly_matrix t nonneg d cells = Some m /\ sm_dim m = d /\ sm_cells m = cells /\ sm_herm m = test_hermicity t d cells.
  Proof.
    intros C. unfold poly_matrix. cbv zeta.
    assert (K : all_known t cells = true).
    { apply all_known_iff. rewrite Forall_forall in *. intros p Hp. apply Forall_forall. intros x Hx. exact (proj1 (cp_terms t lt p (C p Hp) x Hx)). }
    rewrite K. eexists. split; [reflexivity|]. repeat split.
  Qed.
  Lemma mono_made (cells : list mono) d h : Forall (in_table t) cells -> exists m, mono_matrix t d h cells = Some m /\ sm_dim m = d /\ sm_cells m = map (fun x => [canonical_mono t x]) cells /\ sm_herm m = h.
  Proof.
    intros C. unfold mono_matrix. cbv zeta.
    assert (K : all_known t (map (fun x => [canonical_mono t x]) cells) = true).
    { apply all_known_iff. rewrite Forall_forall in *. intros p Hp. apply in_map_iff in Hp. destruct Hp as (x & <- & Hx). constructor; [|constructor]. apply canonical_mono_in. now apply C. }
    rewrite K. eexists. split; [reflexivity|]. repeat split.
  Qed.
  Lemma made_spec b eqs d s : session F psrt b eqs -> proper F d s -> exists m, make d b s = (Some m, use b) /\ outcome_of (rb_rules b) d s m /\
    (forall h l, s = SMono h l -> rb_mono b = true -> sm_herm m = h /\ Forall (fun p => exists x, p = [x] /\ tidy x) (sm_cells m)) /\
    ((forall h l, s <> SMono h l) \/ rb_mono b = false -> Forall canon (sm_cells m) /\ sm_herm m = test_hermicity t d (sm_cells m)).
  Proof.
    intros S P. pose proof (session_good b eqs S) as G. unfold create_substituted. destruct s as [h l|l]; cbn [proper] in P.
    - destruct P as (L & C & Hh). destruct (rb_mono b) eqn:M.
      + (* monomials *)
        unfold reduce_monos. assert (T : exists l', transform_st (reduce_monomial F (rb_rules b)) l = Some l' /\ Forall2 (fun x y => reduce_monomial F (rb_rules b) x = Some y) l l').
        { clear L Hh. induction C as [|x l C1 C IH]; [exists []; split; [reflexivity|constructor]|]. destruct IH as (l' & E1 & E2). cbn [transform_st].
          assert (N : exists y, reduce_monomial F (rb_rules b) x = Some y).
          { destruct C1 as [E|C1]; [exists x; unfold reduce_monomial; now rewrite E, (no_rule _ 0 G ltac:(lia))|].
            destruct (t_monomial R F FO psrt PS b eqs x S C1) as (_ & _ & N & _). destruct (reduce_monomial F (rb_rules b) x) as [y|]; [now exists y|]. now specialize (N M). }
          destruct N as (y & Ey). rewrite Ey, E1. exists (y :: l'). split; [reflexivity|]. now constructor. }
        destruct T as (l' & E1 & E2). rewrite E1.
        assert (I : Forall (in_table t) l').
        { clear L Hh E1. induction E2 as [|x y l l' E E2 IH]; [constructor|]. apply Forall_cons_iff in C. destruct C as (C1 & C2). constructor; [exact (proj1 (mono_in _ x y G C1 E))|now apply IH]. }
        assert (Ll : length l' = length l) by (clear - E2; induction E2; cbn; congruence).
        assert (Hb : rb_herm b = true) by exact (proj1 (proj2 (t_flags R F FO psrt PS b eqs S))).
        destruct (mono_made l' d (h && rb_herm b) I) as (m & Em & M1 & M2 & M3). exists m. rewrite Em. split; [reflexivity|]. split; [|split].
        * constructor; [exact M1|rewrite M2, map_length; lia| |].
          -- intros v A r c Hr Hc. unfold result_entry, source_entry, poly_entry, mono_entry, by_columns. rewrite M1, M2.
             pose proof (place r c d Hr Hc) as Hp. rewrite <- L in Hp.
             destruct (nth_error l (c * d + r)) as [x|] eqn:Ex; [|apply nth_error_None in Ex; lia].
             assert (K : exists y, nth_error l' (c * d + r) = Some y /\ reduce_monomial F (rb_rules b) x = Some y).
             { clear - E2 Ex. revert E2 Ex. generalize (c * d + r) as n. intros n E2. revert n. induction E2 as [|a y l l' E E2 IH]; intros [|n] Ex; cbn in Ex; try discriminate; [injection Ex as <-; exists y; auto|now apply IH]. }
             destruct K as (y & Ey & Er). rewrite (nth_error_nth _ _ _ Ex). rewrite (nth_indep _ [] [canonical_mono t (mk_mono 0 false c0)]) by (rewrite map_length; lia).
             rewrite (map_nth (fun x => [canonical_mono t x])), (nth_error_nth _ _ _ Ey). rewrite <- (mono_value (rb_rules b) x y v G); [|rewrite Forall_forall in C; apply C; now apply nth_error_In in Ex|exact A|exact Er].
             rewrite !(value_one R). rewrite Forall_forall in I. apply canonical_mono_value; [exact A|apply I; now apply nth_error_In in Ey].
          -- intros p x Hp Hx Hd. rewrite M2 in Hp. apply in_map_iff in Hp. destruct Hp as (y & <- & Hy). destruct Hx as [<-|[]].
             assert (K : m_id y = 0 \/ ~ determined (rb_rules b) (m_id y)).
             { clear - E2 C Hy G FO. induction E2 as [|a z l l' E E2 IH]; [destruct Hy|]. apply Forall_cons_iff in C. destruct C as (C1 & C2). destruct Hy as [<-|Hy]; [exact (proj2 (mono_in _ a z G C1 E))|now apply IH]. }
             assert (K' : m_id (canonical_mono t y) = 0 \/ m_id (canonical_mono t y) = m_id y).
             { unfold canonical_mono. cbv zeta. match goal with |- context [is_zero (m_f ?z)] => destruct (is_zero (m_f z)); [now left|right] end.
               destruct (m_cj y); [|reflexivity]. destruct (herm t (m_id y)); [reflexivity|]. now destruct (anti t (m_id y)). }
             apply (determined_pos _ _ G) in Hd as Hd'. destruct K' as [K'|K']; [lia|]. rewrite K' in *. destruct K as [K|K]; [lia|contradiction].
        * intros h' l0 [= <- <-] _. split; [rewrite M3, Hb; apply andb_true_r|]. rewrite M2. apply Forall_forall. intros p Hp. apply in_map_iff in Hp. destruct Hp as (y & <- & Hy). eexists. split; [reflexivity|].
          rewrite Forall_forall in I. pose proof (as_poly_canonical t R lt y (I y Hy)) as K. unfold as_poly in K. unfold tidy. destruct (Nat.eqb_spec (m_id (canonical_mono t y)) 0) as [E|E]; [now left|now right].
        * intros [N|N]; [now destruct (N h l)|discriminate].
      + (* promoted *)
        unfold reduce_promoted. rewrite st_map. set (cells := map (reduce_mono F (rb_rules b)) l).
        assert (Cc : Forall canon cells) by (apply Forall_forall; intros p Hp; apply in_map_iff in Hp; destruct Hp as (x & <- & Hx); rewrite Forall_forall in C; exact (proj1 (promoted_canon _ x G (C x Hx)))).
        destruct (poly_made cells d Cc) as (m & Em & M1 & M2 & M3). exists m. rewrite Em. split; [reflexivity|]. split; [|split].
        * constructor; [exact M1|rewrite M2; unfold cells; rewrite map_length; lia| |].
          -- intros v A r c Hr Hc. unfold result_entry, source_entry, poly_entry, mono_entry, by_columns. rewrite M1, M2. unfold cells.
             pose proof (place r c d Hr Hc) as Hp. rewrite <- L in Hp.
             rewrite (nth_indep _ [] (reduce_mono F (rb_rules b) (mk_mono 0 false c0))) by (rewrite map_length; lia). rewrite map_nth.
             apply promoted_value; [exact G| |exact A]. rewrite Forall_forall in C. apply C. now apply nth_In.
          -- intros p x Hp Hx. rewrite M2 in Hp. apply in_map_iff in Hp. destruct Hp as (y & <- & Hy). rewrite Forall_forall in C. exact (proj2 (promoted_canon _ y G (C y Hy)) x Hx).
        * intros h' l0 _ N. discriminate.
        * intros _. rewrite M2. split; [exact Cc|rewrite M3; reflexivity].
    - destruct P as (L & C). unfold reduce_polys. rewrite st_map. set (cells := map (reduce F (rb_rules b)) l).
      assert (Cc : Forall canon cells) by (apply Forall_forall; intros p Hp; apply in_map_iff in Hp; destruct Hp as (x & <- & Hx); rewrite Forall_forall in C; exact (reduce_canonical R F FO _ x (good_ok R F _ G) (C x Hx))).
      destruct (poly_made cells d Cc) as (m & Em & M1 & M2 & M3). exists m. rewrite Em. split; [reflexivity|]. split; [|split].
      * constructor; [exact M1|rewrite M2; unfold cells; rewrite map_length; lia| |].
        -- intros v A r c Hr Hc. unfold result_entry, source_entry, poly_entry, by_columns. rewrite M1, M2. unfold cells.
           pose proof (place r c d Hr Hc) as Hp. rewrite <- L in Hp.
           rewrite (nth_indep _ [] (reduce F (rb_rules b) [])) by (rewrite map_length; lia). rewrite map_nth.
           apply poly_value; [exact G| |exact A]. rewrite Forall_forall in C. apply C. now apply nth_In.
        -- intros p x Hp Hx. rewrite M2 in Hp. apply in_map_iff in Hp. destruct Hp as (y & <- & Hy). rewrite Forall_forall in C. exact (reduce_free R F FO _ y G (C y Hy) x Hx).
      * intros h' l0 N. discriminate.
      * intros _. rewrite M2. split; [exact Cc|rewrite M3; reflexivity].
  Qed.

  (** ** the theorems *)
  Section Made.
    Variables (b : rulebook) (eqs : list (list mono)) (d : nat) (s : source (R := R)).
    Hypothesis S : session F psrt b eqs.
    Hypothesis P : proper F d s.
    Lemma made : exists m, make d b s = (Some m, use b) /\ sm_dim m = d /\ length (sm_cells m) = d * d.
    Proof. destruct (made_spec b eqs d s S P) as (m & E & O & _). exists m. split; [exact E|]. split; [exact (o_dim _ _ _ _ O)|exact (o_len _ _ _ _ O)]. Qed.
    Variable m : smat R.
    Hypothesis E : fst (make d b s) = Some m.
    Lemma this_one : outcome_of (rb_rules b) d s m /\
      (forall h l, s = SMono h l -> rb_mono b = true -> sm_herm m = h /\ Forall (fun p => exists x, p = [x] /\ tidy x) (sm_cells m)) /\
      ((forall h l, s <> SMono h l) \/ rb_mono b = false -> Forall canon (sm_cells m) /\ sm_herm m = test_hermicity t d (sm_cells m)).
    Proof. destruct (made_spec b eqs d s S P) as (m' & E' & O). rewrite E' in E. cbn in E. injection E as <-. exact O. Qed.
    Lemma subst_same v : asg v -> obeys v (rb_rules b) -> forall i, subst (rb_rules b) v i = v i.
    Proof. intros A O. pose proof (session_good b eqs S) as G. exact (proj1 (obeys_iff R F FO (rb_rules b) v (g_rule R F _ G) (g_sorted R F _ G)) O). Qed.
    Lemma values v : asg v -> obeys v (rb_rules b) -> forall r c, r < d -> c < d -> value v (result_entry m r c) = value v (source_entry d s r c).
    Proof.
      intros A O r c Hr Hc. destruct this_one as (T & _). rewrite (o_value _ _ _ _ T v A r c Hr Hc). apply (value_ext R). intros x _. now apply subst_same.
    Qed.
    Lemma reduced p x : In p (sm_cells m) -> In x p -> ~ determined (rb_rules b) (m_id x).
    Proof. destruct this_one as (T & _). exact (o_free _ _ _ _ T p x). Qed.
    Lemma subst_ok v : asg v -> asg (subst (rb_rules b) v) /\ obeys (subst (rb_rules b) v) (rb_rules b).
    Proof. intros A. pose proof (session_good b eqs S) as G. split; [apply (subst_asg R F); [exact (g_rule R F _ G)|exact A]|now apply (subst_obeys R F FO)]. Qed.
    Lemma result_hermitian : truly_hermitian t d (source_entry d s) -> truly_hermitian t d (result_entry m).
    Proof.
      intros H v A r c Hr Hc. destruct this_one as (T & _). rewrite !(o_value _ _ _ _ T v A) by assumption. apply H; auto. exact (proj1 (subst_ok v A)).
    Qed.
    Lemma flagged : (forall h l, s = SMono h l -> h = true) -> truly_hermitian t d (source_entry d s) -> sm_herm m = true.
    Proof.
      intros Hh H. pose proof (result_hermitian H) as H'. destruct this_one as (T & T1 & T2).
      assert (K : (forall h l, s <> SMono h l) \/ rb_mono b = false -> sm_herm m = true).
      { intros K. destruct (T2 K) as (C & ->). apply (hermicity_true t R lt (fo_order F FO)); [exact (fo_starts F FO)|exact (fo_null F FO)|exact C|].
        unfold result_entry in H'. rewrite (o_dim _ _ _ _ T) in H'. exact H'. }
      assert (Ds : (exists h l, s = SMono h l) \/ forall h l, s <> SMono h l) by (destruct s as [h l|l]; [left; eauto|right; discriminate]).
      destruct Ds as [(h & l & Es)|Ds]; [|apply K; now left]. destruct (rb_mono b) eqn:M; [|apply K; now right]. rewrite (proj1 (T1 h l Es eq_refl)). exact (Hh h l Es).
    Qed.
    Lemma mono_flag : of_monomials b s = true -> Forall (fun p => length p <= 1) (sm_cells m) /\ (sm_herm m = true -> truly_hermitian t d (result_entry m)).
    Proof.
      intros Q. assert (Es : exists h l, s = SMono h l /\ rb_mono b = true) by (unfold of_monomials in Q; destruct s as [h l|l]; [eauto|discriminate]). destruct Es as (h & l & Es & M).
      destruct this_one as (_ & T1 & _). destruct (T1 h l Es M) as (-> & L). split; [apply Forall_forall; intros p Hp; rewrite Forall_forall in L; destruct (L p Hp) as (x & -> & _); cbn; lia|].
      intros ->. apply result_hermitian. pose proof P as K. rewrite Es in K |- *. destruct K as (_ & _ & K). exact (K eq_refl).
    Qed.
    Lemma again_proper : proper F d (again b s m) /\ forall r c, r < d -> c < d -> source_entry d (again b s m) r c = result_entry m r c.
    Proof.
      destruct this_one as (T & T1 & T2). unfold again. destruct (of_monomials b s) eqn:Q.
      - assert (Es : exists h l, s = SMono h l /\ rb_mono b = true) by (unfold of_monomials in Q; destruct s as [h l|l]; [eauto|discriminate]). destruct Es as (h & l & Es & M).
        destruct (T1 h l Es M) as (_ & L). set (zero := mk_mono 0 false c0).
        assert (V : forall r c, r < d -> c < d -> mono_entry d (map (fun p => nth 0 p zero) (sm_cells m)) r c = result_entry m r c).
        { intros r c Hr Hc. unfold mono_entry, result_entry, poly_entry, by_columns. rewrite (o_dim _ _ _ _ T). pose proof (place r c d Hr Hc) as Hp. rewrite <- (o_len _ _ _ _ T) in Hp.
          fold zero. change zero with (nth 0 (@nil mono) zero) at 2. rewrite (map_nth (fun p => nth 0 p zero)). rewrite Forall_forall in L. destruct (L (nth (c * d + r) (sm_cells m) []) (nth_In _ _ Hp)) as (x & -> & _). reflexivity. }
        split; [|exact V]. split; [rewrite map_length; exact (o_len _ _ _ _ T)|]. split.
        + apply Forall_forall. intros x Hx. apply in_map_iff in Hx. destruct Hx as (p & <- & Hp). rewrite Forall_forall in L. destruct (L p Hp) as (y & -> & K). exact K.
        + intros H v A r c Hr Hc. rewrite !V by assumption. exact (proj2 (mono_flag Q) H v A r c Hr Hc).
      - assert (K : (forall h l, s <> SMono h l) \/ rb_mono b = false) by (unfold of_monomials in Q; destruct s as [h l|l]; [now right|left; discriminate]).
        destruct (T2 K) as (C & _). split; [split; [exact (o_len _ _ _ _ T)|exact C]|]. intros r c _ _. unfold result_entry. rewrite (o_dim _ _ _ _ T). reflexivity.
    Qed.
    Lemma decides : rb_raw b = [] -> forall r c r' c', r < d -> c < d -> r' < d -> c' < d ->
      (same_value t (result_entry m r c) (result_entry m r' c') <-> forall v, asg v -> solves v eqs -> value v (source_entry d s r c) = value v (source_entry d s r' c')).
    Proof.
      intros Raw r c r' c' H1 H2 H3 H4. split.
      - intros H v A Q. assert (O : obeys v (rb_rules b)) by (apply (t_completed R F FO psrt PS b eqs S Raw v A); exact Q). rewrite <- !(values v A O) by assumption. now apply H.
      - intros H v A. destruct this_one as (T & _). rewrite !(o_value _ _ _ _ T v A) by assumption. destruct (subst_ok v A) as (A' & O'). apply H; [exact A'|].
        now apply (t_completed R F FO psrt PS b eqs S Raw _ A').
    Qed.
    Lemma twice : exists m', fst (make d b (again b s m)) = Some m' /\ forall r c, r < d -> c < d -> same_value t (result_entry m' r c) (result_entry m r c).
    Proof.
      destruct this_one as (T & _). destruct again_proper as (P' & Q).
      destruct (made_spec b eqs d (again b s m) S P') as (m2 & E2 & O2 & _). exists m2. split; [now rewrite E2|]. intros r c Hr Hc v A.
      rewrite (o_value _ _ _ _ O2 v A r c Hr Hc), (Q r c Hr Hc), (o_value _ _ _ _ T v A r c Hr Hc), (o_value _ _ _ _ T _ (proj1 (subst_ok v A)) r c Hr Hc). apply (value_ext R). intros x _.
      apply (subst_idem R F); [exact (session_good b eqs S)|exact A].
    Qed.
  End Made.
End Subs.
