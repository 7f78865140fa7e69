(** The theorems on the matrix of a rulebook. *)
From Coq Require Import List NArith ZArith Arith Bool Sorted Permutation Lia Ring Field.
From Verif Require Import CoreModel FieldModel FieldProofs SymModel SymSpec PolyModel PolySpec PolyProofs PolyOpsProofs PolyBasisModel PolyBasisProofs SymFinalProofs PolyTableProofs PolyFinalProofs RuleModel RuleSpec RuleProofs RuleMakeProofs RuleOrientProofs RuleBookProofs RuleLoopProofs RuleFinalProofs RuleUniqueProofs RuleThmProofs RbmModel RbmSpec RbmProofs.
Import ListNotations.

Section Final.
  Variable R : rfield.
  Add Field Rf : (r_field R).
  Variable F : factory R.
  Hypothesis FO : factory_ok F.
  Notation t := (fa_table F).
  Notation asg := (assignment (R := R) t).
  Notation len := (length (t_syms t)).
  Hypothesis NB : numbered t.
  Variable mostly : cx R -> bool.
  Notation newval := (newval R mostly).
  Notation moved := (moved R mostly).
  Implicit Types (u v w : nat -> cx R) (rules : list (rule R)).

  Lemma newval_fits r v : good_rule R F r -> asg v -> (herm t (ru_lhs r) = true -> cim (newval r v) = r0 R) /\ (anti t (ru_lhs r) = true -> cre (newval r v) = r0 R).
  Proof.
    intros G A. destruct (ru_partial r) eqn:P.
    - destruct (gr_shape R F r G) as [k [_ [_ S]]]. rewrite P in S. destruct S as [_ [_ [Hh [Ha _]]]]. split; congruence.
    - destruct (gr_fits R F r G) as [F1 F2]. unfold RbmProofs.newval. rewrite P. split; intro H; [now apply F1|now apply F2].
  Qed.
  Lemma moved_asg rules v : good R F rules -> asg v -> asg (moved rules v).
  Proof.
    intros G A. pose proof (g_rule R F rules G) as Gr. unfold RbmProofs.moved. constructor.
    - destruct (find_rule rules 0) as [r|] eqn:E; [|apply A]. apply find_in in E as [Hr E]. destruct (gr_lhs R F r (Gr r Hr)). lia.
    - destruct (find_rule rules 1) as [r|] eqn:E; [|apply A]. apply find_in in E as [Hr E]. destruct (gr_lhs R F r (Gr r Hr)). lia.
    - intros i s E Hs. destruct (find_rule rules i) as [r|] eqn:Q; [|now apply (as_herm t v A i s E)]. apply find_in in Q as [Hr <-]. apply (newval_fits r v (Gr r Hr) A). now rewrite (herm_sym t _ s E).
    - intros i s E Hs. destruct (find_rule rules i) as [r|] eqn:Q; [|now apply (as_anti t v A i s E)]. apply find_in in Q as [Hr <-]. apply (newval_fits r v (Gr r Hr) A). now rewrite (anti_sym t _ s E).
  Qed.
  Lemma vectors_equal u w : asg u -> asg w -> (forall row, row < dimension t -> both_elem t u row = both_elem t w row) -> forall id, id < len -> u id = w id.
  Proof.
    intros A B H id L. apply cx_ext.
    - destruct (re_index t id) as [k|] eqn:E.
      + rewrite <- (x_re R F NB u id k L E), <- (x_re R F NB w id k L E). apply H. pose proof (re_bound R F NB id k L E). unfold dimension. lia.
      + apply (re_index_none t NB id L) in E. now rewrite (asg_imag R F u id A L E), (asg_imag R F w id B L E).
    - destruct (im_index t id) as [k|] eqn:E.
      + rewrite <- (x_im R F NB mostly u id k L E), <- (x_im R F NB mostly w id k L E). apply H. pose proof (im_bound R F NB id k L E). unfold dimension. lia.
      + apply (im_index_none t NB id L) in E. now rewrite (asg_real R F u id A L E), (asg_real R F w id B L E).
  Qed.
  Lemma moved_obeys rules v : good R F rules -> asg v -> ((forall row, row < dimension t -> both_elem t (moved rules v) row = both_elem t v row) <-> obeys v rules).
  Proof.
    intros G A. pose proof (g_rule R F rules G) as Gr. pose proof (g_sorted R F rules G) as So. split.
    - intros H r Hr. apply (newval_same R F FO mostly v r (Gr r Hr) A). rewrite <- (moved_same R F FO mostly rules r v Gr So Hr).
      apply (vectors_equal (moved rules v) v (moved_asg rules v G A) A H). apply (Gr r Hr).
    - intros O row _. unfold both_elem, real_elem, imag_elem.
      assert (E : forall id, moved rules v id = v id). { intro id. unfold RbmProofs.moved. destruct (find_rule rules id) as [r|] eqn:Q; [|reflexivity]. apply find_in in Q as [Hr <-]. apply (newval_same R F FO mostly v r (Gr r Hr) A). now apply O. }
      destruct (Nat.ltb row _); [destruct (nth_error (t_real t) row)|destruct (nth_error (t_imag t) _)]; rewrite ?E; reflexivity.
  Qed.
  Lemma moved_applied rules v : good R F rules -> asg v -> applied rules v (moved rules v).
  Proof.
    intros G A. pose proof (g_rule R F rules G) as Gr. pose proof (g_sorted R F rules G) as So. split; [|split].
    - intros i H. unfold RbmProofs.moved. apply find_not in H. now rewrite H.
    - intros r Hr P. rewrite (moved_same R F FO mostly rules r v Gr So Hr). unfold RbmProofs.newval. now rewrite P.
    - intros r Hr. rewrite (moved_same R F FO mostly rules r v Gr So Hr). now apply (newval_own R F FO mostly v r (Gr r Hr)).
  Qed.
  Lemma moved_straight rules v i : good R F rules -> asg v -> straight rules -> moved rules v i = subst R rules v i.
  Proof.
    intros G A S. unfold RbmProofs.moved, RuleBookProofs.subst. destruct (find_rule rules i) as [r|] eqn:Q; [|reflexivity]. apply find_in in Q as [Hr _].
    apply (newval_straight R F FO mostly v r); [apply (g_rule R F rules G r Hr)|exact A|now apply S].
  Qed.
End Final.

Section Theorems.
  Variable R : rfield.
  Add Field Rf2 : (r_field R).
  Variable F : factory R.
  Hypothesis FO : factory_ok F.
  Notation t := (fa_table F).
  Variables (c : sctx) (V : hseq -> Prop).
  Hypothesis LW : lawful c V.
  Hypothesis RC : reachable_clean c V t.
  Let NB : numbered t := clean_numbered c V t LW RC.
  Variable psrt : list (list (mono R)) -> list (list (mono R)).
  Hypothesis PS : forall l, Permutation l (psrt l).
  Variable b : rulebook (R := R).
  Variable eqs : list (list (mono R)).
  Hypothesis SE : session F psrt b eqs.
  Variable mostly : cx R -> bool.
  Notation asg := (assignment (R := R) t).
  Let G : good R F (rb_rules b) := st_good R F b eqs (session_state R F FO psrt PS b eqs SE).

  Lemma t_matrix mode : exists M, rulebook_matrix t mostly mode (rb_rules b) = Some M /\ fits_in (dimension t) M.
  Proof. destruct (matrix_spec R F FO NB mostly mode (rb_rules b) G) as [M [E [B _]]]. eauto. Qed.
  Lemma t_rewrite M : rulebook_matrix t mostly Rewrite (rb_rules b) = Some M -> forall v, asg v ->
    exists w, asg w /\ applied (rb_rules b) v w /\ product (dimension t) M (both_elem t v) (both_elem t w).
  Proof.
    intros E v A. destruct (matrix_spec R F FO NB mostly Rewrite (rb_rules b) G) as [M' [E' [_ H]]]. assert (M' = M) by congruence. subst M'.
    exists (moved R mostly (rb_rules b) v). split; [now apply moved_asg|]. split; [now apply (moved_applied R F FO mostly)|]. intros row L. exact (H v A row L).
  Qed.
  Lemma t_fixed M : rulebook_matrix t mostly Rewrite (rb_rules b) = Some M -> forall v, asg v ->
    (product (dimension t) M (both_elem t v) (both_elem t v) <-> obeys v (rb_rules b)).
  Proof.
    intros E v A. destruct (matrix_spec R F FO NB mostly Rewrite (rb_rules b) G) as [M' [E' [_ H]]]. assert (M' = M) by congruence. subst M'.
    rewrite <- (moved_obeys R F FO NB mostly (rb_rules b) v G A). unfold product. cbn [expected] in H.
    split; intros Q row L; [rewrite <- (H v A row L)|rewrite (H v A row L)]; now apply Q.
  Qed.
  Lemma t_homogeneous M : rulebook_matrix t mostly Homogeneous (rb_rules b) = Some M -> forall v, asg v ->
    (product (dimension t) M (both_elem t v) (fun _ => r0 R) <-> obeys v (rb_rules b)).
  Proof.
    intros E v A. destruct (matrix_spec R F FO NB mostly Homogeneous (rb_rules b) G) as [M' [E' [_ H]]]. assert (M' = M) by congruence. subst M'.
    rewrite <- (moved_obeys R F FO NB mostly (rb_rules b) v G A). unfold product. cbn [expected] in H.
    split; intros Q row L; specialize (Q row L); [rewrite (H v A row L) in Q|rewrite (H v A row L), Q; ring].
    match type of Q with rsub R ?x ?y = _ => replace x with (radd R (rsub R x y) y) by ring end. rewrite Q. ring.
  Qed.
  Lemma t_equations_matrix M N : rb_raw b = [] -> rulebook_matrix t mostly Rewrite (rb_rules b) = Some M -> rulebook_matrix t mostly Homogeneous (rb_rules b) = Some N ->
    forall v, asg v -> (product (dimension t) M (both_elem t v) (both_elem t v) <-> solves v eqs) /\ (product (dimension t) N (both_elem t v) (fun _ => r0 R) <-> solves v eqs).
  Proof.
    intros Er E1 E2 v A. rewrite (t_fixed M E1 v A), (t_homogeneous N E2 v A). pose proof (t_completed R F FO psrt PS b eqs SE Er v A) as Q. auto.
  Qed.
  Lemma t_straight M : rulebook_matrix t mostly Rewrite (rb_rules b) = Some M -> straight (rb_rules b) -> forall v, asg v ->
    exists w, asg w /\ obeys w (rb_rules b) /\ applied (rb_rules b) v w /\ product (dimension t) M (both_elem t v) (both_elem t w) /\
    product (dimension t) M (both_elem t w) (both_elem t w).
  Proof.
    intros E S v A. destruct (matrix_spec R F FO NB mostly Rewrite (rb_rules b) G) as [M' [E' [_ H]]]. assert (M' = M) by congruence. subst M'.
    set (w := moved R mostly (rb_rules b) v). assert (Aw : asg w) by now apply moved_asg.
    assert (O : obeys w (rb_rules b)).
    { pose proof (subst_obeys R F FO (rb_rules b) v G A) as O. intros r Hr. unfold w. rewrite (moved_straight R F FO mostly _ v _ G A S). rewrite (O r Hr). apply (value_ext R). intros x _. symmetry. now apply (moved_straight R F FO mostly). }
    exists w. split; [exact Aw|]. split; [exact O|]. split; [now apply (moved_applied R F FO mostly)|]. split; [intros row L; exact (H v A row L)|]. now apply (t_fixed M E w Aw).
  Qed.
End Theorems.
