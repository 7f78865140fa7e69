(** Sums of symbolic matrices. *)
From Coq Require Import List NArith ZArith Arith Bool Lia Sorted Permutation Field.
From Verif Require Import CoreModel FieldModel FieldProofs SymModel SymSpec PolyModel PolySpec PolyProofs PolyOpsProofs PolyFinalProofs AriModel AriSpec.
Import ListNotations.

Section Sums.
  Variable R : rfield.
  Add Field Cf : (cx_field R).
  Notation mono := (mono R).
  Variable t : table.
  Variable lt : mono -> mono -> bool.
  Variable srt : list mono -> list mono.
  Hypothesis HO : term_order t lt.
  Hypothesis HS : sorts t lt srt.

  Lemma canon_in p : canonical t lt p -> Forall (in_table t) p.
  Proof. intro C. apply Forall_forall. intros x I. exact (proj1 (cp_terms t lt p C x I)). Qed.
  Lemma plain_canon (x : mono) : plain_entry t x -> m_f x <> c0 -> m_id x <> 0 -> canonical t lt [x].
  Proof.
    intros [A B] F N. constructor; [repeat constructor|]. intros y [<-|[]]. auto.
  Qed.
  Lemma wf_nth_mono m o x : well_formed t lt (SM m) -> nth_error (mm_cells m) o = Some x -> plain_entry t x.
  Proof. intros [_ F] E. rewrite Forall_forall in F. apply F. eapply nth_error_In. exact E. Qed.
  Lemma wf_nth_poly p o x : well_formed t lt (SP p) -> nth_error (pm_cells p) o = Some x -> canonical t lt x.
  Proof. intros [_ F] E. rewrite Forall_forall in F. apply F. eapply nth_error_In. exact E. Qed.
  Lemma wf_entry a o v : well_formed t lt a -> o < smx_dim a * smx_dim a -> exists z, entry v a o = Some z.
  Proof.
    intros [S _] L. destruct a as [m|p]; cbn [sized smx_dim entry] in *; rewrite <- S in L.
    - destruct (nth_error (mm_cells m) o) as [x|] eqn:E; [now eexists|apply nth_error_None in E; lia].
    - destruct (nth_error (pm_cells p) o) as [x|] eqn:E; [now eexists|apply nth_error_None in E; lia].
  Qed.
  Lemma entry_range a o v z : well_formed t lt a -> entry v a o = Some z -> o < smx_dim a * smx_dim a.
  Proof.
    intros [S _] E. destruct a as [m|p]; cbn [sized smx_dim entry] in *; rewrite <- S; apply nth_error_Some; intro H; rewrite H in E; discriminate E.
  Qed.

  (** ** rescaling *)
  Lemma fix_fixed p : canonical t lt p -> fst (fix_cc_in_place t true p) = p.
  Proof.
    intro C. unfold fix_cc_in_place. cbn [fst andb].
    assert (N : existsb (fix_changes t) p = false).
    { destruct (existsb (fix_changes t) p) eqn:X; [|reflexivity]. apply existsb_exists in X. destruct X as (x & I & X). unfold fix_changes in X.
      apply andb_prop in X. destruct X as [X Y]. apply orb_prop in Y. pose proof (cp_terms t lt p C x I) as (_ & _ & _ & Q). rewrite (Q Y) in X. discriminate X. }
    rewrite N. rewrite <- (map_id p) at 2. apply map_ext_in. intros x I. pose proof (cp_terms t lt p C x I) as (_ & _ & _ & Q).
    unfold fix_term. cbv zeta. destruct x as [i b f]. cbn [m_id m_cj m_f] in *. destruct (herm t i) eqn:H; cbn [m_id m_cj m_f].
    - rewrite andb_false_r. rewrite Q by now left. reflexivity.
    - destruct (anti t i) eqn:A; cbn [andb]; [|reflexivity]. rewrite Q by now right. reflexivity.
  Qed.
  Lemma rescaled_spec (a : smx R) f : well_formed t lt a -> well_formed t lt (SP (mk_pm (smx_dim a) (rescaled t a f))) /\
    forall v o, v 0 = c0 -> entry v (SP (mk_pm (smx_dim a) (rescaled t a f))) o = option_map (cmul f) (entry v a o).
  Proof.
    intro W. destruct a as [m|p]; cbn [smx_dim rescaled].
    - assert (C : forall x, plain_entry t x -> canonical t lt (poly_of_mono (mk_mono (m_id x) (m_cj x) (cmul f (m_f x)))) /\
        forall v, v 0 = c0 -> value v (poly_of_mono (mk_mono (m_id x) (m_cj x) (cmul f (m_f x)))) = cmul f (term_value v x)).
      { intros x [A B]. destruct (monomial_spec R t lt (mk_mono (m_id x) (m_cj x) (cmul f (m_f x))) A B) as [C1 C2]. split; [exact C1|].
        intros v Z. rewrite (C2 v Z). unfold term_value. cbn [m_id m_cj m_f]. ring. }
      split.
      + destruct W as [S F]. split; [cbn [sized pm_cells pm_dim] in *; now rewrite map_length|]. cbn [pm_cells]. apply Forall_forall. intros q I.
        apply in_map_iff in I. destruct I as (x & <- & I). rewrite Forall_forall in F. destruct (C x (F x I)) as [C1 _]. now rewrite fix_fixed.
      + intros v o Z. cbn [entry pm_cells]. rewrite nth_error_map. destruct (nth_error (mm_cells m) o) as [x|] eqn:E; [|reflexivity]. cbn [option_map]. f_equal.
        destruct (C x (wf_nth_mono m o x W E)) as [C1 C2]. rewrite fix_fixed by exact C1. now apply C2.
    - split.
      + destruct W as [S F]. split; [cbn [sized pm_cells pm_dim] in *; now rewrite map_length|]. cbn [pm_cells]. apply Forall_forall. intros q I.
        apply in_map_iff in I. destruct I as (x & <- & I). rewrite Forall_forall in F. destruct (scale_spec R t lt f x HO (F x I)) as [C1 _]. now rewrite fix_fixed.
      + intros v o Z. cbn [entry pm_cells]. rewrite nth_error_map. destruct (nth_error (pm_cells p) o) as [x|] eqn:E; [|reflexivity]. cbn [option_map]. f_equal.
        destruct (scale_spec R t lt f x HO (wf_nth_poly p o x W E)) as [C1 C2]. rewrite fix_fixed by exact C1. apply C2.
  Qed.

  (** ** several constituents *)
  Lemma terms_value v (parts : list (smx R * cx R)) o : value v (mono_terms parts o ++ poly_terms parts o) = entry_sum v parts o.
  Proof.
    induction parts as [|[a f] parts IH]; [reflexivity|]. rewrite value_app in IH. rewrite value_app. cbn [entry_sum fold_right fst snd].
    fold (entry_sum v parts o). rewrite <- IH. destruct a as [m|p]; cbn [mono_terms poly_terms flat_map fst snd entry]; fold (mono_terms parts o); fold (poly_terms parts o).
    - destruct (nth_error (mm_cells m) o) as [x|]; cbn [option_map app]; [rewrite value_cons; unfold term_value; cbn [m_id m_cj m_f]; ring|ring].
    - destruct (nth_error (pm_cells p) o) as [l|]; cbn [option_map app]; [|ring]. rewrite value_app.
      replace (value v (map (fun x => mk_mono (m_id x) (m_cj x) (cmul (m_f x) f)) l)) with (cmul f (value v l)); [ring|].
      induction l as [|x l IHl]; [cbn; ring|]. cbn [map]. rewrite !value_cons, <- IHl. unfold term_value. cbn [m_id m_cj m_f]. ring.
  Qed.
  Lemma terms_in (parts : list (smx R * cx R)) o : (forall p, In p parts -> well_formed t lt (fst p)) -> Forall (in_table t) (mono_terms parts o ++ poly_terms parts o).
  Proof.
    intro W. apply Forall_app. split; apply Forall_forall; intros x I; apply in_flat_map in I; destruct I as ([a f] & I & J); specialize (W _ I); cbn [fst] in *; destruct a as [m|p]; cbn in J; try contradiction.
    - destruct (nth_error (mm_cells m) o) as [y|] eqn:E; [|contradiction]. destruct J as [<-|[]]. exact (proj1 (wf_nth_mono m o y W E)).
    - destruct (nth_error (pm_cells p) o) as [l|] eqn:E; [|contradiction]. apply in_map_iff in J. destruct J as (y & <- & J).
      exact (proj1 (cp_terms t lt l (wf_nth_poly p o l W E) y J)).
  Qed.
  Lemma composite_spec dim (parts : list (smx R * cx R)) : (forall p, In p parts -> well_formed t lt (fst p) /\ smx_dim (fst p) = dim) ->
    exists p, composite t srt dim parts = AOk p /\ well_formed t lt (SP p) /\ pm_dim p = dim /\
      forall v o, assignment t v -> o < dim * dim -> entry v (SP p) o = Some (entry_sum v parts o).
  Proof.
    intro W. destruct parts as [|[a f] [|b parts]].
    - eexists. split; [reflexivity|]. split; [split; [cbn; apply repeat_length|]|split; [reflexivity|]].
      + cbn [pm_cells]. apply Forall_forall. intros q I. apply repeat_spec in I. subst q. constructor; [constructor|easy].
      + intros v o A L. cbn [entry pm_cells]. rewrite nth_error_repeat by exact L. reflexivity.
    - destruct (W (a, f) (or_introl eq_refl)) as [Wa Da]. cbn [fst] in *. destruct (rescaled_spec a f Wa) as [W1 V1]. eexists. split; [reflexivity|].
      split; [exact W1|]. split; [exact Da|]. intros v o A L. rewrite V1 by apply (as_zero t v A). cbn [entry_sum fold_right fst snd].
      rewrite <- Da in L. destruct (wf_entry a o v Wa L) as [z ->]. cbn [option_map]. f_equal. ring.
    - destruct b as [b g]. change (composite t srt dim ((a, f) :: (b, g) :: parts)) with
        (if forallb (fun p => Nat.eqb (smx_dim (fst p)) dim) ((a, f) :: (b, g) :: parts)
         then AOk (mk_pm dim (map (fun o => make_poly t srt (mono_terms ((a, f) :: (b, g) :: parts) o ++ poly_terms ((a, f) :: (b, g) :: parts) o)) (seq 0 (dim * dim))))
         else AThrow).
      remember ((a, f) :: (b, g) :: parts) as ps eqn:Eps. clear Eps.
      assert (FB : forallb (fun p => Nat.eqb (smx_dim (fst p)) dim) ps = true) by (apply forallb_forall; intros p I; apply Nat.eqb_eq; exact (proj2 (W p I))).
      rewrite FB. assert (IN : forall o, Forall (in_table t) (mono_terms ps o ++ poly_terms ps o)) by (intro o; apply terms_in; intros p I; exact (proj1 (W p I))).
      eexists. split; [reflexivity|]. split; [split; [cbn; now rewrite map_length, seq_length|]|split; [reflexivity|]].
      + cbn [pm_cells]. apply Forall_forall. intros q I. apply in_map_iff in I. destruct I as (o & <- & _). exact (proj1 (construct_spec R t lt srt _ HO HS (IN o))).
      + intros v o A L. cbn [entry pm_cells]. rewrite nth_error_map. rewrite (nth_error_nth' _ 0) by now rewrite seq_length. rewrite seq_nth by exact L. cbn [option_map plus]. f_equal.
        rewrite (proj2 (construct_spec R t lt srt _ HO HS (IN o)) v A). apply terms_value.
  Qed.
  Lemma add_matrix_spec a b : well_formed t lt a -> well_formed t lt b ->
    if Nat.eqb (smx_dim a) (smx_dim b) then
      exists p, add_matrix t srt a b = AOk p /\ well_formed t lt (SP p) /\ pm_dim p = smx_dim a /\
        forall v o x y, assignment t v -> entry v a o = Some x -> entry v b o = Some y -> entry v (SP p) o = Some (cadd x y)
    else add_matrix t srt a b = AThrow.
  Proof.
    intros Wa Wb. unfold add_matrix. destruct (Nat.eqb_spec (smx_dim a) (smx_dim b)) as [D|D]; [|reflexivity].
    destruct (composite_spec (smx_dim a) [(a, c1); (b, c1)]) as (p & E & W & Dp & V).
    { intros q [<-|[<-|[]]]; cbn [fst]; auto. }
    exists p. split; [exact E|]. split; [exact W|]. split; [exact Dp|]. intros v o x y A X Y. rewrite V; [|exact A|exact (entry_range a o v x Wa X)].
    cbn [entry_sum fold_right fst snd]. rewrite X, Y. f_equal. ring.
  Qed.
  (** ** adding one expression to every entry *)
  Lemma keep_spec m : well_formed t lt (SM m) -> exists p, composite t srt (mm_dim m) [(SM m, c1)] = AOk p /\ well_formed t lt (SP p) /\ pm_dim p = mm_dim m /\
    forall v o z, assignment t v -> entry v (SM m) o = Some z -> entry v (SP p) o = Some z.
  Proof.
    intro W. destruct (composite_spec (mm_dim m) [(SM m, c1)]) as (p & E & Wp & Dp & V).
    { intros q [<-|[]]. split; [exact W|reflexivity]. }
    exists p. split; [exact E|]. split; [exact Wp|]. split; [exact Dp|]. intros v o z A Z. rewrite V; [|exact A|exact (entry_range (SM m) o v z W Z)].
    cbn [entry_sum fold_right fst snd]. rewrite Z. f_equal. ring.
  Qed.
  Notation no_zero_entry := (AriSpec.no_zero_entry R).
  Lemma add_poly_spec a q : well_formed t lt a -> canonical t lt q ->
    match add_poly t srt lt a q with
    | AOk p => pm_dim p = smx_dim a /\ sized (SP p) /\ (no_zero_entry a -> well_formed t lt (SP p)) /\
        forall v o z, assignment t v -> entry v a o = Some z -> entry v (SP p) o = Some (cadd z (value v q))
    | AThrow => q = [] /\ exists p, a = SP p
    | AUndef => False
    end.
  Proof.
    intros W C. destruct q as [|x [|y q]].
    - cbn [add_poly]. destruct a as [m|p]; [|split; [reflexivity|now exists p]]. destruct (keep_spec m W) as (p & E & Wp & Dp & V). rewrite E.
      split; [exact Dp|]. split; [exact (proj1 Wp)|]. split; [intros _; exact Wp|]. intros v o z A Z. rewrite (V v o z A Z). f_equal. cbn. ring.
    - pose proof (cp_terms t lt _ C x (or_introl eq_refl)) as (Ix & Fx & Nx & _). cbn [add_poly]. unfold add_mono.
      destruct (Nat.eqb_spec (m_id x) 0) as [?|_]; [contradiction|]. destruct (is_zero (m_f x)) eqn:Z0; [apply is_zero_true in Z0; contradiction|]. cbn [orb].
      destruct a as [m|p]; cbn [smx_dim pm_dim sized pm_cells]; destruct W as [S F]; cbn [sized] in S; (split; [reflexivity|]; split; [now rewrite map_length|]; split).
      + intro NZ. split; [cbn [sized pm_cells pm_dim]; now rewrite map_length|]. cbn [pm_cells]. apply Forall_forall. intros r I. apply in_map_iff in I. destruct I as (e & <- & I).
        rewrite Forall_forall in F. destruct (NZ e I). pose proof (plain_canon e (F e I) ltac:(assumption) ltac:(assumption)) as Ce.
        destruct (sum_terms_spec R t lt [] e x HO) as [_ ->]; [constructor; [constructor|easy]|exact Ce|exact C|]. exact (proj1 (sum_spec R t lt [e] [x] HO Ce C)).
      + intros v o z A E. cbn [entry pm_cells] in *. rewrite nth_error_map. destruct (nth_error (mm_cells m) o) as [e|] eqn:G; [|discriminate E]. cbn [option_map] in *. injection E as <-. f_equal.
        rewrite Forall_forall in F. destruct (sum_values_spec R t lt [] e x v HO) as [_ ->]; [constructor|exact (proj1 (F e (nth_error_In _ _ G)))|exact Ix|exact (as_zero t v A)|]. rewrite value_cons. cbn [value fold_right]. ring.
      + intros _. split; [cbn [sized pm_cells pm_dim]; now rewrite map_length|]. cbn [pm_cells]. apply Forall_forall. intros r I. apply in_map_iff in I. destruct I as (e & <- & I).
        rewrite Forall_forall in F. pose proof (F e I) as Ce. destruct (sum_terms_spec R t lt e x x HO Ce C C) as [-> _]. exact (proj1 (sum_spec R t lt e [x] HO Ce C)).
      + intros v o z A E. cbn [entry pm_cells] in *. rewrite nth_error_map. destruct (nth_error (pm_cells p) o) as [e|] eqn:G; [|discriminate E]. cbn [option_map] in *. injection E as <-. f_equal.
        rewrite Forall_forall in F. destruct (sum_values_spec R t lt e x x v HO) as [-> _]; [exact (canon_in e (F e (nth_error_In _ _ G)))|exact Ix|exact Ix|exact (as_zero t v A)|]. rewrite value_cons. cbn [value fold_right]. ring.
    - cbn [add_poly]. remember (x :: y :: q) as q' eqn:Eq. clear Eq.
      destruct a as [m|p]; cbn [smx_dim pm_dim sized pm_cells]; destruct W as [S F]; cbn [sized] in S; (split; [reflexivity|]; split; [now rewrite map_length|]; split).
      + intro NZ. split; [cbn [sized pm_cells pm_dim]; now rewrite map_length|]. cbn [pm_cells]. apply Forall_forall. intros r I. apply in_map_iff in I. destruct I as (e & <- & I).
        rewrite Forall_forall in F. destruct (NZ e I). pose proof (plain_canon e (F e I) ltac:(assumption) ltac:(assumption)) as Ce.
        destruct (sum_terms_spec R t lt q' e e HO C Ce Ce) as [-> _]. exact (proj1 (sum_spec R t lt q' [e] HO C Ce)).
      + intros v o z A E. cbn [entry pm_cells] in *. rewrite nth_error_map. destruct (nth_error (mm_cells m) o) as [e|] eqn:G; [|discriminate E]. cbn [option_map] in *. injection E as <-. f_equal.
        rewrite Forall_forall in F. pose proof (proj1 (F e (nth_error_In _ _ G))) as Ie. destruct (sum_values_spec R t lt q' e e v HO) as [-> _]; [exact (canon_in q' C)|exact Ie|exact Ie|exact (as_zero t v A)|]. ring.
      + intros _. split; [cbn [sized pm_cells pm_dim]; now rewrite map_length|]. cbn [pm_cells]. apply Forall_forall. intros r I. apply in_map_iff in I. destruct I as (e & <- & I).
        rewrite Forall_forall in F. exact (proj1 (sum_spec R t lt e q' HO (F e I) C)).
      + intros v o z A E. cbn [entry pm_cells] in *. rewrite nth_error_map. destruct (nth_error (pm_cells p) o) as [e|] eqn:G; [|discriminate E]. cbn [option_map] in *. injection E as <-. f_equal.
        rewrite Forall_forall in F. exact (proj1 (proj2 (sum_spec R t lt e q' HO (F e (nth_error_In _ _ G)) C)) v).
  Qed.
  Lemma add_mono_spec a x : well_formed t lt a -> (m_id x = 0 \/ m_f x = c0 \/ canonical t lt [x]) ->
    match add_mono t srt lt a x with
    | AOk p => pm_dim p = smx_dim a /\ sized (SP p) /\ (no_zero_entry a -> well_formed t lt (SP p)) /\
        forall v o z, assignment t v -> entry v a o = Some z -> entry v (SP p) o = Some (cadd z (term_value v x))
    | AThrow => (m_id x = 0 \/ m_f x = c0) /\ exists p, a = SP p
    | AUndef => False
    end.
  Proof.
    intros W C. destruct (Nat.eqb (m_id x) 0 || is_zero (m_f x)) eqn:Q.
    - unfold add_mono. rewrite Q. assert (Z : m_id x = 0 \/ m_f x = c0).
      { apply orb_prop in Q. destruct Q as [Q|Q]; [left; now apply Nat.eqb_eq|right; now apply is_zero_true]. }
      destruct a as [m|p]; [|split; [exact Z|now exists p]]. destruct (keep_spec m W) as (p & E & Wp & Dp & V). rewrite E.
      split; [exact Dp|]. split; [exact (proj1 Wp)|]. split; [intros _; exact Wp|]. intros v o z A Zz. rewrite (V v o z A Zz). f_equal.
      unfold term_value. destruct Z as [->| ->]; [rewrite (as_zero t v A); destruct (m_cj x); rewrite ?cconj_0; ring|ring].
    - assert (Cx : canonical t lt [x]).
      { apply orb_false_elim in Q. destruct Q as [Q1 Q2]. destruct C as [C|[C|C]]; [apply Nat.eqb_neq in Q1; contradiction| |exact C]. rewrite C in Q2. unfold is_zero in Q2. rewrite (proj2 (ceqb_spec R (@c0 R) c0) eq_refl) in Q2. discriminate Q2. }
      pose proof (add_poly_spec a [x] W Cx) as H. cbn [add_poly] in H. destruct (add_mono t srt lt a x) as [p| |]; [|destruct H as [H _]; discriminate H|exact H].
      destruct H as (H1 & H2 & H3 & H4). split; [exact H1|]. split; [exact H2|]. split; [exact H3|]. intros v o z A Z. rewrite (H4 v o z A Z). f_equal. rewrite value_cons. cbn [value fold_right]. ring.
  Qed.
End Sums.
