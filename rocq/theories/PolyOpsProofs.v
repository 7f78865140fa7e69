(** Proofs about polynomial arithmetic. *)
From Coq Require Import List NArith ZArith Arith Bool Sorted Permutation Lia Ring Field.
From Verif Require Import CoreModel FieldModel FieldProofs SymModel SymSpec PolyModel PolySpec PolyProofs.
Import ListNotations.

Section Ops.
  Variable R : rfield.
  Add Field Rf : (r_field R).
  Add Field Cf : (cx_field R).
  Notation mono := (mono R).
  Variable t : table.
  Variable lt : mono -> mono -> bool.
  Hypothesis HO : term_order t lt.
  Notation ok := (@in_table R t).
  Notation strict := (fun x y => lt x y = true).

  Lemma merge_nil_l (r : list mono) : merge_terms lt [] r = r. Proof. now destruct r. Qed.
  Lemma merge_nil_r (l : list mono) : merge_terms lt l [] = l. Proof. now destruct l. Qed.
  Lemma merge_cons x l y r : merge_terms lt (x :: l) (y :: r) =
    if lt x y then x :: merge_terms lt l (y :: r) else if lt y x then y :: merge_terms lt (x :: l) r
    else if is_zero (cadd (m_f x) (m_f y)) then merge_terms lt l r else mk_mono (m_id x) (m_cj x) (cadd (m_f x) (m_f y)) :: merge_terms lt l r.
  Proof. reflexivity. Qed.
  Lemma merge_value v : forall l r, Forall ok l -> Forall ok r -> value v (merge_terms lt l r) = cadd (value v l) (value v r).
  Proof.
    induction l as [|x l IHl]; intros r Fl Fr; [rewrite merge_nil_l; cbn; ring|].
    induction r as [|y r IHr]; [rewrite merge_nil_r; cbn [value fold_right]; ring|].
    inversion Fl as [|? ? Kx Fl']. inversion Fr as [|? ? Ky Fr']. subst. rewrite merge_cons. destruct (lt x y) eqn:A; [|destruct (lt y x) eqn:B].
    - rewrite !value_cons, IHl by auto. rewrite value_cons. ring.
    - rewrite !value_cons, IHr by auto. rewrite value_cons. ring.
    - pose proof (lt_total R t lt HO x y Kx Ky A B) as S. apply same_term_spec in S as [S1 S2].
      assert (T : cadd (term_value v x) (term_value v y) = term_value v (mk_mono (m_id x) (m_cj x) (cadd (m_f x) (m_f y)))).
      { unfold term_value. cbn [m_id m_cj m_f]. rewrite S1, S2. ring. }
      destruct (is_zero (cadd (m_f x) (m_f y))) eqn:Z; rewrite ?value_cons, IHl by auto.
      + apply is_zero_true in Z. assert (E : cadd (term_value v x) (term_value v y) = c0) by (rewrite T; unfold term_value; cbn [m_f]; rewrite Z; ring).
        transitivity (cadd (cadd (term_value v x) (term_value v y)) (cadd (value v l) (value v r))); [rewrite E; ring|ring].
      + rewrite <- T. ring.
  Qed.
  Lemma merge_in : forall l r z, In z (merge_terms lt l r) -> (exists y, (In y l \/ In y r) /\ same_term z y = true) /\ (m_f z <> c0 \/ In z l \/ In z r).
  Proof.
    induction l as [|x l IHl]; intros r z; [rewrite merge_nil_l; intro H; split; [exists z; split; [auto|apply same_refl]|auto]|].
    induction r as [|y r IHr]; [rewrite merge_nil_r; intro H; split; [exists z; split; [auto|apply same_refl]|auto]|].
    rewrite merge_cons. destruct (lt x y) eqn:A; [|destruct (lt y x) eqn:B].
    - intros [<-|H]; [split; [exists x; split; [left; now left|apply same_refl]|right; left; now left]|].
      apply IHl in H as [[w [H S]] Q]. split; [exists w; split; [|exact S]; destruct H as [H|H]; [left; now right|right; exact H]|].
      destruct Q as [Q|[Q|Q]]; [left; exact Q|right; left; now right|right; right; exact Q].
    - intros [<-|H]; [split; [exists y; split; [right; now left|apply same_refl]|right; right; now left]|].
      apply IHr in H as [[w [H S]] Q]. split; [exists w; split; [|exact S]; destruct H as [H|H]; [left; exact H|right; now right]|].
      destruct Q as [Q|[Q|Q]]; [left; exact Q|right; left; exact Q|right; right; now right].
    - assert (G : forall z, In z (merge_terms lt l r) -> (exists y0, (In y0 (x :: l) \/ In y0 (y :: r)) /\ same_term z y0 = true) /\ (m_f z <> c0 \/ In z (x :: l) \/ In z (y :: r))).
      { intros u H. apply IHl in H as [[w [H S]] Q]. split; [exists w; split; [|exact S]; destruct H as [H|H]; [left; now right|right; now right]|].
        destruct Q as [Q|[Q|Q]]; [left; exact Q|right; left; now right|right; right; now right]. }
      destruct (is_zero (cadd (m_f x) (m_f y))) eqn:Z; [apply G|]. intros [<-|H]; [|now apply G].
      split; [exists x; split; [left; now left|apply same_term_spec; auto]|left]. apply is_zero_false in Z. exact Z.
  Qed.
  Lemma same_ok (x y : mono) : same_term x y = true -> ok y -> ok x.
  Proof. intros S K. apply same_term_spec in S as [S _]. unfold in_table in *. congruence. Qed.
  Lemma merge_ok l r : Forall ok l -> Forall ok r -> Forall ok (merge_terms lt l r).
  Proof.
    intros Fl Fr. apply Forall_forall. intros z Hz. apply merge_in in Hz as [[y [H S]] _]. rewrite Forall_forall in *.
    apply (same_ok z y S). destruct H; auto.
  Qed.
  Lemma merge_above x l r : ok x -> Forall ok l -> Forall ok r -> Forall (strict x) l -> Forall (strict x) r -> Forall (strict x) (merge_terms lt l r).
  Proof.
    intros K Fl Fr Ll Lr. apply Forall_forall. intros z Hz. apply merge_in in Hz as [[y [H S]] _]. rewrite Forall_forall in *.
    assert (ok y) by (destruct H; auto). rewrite (lt_same R t lt HO x x z y K (same_ok z y S H0) (same_refl R x) S). destruct H; auto.
  Qed.
  Lemma merge_sorted : forall l r, Forall ok l -> Forall ok r -> StronglySorted strict l -> StronglySorted strict r -> StronglySorted strict (merge_terms lt l r).
  Proof.
    induction l as [|x l IHl]; intros r Fl Fr Sl Sr; [now rewrite merge_nil_l|].
    induction r as [|y r IHr]; [now rewrite merge_nil_r|].
    inversion Fl as [|? ? Kx Fl']. inversion Fr as [|? ? Ky Fr']. inversion Sl as [|? ? Sl' Al]. inversion Sr as [|? ? Sr' Ar]. subst.
    assert (up : forall a b m, ok a -> ok b -> Forall ok m -> lt a b = true -> Forall (strict b) m -> Forall (strict a) m).
    { intros a b m Ka Kb Fm L H. rewrite Forall_forall in *. intros z Hz. apply (lt_trans R t lt HO a b z); auto. }
    rewrite merge_cons. destruct (lt x y) eqn:A; [|destruct (lt y x) eqn:B].
    - constructor; [apply IHl; auto|]. apply merge_above; auto. constructor; [exact A|]. now apply (up x y r).
    - constructor; [apply IHr; auto|]. apply merge_above; auto. constructor; [exact B|]. now apply (up y x l).
    - pose proof (lt_total R t lt HO x y Kx Ky A B) as S.
      destruct (is_zero (cadd (m_f x) (m_f y))); [now apply IHl|]. constructor; [now apply IHl|].
      apply merge_above; auto; apply Forall_forall; intros z Hz.
      + rewrite Forall_forall in Al, Fl'. rewrite (lt_same R t lt HO _ x z z); auto; try apply same_refl; try (apply same_term_spec; auto).
      + rewrite Forall_forall in Ar, Fr'. rewrite (lt_same R t lt HO _ y z z); auto; try apply same_refl; try (apply same_term_spec in S as [S1 S2]; apply same_term_spec; cbn; auto).
  Qed.
  Lemma merge_canonical p q : canonical t lt p -> canonical t lt q -> canonical t lt (merge_terms lt p q).
  Proof.
    intros Cp Cq. pose proof (canonical_ok R t lt p Cp) as Fp. pose proof (canonical_ok R t lt q Cq) as Fq. constructor.
    - apply merge_sorted; auto; [apply Cp|apply Cq].
    - intros x Hx. pose proof (merge_in p q x Hx) as [[y [H S]] Q].
      assert (Y : ok y /\ m_f y <> c0 /\ m_id y <> 0 /\ (herm t (m_id y) = true \/ anti t (m_id y) = true -> m_cj y = false)).
      { destruct H as [H|H]; [apply (cp_terms t lt p Cp y H)|apply (cp_terms t lt q Cq y H)]. }
      destruct Y as [K [_ [Z C]]]. pose proof (same_ok x y S K) as Kx. apply same_term_spec in S as [S1 S2]. rewrite S1, S2. refine (conj Kx (conj _ (conj Z C))).
      destruct Q as [Q|[Q|Q]]; [exact Q|apply (cp_terms t lt p Cp x Q)|apply (cp_terms t lt q Cq x Q)].
  Qed.
  Lemma append_merge p q : append lt p q = merge_terms lt p q.
  Proof. destruct p, q; reflexivity. Qed.
  Lemma sum_value v p q : canonical t lt p -> canonical t lt q -> value v (sum_pp lt p q) = cadd (value v p) (value v q).
  Proof. intros Cp Cq. apply merge_value; apply (canonical_ok R t lt); auto. Qed.
  (** a single term *)
  Definition good_term (x : mono) : Prop := canonical t lt [x].
  Lemma good_ok x : good_term x -> ok x. Proof. intro C. apply (cp_terms t lt _ C x). now left. Qed.
  Lemma sum_pm_merge : forall p b, Forall ok p -> ok b -> sum_pm lt p b = merge_terms lt p [b].
  Proof.
    induction p as [|x p IH]; intros b F K; [reflexivity|]. inversion F as [|? ? Kx F']. subst. rewrite merge_cons. cbn [sum_pm].
    destruct (lt x b) eqn:A; [now rewrite IH|]. destruct (lt b x) eqn:B.
    - destruct (same_term x b) eqn:S; [|now rewrite merge_nil_r]. exfalso.
      rewrite (lt_same R t lt HO b x x x K Kx) in B; [rewrite (lt_irr R t lt HO x Kx) in B; discriminate| |apply same_refl].
      apply same_term_spec in S as [S1 S2]. apply same_term_spec. auto.
    - pose proof (lt_total R t lt HO x b Kx K A B) as S. rewrite S. rewrite merge_nil_r. apply same_term_spec in S as [S1 S2]. now rewrite S1, S2.
  Qed.
  Lemma sum_mm_merge a b : ok a -> ok b -> m_id a <> 0 -> sum_mm lt a b = merge_terms lt [a] [b].
  Proof.
    intros Ka Kb Z. unfold sum_mm. rewrite merge_cons, merge_nil_r. change (merge_terms lt [] []) with (@nil mono). rewrite merge_nil_l. destruct (same_term a b) eqn:S.
    - assert (S' : same_term b a = true) by (apply same_term_spec in S as [S1 S2]; apply same_term_spec; auto).
      rewrite (lt_same R t lt HO a b b b Ka Kb S (same_refl R b)), (lt_irr R t lt HO b Kb).
      rewrite (lt_same R t lt HO b a a a Kb Ka S' (same_refl R a)), (lt_irr R t lt HO a Ka).
      destruct (is_zero (cadd (m_f a) (m_f b))) eqn:E; [reflexivity|]. unfold poly_of_mono. cbn [m_id m_f].
      apply Nat.eqb_neq in Z. now rewrite Z, E.
    - destruct (lt a b) eqn:A; [reflexivity|]. destruct (lt b a) eqn:B; [reflexivity|]. rewrite (lt_total R t lt HO a b Ka Kb A B) in S. discriminate.
  Qed.
  Lemma sum_mm_value v (a b : mono) : v 0 = c0 -> value v (sum_mm lt a b) = cadd (term_value v a) (term_value v b).
  Proof.
    intro V0. unfold sum_mm. destruct (same_term a b) eqn:S.
    - apply same_term_spec in S as [S1 S2].
      assert (T : cadd (term_value v a) (term_value v b) = term_value v (mk_mono (m_id a) (m_cj a) (cadd (m_f a) (m_f b)))).
      { unfold term_value. cbn [m_id m_cj m_f]. rewrite S1, S2. ring. }
      rewrite T. destruct (is_zero (cadd (m_f a) (m_f b))) eqn:Z.
      + apply is_zero_true in Z. rewrite Z. unfold term_value. cbn. apply cx_ext; cbn; ring.
      + unfold poly_of_mono. cbn [m_id m_f]. rewrite Z. destruct (Nat.eqb_spec (m_id a) 0) as [Q|Q]; cbn [negb andb].
        * unfold term_value. cbn [m_id m_cj m_f]. rewrite Q, V0. destruct (m_cj a); rewrite ?cconj_0; cbn; apply cx_ext; cbn; ring.
        * cbn [value fold_right]. ring.
    - destruct (lt a b); cbn [value fold_right]; ring.
  Qed.
  Lemma mono_canonical (x : mono) : in_table t x -> (herm t (m_id x) = true \/ anti t (m_id x) = true -> m_cj x = false) -> canonical t lt (poly_of_mono x).
  Proof.
    intros K C. unfold poly_of_mono. destruct (Nat.eqb_spec (m_id x) 0) as [Z|Z]; cbn [negb andb]; [constructor; [constructor|easy]|].
    destruct (is_zero (m_f x)) eqn:E; [constructor; [constructor|easy]|]. apply is_zero_false in E.
    constructor; [repeat constructor|]. intros y [<-|[]]. auto.
  Qed.
  Lemma mono_value v (x : mono) : v 0 = c0 -> value v (poly_of_mono x) = term_value v x.
  Proof.
    intro V0. unfold poly_of_mono, term_value. destruct (Nat.eqb_spec (m_id x) 0) as [Z|Z]; cbn [negb andb].
    - rewrite Z, V0. destruct (m_cj x); rewrite ?cconj_0; cbn; apply cx_ext; cbn; ring.
    - destruct (is_zero (m_f x)) eqn:E; cbn [negb]; [|cbn [value fold_right]; unfold term_value; ring]. apply is_zero_true in E. rewrite E. cbn. apply cx_ext; cbn; ring.
  Qed.

  (** scale *)
  Lemma map_sorted (f : mono -> mono) p : (forall x, same_term (f x) x = true) -> Forall ok p -> StronglySorted strict p -> StronglySorted strict (map f p).
  Proof.
    intros H F. induction 1 as [|x l S IH A]; cbn; [constructor|]. inversion F as [|? ? K F']. subst. constructor; [now apply IH|].
    apply Forall_forall. intros y Hy. apply in_map_iff in Hy as [z [<- Hz]]. rewrite Forall_forall in A, F'.
    rewrite (lt_same R t lt HO (f x) x (f z) z); auto; apply (same_ok _ _ (H _)); auto.
  Qed.
  Lemma scale_canonical f p : canonical t lt p -> canonical t lt (scale f p).
  Proof.
    intro C. unfold scale. destruct (is_zero f) eqn:Z; [constructor; [constructor|easy]|]. destruct (ceqb f c1); [exact C|]. apply is_zero_false in Z.
    constructor.
    - apply map_sorted; [intro; apply same_term_spec; split; reflexivity|now apply (canonical_ok R t lt)|apply C].
    - intros x Hx. apply in_map_iff in Hx as [y [<- Hy]]. destruct (cp_terms t lt p C y Hy) as [A [B [D E]]]. cbn. repeat split; auto.
      intro Q. apply cmul_zero in Q as [Q|Q]; auto.
  Qed.
  Lemma scale_map_value v f (p : list mono) : value v (map (fun x => set_f x (cmul (m_f x) f)) p) = cmul f (value v p).
  Proof. induction p as [|x p IH]; cbn [map]; [cbn; apply cx_ext; cbn; ring|]. rewrite !value_cons, IH. unfold term_value. cbn. ring. Qed.
  Lemma scale_value v (f : cx R) (p : list mono) : value v (scale f p) = cmul f (value v p).
  Proof.
    unfold scale. destruct (is_zero f) eqn:Z; [apply is_zero_true in Z; rewrite Z; cbn; apply cx_ext; cbn; ring|].
    destruct (ceqb f c1) eqn:O; [apply ceqb_spec in O; rewrite O; ring|]. apply scale_map_value.
  Qed.

  (** equality *)
  Lemma mono_eqb_spec (x y : mono) : m_id x <> 0 -> (mono_eqb x y = true <-> x = y).
  Proof.
    intro Z. unfold mono_eqb. apply Nat.eqb_neq in Z. rewrite Z. cbn [orb]. rewrite !andb_true_iff, Nat.eqb_eq, eqb_true_iff, ceqb_spec.
    split; [intros [A [B D]]; destruct x, y; cbn in *; subst; reflexivity|intros ->; auto].
  Qed.
  Lemma poly_eqb_spec : forall p q : list mono, (forall x, In x p -> m_id x <> 0) -> (poly_eqb p q = true <-> p = q).
  Proof.
    induction p as [|x p IH]; intros [|y q] H; cbn [poly_eqb]; try (split; [discriminate|intro Q; discriminate Q]); [tauto|].
    rewrite andb_true_iff, IH, mono_eqb_spec; [|apply H; now left|intros z Hz; apply H; now right]. split; [intros [-> ->]; reflexivity|intro E; now injection E].
  Qed.

  (** ** conjugation *)
  Lemma lt_ids x y x' y' : ok x -> ok y -> lt x y = true -> m_id x <> m_id y -> m_id x' = m_id x -> m_id y' = m_id y -> lt x' y' = true.
  Proof.
    destruct HO as [rk [I E]]. intros Kx Ky L N A B. apply E; [unfold in_table in *; congruence|unfold in_table in *; congruence|].
    apply E in L; auto. destruct L as [L|[L _]]; [left; now rewrite A, B|congruence].
  Qed.
  Lemma lt_pair x y : ok x -> ok y -> lt x y = true -> m_id x = m_id y -> m_cj x = false /\ m_cj y = true.
  Proof. destruct HO as [rk [I E]]. intros Kx Ky L N. apply E in L; auto. rewrite N in L. destruct L as [L|L]; [lia|tauto]. Qed.
  Fixpoint cform (p : list mono) : list mono :=
    match p with
    | [] => []
    | x :: p' => match p' with
                 | [] => [conj_term t x]
                 | y :: p'' => if Nat.eqb (m_id x) (m_id y) then conj_term t y :: conj_term t x :: cform p'' else conj_term t x :: cform p'
                 end
    end.
  Lemma cform_cons2 x y p : cform (x :: y :: p) = if Nat.eqb (m_id x) (m_id y) then conj_term t y :: conj_term t x :: cform p else conj_term t x :: cform (y :: p).
  Proof. reflexivity. Qed.
  Lemma conj_id (x : mono) : m_id (conj_term t x) = m_id x.
  Proof. unfold conj_term. destruct (herm t (m_id x)); [reflexivity|]. destruct (anti t (m_id x)); reflexivity. Qed.
  Lemma conj_cj (x : mono) : m_cj (conj_term t x) = if herm t (m_id x) || anti t (m_id x) then m_cj x else negb (m_cj x).
  Proof. unfold conj_term. destruct (herm t (m_id x)); [reflexivity|]. destruct (anti t (m_id x)); reflexivity. Qed.
  (** a property of strictly sorted lists, two at a time *)
  Lemma two_ind (P : list mono -> Prop) : P [] -> (forall x, P [x]) -> (forall x y p, P p -> P (y :: p) -> P (x :: y :: p)) -> forall p, P p.
  Proof.
    intros H0 H1 H2. assert (G : forall p, P p /\ forall x, P (x :: p)).
    { induction p as [|y p [I J]]; [auto|]. split; [apply J|]. intro x. apply H2; auto. }
    intro p. apply G.
  Qed.
  Lemma canonical_tail (x : mono) (p : list mono) : canonical t lt (x :: p) -> canonical t lt p.
  Proof. intro C. constructor; [pose proof (cp_sorted t lt _ C) as S; now inversion S|]. intros y Hy. apply (cp_terms t lt _ C). now right. Qed.
  Lemma canonical_head (x : mono) (p : list mono) : canonical t lt (x :: p) -> Forall (strict x) p.
  Proof. intro C. pose proof (cp_sorted t lt _ C) as S. now inversion S. Qed.
  Lemma canonical_ids x y p z : canonical t lt (x :: y :: p) -> In z p -> m_id x <> m_id z.
  Proof.
    intros C Hz E. pose proof (canonical_ok R t lt _ C) as F. inversion F as [|? ? Kx F']. inversion F' as [|? ? Ky F'']. subst.
    pose proof (canonical_head _ _ C) as A. pose proof (canonical_head _ _ (canonical_tail _ _ C)) as B. rewrite Forall_forall in A, B, F''.
    destruct (lt_pair x z Kx (F'' z Hz) (A z (or_intror Hz)) E) as [X Z].
    destruct HO as [rk [I O]]. assert (L1 := A y (or_introl eq_refl)). assert (L2 := B z Hz). apply O in L1; auto. apply O in L2; auto.
    rewrite E in L1. destruct L1 as [L1|[L1 [L1' L1'']]], L2 as [L2|[L2 [L2' L2'']]]; try congruence; [lia|rewrite L2 in L1; lia|rewrite L1 in L2; lia].
  Qed.
  Lemma pair_facts x y p : canonical t lt (x :: y :: p) -> m_id x = m_id y ->
    m_cj x = false /\ m_cj y = true /\ herm t (m_id x) = false /\ anti t (m_id x) = false.
  Proof.
    intros C E. pose proof (canonical_ok R t lt _ C) as F. inversion F as [|? ? Kx F']. inversion F' as [|? ? Ky _]. subst.
    pose proof (canonical_head _ _ C) as A. inversion A as [|? ? L _]. subst. destruct (lt_pair x y Kx Ky L E) as [X Y].
    destruct (cp_terms t lt _ C y (or_intror (or_introl eq_refl))) as [_ [_ [_ Q]]]. rewrite E.
    repeat split; auto; [destruct (herm t (m_id y)) eqn:H|destruct (anti t (m_id y)) eqn:H]; auto; exfalso; rewrite Q in Y; auto; discriminate.
  Qed.
  Lemma swap_head : forall l (x : mono), (forall y, In y l -> m_id x <> m_id y) -> swap_pass x l = x :: swap_all l.
  Proof.
    intros [|y l] x H; [reflexivity|]. cbn [swap_pass swap_all]. destruct (Nat.eqb_spec (m_id x) (m_id y)) as [E|E]; [|reflexivity].
    exfalso. apply (H y); [now left|exact E].
  Qed.
  Lemma swap_cform : forall p, canonical t lt p -> swap_all (map (conj_term t) p) = cform p.
  Proof.
    apply (two_ind (fun p => canonical t lt p -> swap_all (map (conj_term t) p) = cform p)); [reflexivity|reflexivity|].
    intros x y p I J C. rewrite cform_cons2. cbn [map swap_all]. cbn [swap_pass]. rewrite !conj_id.
    destruct (Nat.eqb_spec (m_id x) (m_id y)) as [E|E]; cbn [andb].
    - destruct (pair_facts x y p C E) as [X [Y [H A]]]. rewrite !conj_cj. rewrite <- E, H, A. cbn [orb]. rewrite X, Y. cbn [negb andb].
      f_equal. rewrite swap_head; [f_equal; apply I; now apply canonical_tail in C; apply canonical_tail in C|].
      intros z Hz. apply in_map_iff in Hz as [w [<- Hw]]. rewrite !conj_id. now apply (canonical_ids x y p w).
    - f_equal. apply J. now apply canonical_tail in C.
  Qed.
  Lemma conj_cform p : canonical t lt p -> conjugate_poly t p = cform p.
  Proof.
    intro C. unfold conjugate_poly. destruct (existsb (fun x => negb (herm t (m_id x))) p && (1 <? length p)) eqn:E; [now apply swap_cform|].
    apply andb_false_iff in E as [E|E].
    - revert C E. apply (two_ind (fun p => canonical t lt p -> existsb (fun x => negb (herm t (m_id x))) p = false -> map (conj_term t) p = cform p)); [reflexivity|reflexivity|].
      intros x y q I J C E. rewrite cform_cons2. cbn [existsb] in E. apply orb_false_iff in E as [E1 E2].
      destruct (Nat.eqb_spec (m_id x) (m_id y)) as [Q|Q].
      + destruct (pair_facts x y q C Q) as [_ [_ [H _]]]. rewrite H in E1. discriminate.
      + cbn [map]. f_equal. apply J; [now apply canonical_tail in C|exact E2].
    - destruct p as [|x [|y q]]; [reflexivity|reflexivity|discriminate].
  Qed.
  Lemma conj_term_value v (x : mono) : assignment t v -> ok x -> term_value v (conj_term t x) = cconj (term_value v x).
  Proof.
    intros A K. unfold term_value, conj_term. rewrite cconj_mul. unfold in_table in K. destruct (herm t (m_id x)) eqn:H; [|destruct (anti t (m_id x)) eqn:H']; cbn [set_f m_id m_cj m_f].
    - destruct (m_cj x); rewrite ?cconj_conj, (as_herm' R t v _ A K H); reflexivity.
    - destruct (m_cj x); rewrite ?cconj_conj, (as_anti' R t v _ A K H'); ring.
    - destruct (m_cj x); cbn [negb]; now rewrite ?cconj_conj.
  Qed.
  Lemma cform_value v : assignment t v -> forall p, Forall ok p -> value v (cform p) = cconj (value v p).
  Proof.
    intro A. apply (two_ind (fun p => Forall ok p -> value v (cform p) = cconj (value v p))).
    - intros _. cbn. now rewrite cconj_0.
    - intros x F. inversion F. subst. cbn [cform]. rewrite !value_cons, conj_term_value, cconj_add by auto. cbn. now rewrite cconj_0.
    - intros x y p I J F. inversion F as [|? ? Kx F']. inversion F' as [|? ? Ky F'']. subst. rewrite cform_cons2. destruct (m_id x =? m_id y).
      + rewrite !value_cons, I, !conj_term_value, !cconj_add by auto. ring.
      + rewrite value_cons, J, conj_term_value by auto. rewrite (value_cons R v x), cconj_add. reflexivity.
  Qed.
  Lemma cform_ids : forall p z, In z (cform p) -> exists y, In y p /\ z = conj_term t y.
  Proof.
    apply (two_ind (fun p => forall z, In z (cform p) -> exists y, In y p /\ z = conj_term t y)); [easy| |].
    - intros x z [<-|[]]. exists x. split; [now left|reflexivity].
    - intros x y p I J z. rewrite cform_cons2. destruct (m_id x =? m_id y).
      + intros [<-|[<-|H]]; [exists y; split; [right; now left|reflexivity]|exists x; split; [now left|reflexivity]|].
        apply I in H as [w [H E]]. exists w. split; [now right; right|exact E].
      + intros [<-|H]; [exists x; split; [now left|reflexivity]|]. apply J in H as [w [H E]]. exists w. split; [now right|exact E].
  Qed.
  Lemma cform_sorted : forall p, canonical t lt p -> StronglySorted strict (cform p).
  Proof.
    apply (two_ind (fun p => canonical t lt p -> StronglySorted strict (cform p))); [constructor|repeat constructor|].
    intros x y p I J C. rewrite cform_cons2. pose proof (canonical_ok R t lt _ C) as F. inversion F as [|? ? Kx F']. inversion F' as [|? ? Ky F'']. subst.
    pose proof (canonical_head _ _ C) as A. pose proof (canonical_head _ _ (canonical_tail _ _ C)) as B. rewrite Forall_forall in A, B, F''.
    assert (Cp : canonical t lt p) by (now apply canonical_tail in C; apply canonical_tail in C).
    destruct (Nat.eqb_spec (m_id x) (m_id y)) as [E|E].
    - assert (Hy : forall z, In z p -> m_id y <> m_id z) by (intros z Hz; rewrite <- E; now apply (canonical_ids x y p z)).
      destruct (pair_facts x y p C E) as [X [Y [H Q]]].
      constructor; [constructor; [now apply I|]|constructor].
      + apply Forall_forall. intros z Hz. apply cform_ids in Hz as [w [Hw ->]].
        apply (lt_ids x w); auto using conj_id; [apply A; now right|now apply (canonical_ids x y p w)].
      + destruct HO as [rk [In_ O]]. apply O; [unfold in_table in *; now rewrite conj_id|unfold in_table in *; now rewrite conj_id|].
        right. rewrite !conj_id, !conj_cj. rewrite <- E, H, Q. cbn [orb]. rewrite X, Y. auto.
      + apply Forall_forall. intros z Hz. apply cform_ids in Hz as [w [Hw ->]]. apply (lt_ids y w); auto using conj_id.
    - constructor; [apply J; now apply canonical_tail in C|]. apply Forall_forall. intros z Hz. apply cform_ids in Hz as [w [Hw ->]].
      assert (Kw : ok w) by (destruct Hw as [<-|Hw]; auto). apply (lt_ids x w); auto using conj_id.
      destruct Hw as [<-|Hw]; [exact E|]. now apply (canonical_ids x y p w).
  Qed.
  Lemma cform_canonical p : canonical t lt p -> canonical t lt (cform p).
  Proof.
    intro C. constructor; [now apply cform_sorted|]. intros x Hx. apply cform_ids in Hx as [y [Hy ->]].
    destruct (cp_terms t lt p C y Hy) as [K [N [Z Q]]]. unfold in_table. rewrite conj_id. repeat split; auto.
    - unfold conj_term. destruct (herm t (m_id y)); [|destruct (anti t (m_id y))]; cbn [set_f m_f]; intro E.
      + apply N. now apply cconj_zero.
      + apply N, cconj_zero. replace (cconj (m_f y)) with (copp (copp (cconj (m_f y)))) by ring. rewrite E. ring.
      + apply N. now apply cconj_zero.
    - intro H. rewrite conj_cj. replace (herm t (m_id y) || anti t (m_id y)) with true; [now apply Q|]. symmetry. apply orb_true_iff. tauto.
  Qed.
  Lemma conjugate_canonical p : canonical t lt p -> canonical t lt (conjugate_poly t p).
  Proof. intro C. rewrite (conj_cform p C). now apply cform_canonical. Qed.
  Lemma conjugate_value v p : assignment t v -> canonical t lt p -> value v (conjugate_poly t p) = cconj (value v p).
  Proof. intros A C. rewrite (conj_cform p C). apply cform_value; [exact A|now apply (canonical_ok R t lt)]. Qed.

  (** ** Hermiticity tests *)
  Lemma is_real_spec (f : cx R) : is_real f = true <-> cconj f = f.
  Proof. unfold is_real. rewrite r_eqb_spec. symmetry. apply creal_part. Qed.
  Lemma is_imaginary_spec (f : cx R) : is_imaginary f = true <-> cconj f = copp f.
  Proof. unfold is_imaginary. rewrite r_eqb_spec. symmetry. apply cimag_part. Qed.
  Lemma mono_ext (x y : mono) : m_id x = m_id y -> m_cj x = m_cj y -> m_f x = m_f y -> x = y.
  Proof. destruct x, y; cbn; intros; subst; reflexivity. Qed.
  Lemma opp_eq (a b : cx R) : copp a = b <-> a = copp b.
  Proof. split; intro H; [rewrite <- H|rewrite H]; ring. Qed.
  Lemma conj_term_self (x : mono) : (herm t (m_id x) = true \/ anti t (m_id x) = true -> m_cj x = false) ->
    (conj_term t x = x <-> if herm t (m_id x) then is_real (m_f x) = true else if anti t (m_id x) then is_imaginary (m_f x) = true else False).
  Proof.
    intro Q. unfold conj_term. destruct (herm t (m_id x)) eqn:H; [|destruct (anti t (m_id x)) eqn:H'].
    - rewrite is_real_spec. split; [intro E; apply (f_equal m_f) in E; exact E|intro E; apply mono_ext; auto].
    - rewrite is_imaginary_spec. split; [intro E; apply (f_equal m_f) in E; cbn in E; rewrite <- E at 2; ring|intro E; apply mono_ext; auto; cbn; rewrite E; ring].
    - split; [|easy]. intro E. apply (f_equal m_cj) in E. cbn in E. destruct (m_cj x); discriminate.
  Qed.
  Lemma herm_scan_stuck x p : canonical t lt (x :: p) -> (forall y q, p = y :: q -> m_id x <> m_id y) -> herm_scan t (Some x) p = false.
  Proof.
    intros C H. destruct p as [|y q]; [reflexivity|]. cbn [herm_scan].
    destruct (cp_terms t lt _ C y (or_intror (or_introl eq_refl))) as [_ [N _]]. apply is_zero_false in N. rewrite N.
    destruct (herm t (m_id y)); [reflexivity|]. destruct (anti t (m_id y)); [reflexivity|]. destruct (m_cj y); [|reflexivity].
    specialize (H y q eq_refl). apply Nat.eqb_neq in H. now rewrite H.
  Qed.
  Lemma herm_scan_spec : forall p, canonical t lt p -> (herm_scan t None p = true <-> cform p = p).
  Proof.
    apply (two_ind (fun p => canonical t lt p -> (herm_scan t None p = true <-> cform p = p))); [intros; cbn; tauto| |].
    - intros x C. destruct (cp_terms t lt _ C x (or_introl eq_refl)) as [K [N [Z Q]]]. cbn [cform herm_scan]. apply is_zero_false in N. rewrite N.
      assert (E : [conj_term t x] = [x] <-> conj_term t x = x) by (split; [intro E; now injection E|now intros ->]). rewrite E, (conj_term_self x Q).
      destruct (herm t (m_id x)); [rewrite andb_true_r; tauto|]. destruct (anti t (m_id x)); [rewrite andb_true_r; tauto|]. destruct (m_cj x); easy.
    - intros x y p I J C. destruct (cp_terms t lt _ C x (or_introl eq_refl)) as [K [N [Z Q]]].
      destruct (cp_terms t lt _ C y (or_intror (or_introl eq_refl))) as [Ky [Ny [Zy Qy]]]. rewrite cform_cons2.
      assert (Cy := canonical_tail _ _ C). assert (Cp := canonical_tail _ _ Cy).
      assert (N' := proj2 (is_zero_false R _) N). assert (Ny' := proj2 (is_zero_false R _) Ny).
      destruct (Nat.eqb_spec (m_id x) (m_id y)) as [E|E].
      + destruct (pair_facts x y p C E) as [X [Y [H A]]]. cbn [herm_scan]. rewrite N', Ny', <- E, H, A, X, Y, Nat.eqb_refl. cbn [andb].
        rewrite andb_true_iff, ceqb_spec, (I Cp). unfold conj_term. rewrite <- E, H, A, X, Y. cbn [negb]. split.
        * intros [F G]. rewrite G. f_equal; [|f_equal]; apply mono_ext; cbn; auto. rewrite F. apply cconj_conj.
        * intro G. injection G as G1 G2 G3. split; [|exact G3]. apply (f_equal m_f) in G1. cbn in G1. auto.
      + change (herm_scan t None (x :: y :: p)) with (if is_zero (m_f x) then herm_scan t None (y :: p)
          else if herm t (m_id x) then is_real (m_f x) && herm_scan t None (y :: p)
          else if anti t (m_id x) then is_imaginary (m_f x) && herm_scan t None (y :: p)
          else if m_cj x then false else herm_scan t (Some x) (y :: p)). rewrite N'.
        assert (G : conj_term t x :: cform (y :: p) = x :: y :: p <-> conj_term t x = x /\ cform (y :: p) = y :: p).
        { split; [intro G; injection G; auto|intros [G1 G2]; now rewrite G1, G2]. }
        rewrite G, (conj_term_self x Q), <- (J Cy). destruct (herm t (m_id x)); [apply andb_true_iff|]. destruct (anti t (m_id x)); [apply andb_true_iff|].
        destruct (m_cj x); [split; [discriminate|tauto]|]. rewrite herm_scan_stuck; [split; [discriminate|tauto]|exact C|].
        intros z q Eq. injection Eq as <- <-. exact E.
  Qed.
  Definition neg_all (p : list mono) : list mono := map (fun x => set_f x (copp (m_f x))) p.
  Lemma neg_value v (p : list mono) : value v (neg_all p) = copp (value v p).
  Proof. unfold neg_all. induction p as [|x p IH]; cbn [map]; [cbn; apply cx_ext; cbn; ring|]. rewrite !value_cons, IH. unfold term_value. cbn. ring. Qed.
  Lemma neg_canonical p : canonical t lt p -> canonical t lt (neg_all p).
  Proof.
    intro C. unfold neg_all. constructor.
    - apply map_sorted; [intro; apply same_term_spec; split; reflexivity|now apply (canonical_ok R t lt)|apply C].
    - intros x Hx. apply in_map_iff in Hx as [y [<- Hy]]. destruct (cp_terms t lt p C y Hy) as [A [B [D E]]]. cbn. repeat split; auto.
      intro Q. apply B. replace (m_f y) with (copp (copp (m_f y))) by ring. rewrite Q. ring.
  Qed.
  Lemma anti_scan_stuck x p : canonical t lt (x :: p) -> (forall y q, p = y :: q -> m_id x <> m_id y) -> anti_scan t (Some x) p = false.
  Proof.
    intros C H. destruct p as [|y q]; [reflexivity|]. cbn [anti_scan].
    destruct (cp_terms t lt _ C y (or_intror (or_introl eq_refl))) as [_ [N _]]. apply is_zero_false in N. rewrite N.
    destruct (anti t (m_id y)); [reflexivity|]. destruct (herm t (m_id y)); [reflexivity|]. destruct (m_cj y); [|reflexivity].
    specialize (H y q eq_refl). apply Nat.eqb_neq in H. now rewrite H.
  Qed.
  Lemma neg_term_self x : no_null t -> ok x -> m_id x <> 0 -> (herm t (m_id x) = true \/ anti t (m_id x) = true -> m_cj x = false) ->
    (set_f (conj_term t x) (copp (m_f (conj_term t x))) = x <-> if anti t (m_id x) then is_real (m_f x) = true else if herm t (m_id x) then is_imaginary (m_f x) = true else False).
  Proof.
    intros NN K Z Q. unfold conj_term. destruct (herm t (m_id x)) eqn:H.
    - assert (A : anti t (m_id x) = false) by (destruct (anti t (m_id x)) eqn:A; [exfalso; apply (NN (m_id x)); auto; lia|reflexivity]).
      rewrite A, is_imaginary_spec. cbn [set_f m_f m_id m_cj]. split; [intro E; apply (f_equal m_f) in E; cbn in E; rewrite <- E at 2; ring|intro E; apply mono_ext; auto; cbn; rewrite E; ring].
    - destruct (anti t (m_id x)) eqn:H'.
      + rewrite is_real_spec. cbn [set_f m_f m_id m_cj]. split; [intro E; apply (f_equal m_f) in E; cbn in E; rewrite <- E at 2; ring|intro E; apply mono_ext; auto; cbn; rewrite E; ring].
      + split; [|easy]. intro E. apply (f_equal m_cj) in E. cbn in E. destruct (m_cj x); discriminate.
  Qed.
  Lemma anti_scan_spec : no_null t -> forall p, canonical t lt p -> (anti_scan t None p = true <-> neg_all (cform p) = p).
  Proof.
    intro NN. apply (two_ind (fun p => canonical t lt p -> (anti_scan t None p = true <-> neg_all (cform p) = p))); [intros; cbn; tauto| |].
    - intros x C. destruct (cp_terms t lt _ C x (or_introl eq_refl)) as [K [N [Z Q]]]. cbn [cform anti_scan neg_all map]. apply is_zero_false in N. rewrite N.
      assert (E : [set_f (conj_term t x) (copp (m_f (conj_term t x)))] = [x] <-> set_f (conj_term t x) (copp (m_f (conj_term t x))) = x) by (split; [intro E; now injection E|now intros ->]).
      rewrite E, (neg_term_self x NN K Z Q).
      destruct (anti t (m_id x)); [rewrite andb_true_r; tauto|]. destruct (herm t (m_id x)); [rewrite andb_true_r; tauto|]. destruct (m_cj x); easy.
    - intros x y p I J C. destruct (cp_terms t lt _ C x (or_introl eq_refl)) as [K [N [Z Q]]].
      destruct (cp_terms t lt _ C y (or_intror (or_introl eq_refl))) as [Ky [Ny [Zy Qy]]]. rewrite cform_cons2.
      assert (Cy := canonical_tail _ _ C). assert (Cp := canonical_tail _ _ Cy).
      assert (N' := proj2 (is_zero_false R _) N). assert (Ny' := proj2 (is_zero_false R _) Ny).
      destruct (Nat.eqb_spec (m_id x) (m_id y)) as [E|E].
      + destruct (pair_facts x y p C E) as [X [Y [H A]]]. cbn [anti_scan]. rewrite N', Ny', <- E, H, A, X, Y, Nat.eqb_refl. cbn [andb].
        rewrite andb_true_iff, ceqb_spec, (I Cp). unfold neg_all. cbn [map]. unfold conj_term. rewrite <- E, H, A, X, Y. cbn [negb set_f m_id m_cj m_f]. fold (neg_all (cform p)). split.
        * intros [F G]. rewrite G. f_equal; [|f_equal]; apply mono_ext; cbn; auto. rewrite F, cconj_opp, cconj_conj. ring.
        * intro G. injection G as G1 G2 G3. split; [|exact G3]. apply (f_equal m_f) in G1. cbn in G1. auto.
      + change (anti_scan t None (x :: y :: p)) with (if is_zero (m_f x) then anti_scan t None (y :: p)
          else if anti t (m_id x) then is_real (m_f x) && anti_scan t None (y :: p)
          else if herm t (m_id x) then is_imaginary (m_f x) && anti_scan t None (y :: p)
          else if m_cj x then false else anti_scan t (Some x) (y :: p)). rewrite N'.
        assert (G : neg_all (conj_term t x :: cform (y :: p)) = x :: y :: p <-> set_f (conj_term t x) (copp (m_f (conj_term t x))) = x /\ neg_all (cform (y :: p)) = y :: p).
        { unfold neg_all at 1. cbn [map]. fold (neg_all (cform (y :: p))). split; [intro G; injection G; auto|intros [G1 G2]; now rewrite G1, G2]. }
        rewrite G, (neg_term_self x NN K Z Q), <- (J Cy). destruct (anti t (m_id x)); [apply andb_true_iff|]. destruct (herm t (m_id x)); [apply andb_true_iff|].
        destruct (m_cj x); [split; [discriminate|tauto]|]. rewrite anti_scan_stuck; [split; [discriminate|tauto]|exact C|].
        intros z q Eq. injection Eq as <- <-. exact E.
  Qed.
  Hypothesis ST : starts t.
  Hypothesis NN : no_null t.
  Lemma hermitian_iff p : canonical t lt p -> (is_hermitian t p = true <-> forall v, assignment t v -> cim (value v p) = r0 R).
  Proof.
    intro C. unfold is_hermitian. rewrite (herm_scan_spec p C). split.
    - intros E v A. apply creal_part. rewrite <- (cform_value v A p); [now rewrite E|now apply (canonical_ok R t lt)].
    - intro H. apply (canonical_unique R t lt HO); auto; [now apply cform_canonical|]. intros v A. rewrite (cform_value v A); [|now apply (canonical_ok R t lt)].
      apply creal_part. now apply H.
  Qed.
  Lemma antihermitian_iff p : canonical t lt p -> (is_antihermitian t p = true <-> forall v, assignment t v -> cre (value v p) = r0 R).
  Proof.
    intro C. unfold is_antihermitian. rewrite (anti_scan_spec NN p C). split.
    - intros E v A. apply cimag_part. rewrite <- (cform_value v A p); [|now apply (canonical_ok R t lt)]. rewrite <- E at 2. rewrite neg_value. ring.
    - intro H. apply (canonical_unique R t lt HO); auto; [now apply neg_canonical, cform_canonical|]. intros v A. rewrite neg_value, (cform_value v A); [|now apply (canonical_ok R t lt)].
      rewrite (proj2 (cimag_part R _) (H v A)). ring.
  Qed.

  (** is_conjugate *)
  Lemma conj_is_conjugate p : canonical t lt p -> is_conjugate t p (conjugate_poly t p) = true.
  Proof.
    intro C. rewrite (conj_cform p C). revert C. revert p. apply (two_ind (fun p => canonical t lt p -> is_conjugate t p (cform p) = true)); [reflexivity| |].
    - intros x C. cbn [cform is_conjugate]. rewrite andb_true_r. destruct (cp_terms t lt _ C x (or_introl eq_refl)) as [K [N [Z Q]]].
      unfold conj_pair. rewrite conj_id, Nat.eqb_refl. cbn [andb]. apply Nat.eqb_neq in Z. rewrite Z. cbn [orb]. unfold conj_term.
      destruct (herm t (m_id x)); cbn [set_f m_f m_cj]; [rewrite cconj_conj; apply ceqb_refl|]. destruct (anti t (m_id x)); cbn [set_f m_f m_cj]; [|reflexivity].
      rewrite cconj_opp, cconj_conj. destruct (ceqb (m_f x) (copp (m_f x))) eqn:E.
      + exfalso. apply ceqb_spec in E. apply N. apply cx_ext; apply double_zero; cbn.
        * apply (f_equal cre) in E. cbn in E. rewrite E at 1. ring.
        * apply (f_equal cim) in E. cbn in E. rewrite E at 1. ring.
      + replace (copp (copp (m_f x))) with (m_f x) by ring. rewrite ceqb_refl. apply eqb_reflx.
    - intros x y p I J C. rewrite cform_cons2. destruct (Nat.eqb_spec (m_id x) (m_id y)) as [E|E].
      + destruct (pair_facts x y p C E) as [X [Y [H A]]]. cbn [is_conjugate]. rewrite I by (now apply canonical_tail in C; apply canonical_tail in C). rewrite andb_true_r.
        unfold conj_pair. rewrite !conj_id, E, Nat.eqb_refl. rewrite <- E, H, A. cbn. rewrite orb_true_r. reflexivity.
      + change (is_conjugate t (x :: y :: p) (conj_term t x :: cform (y :: p))) with (conj_pair t x (conj_term t x) && is_conjugate t (y :: p) (cform (y :: p))).
        rewrite J by (now apply canonical_tail in C). rewrite andb_true_r. destruct (cp_terms t lt _ C x (or_introl eq_refl)) as [K [N [Z Q]]].
        unfold conj_pair. rewrite conj_id, Nat.eqb_refl. cbn [andb]. apply Nat.eqb_neq in Z. rewrite Z. cbn [orb]. unfold conj_term.
        destruct (herm t (m_id x)); cbn [set_f m_f m_cj]; [rewrite cconj_conj; apply ceqb_refl|]. destruct (anti t (m_id x)); cbn [set_f m_f m_cj]; [|reflexivity].
        rewrite cconj_opp, cconj_conj. destruct (ceqb (m_f x) (copp (m_f x))) eqn:E'.
        * exfalso. apply ceqb_spec in E'. apply N. apply cx_ext; apply double_zero; cbn.
          -- apply (f_equal cre) in E'. cbn in E'. rewrite E' at 1. ring.
          -- apply (f_equal cim) in E'. cbn in E'. rewrite E' at 1. ring.
        * replace (copp (copp (m_f x))) with (m_f x) by ring. rewrite ceqb_refl. apply eqb_reflx.
  Qed.
  (** symbols that are Hermitian or anti-Hermitian *)
  Definition flagged_terms (p : list mono) : Prop := forall x, In x p -> herm t (m_id x) = true \/ anti t (m_id x) = true.
  Lemma is_conjugate_flagged : forall p q, canonical t lt p -> canonical t lt q -> flagged_terms p -> is_conjugate t p q = true -> q = map (conj_term t) p.
  Proof.
    induction p as [|x p IH]; intros [|y q] Cp Cq F H; cbn [is_conjugate] in H; try discriminate; [reflexivity|].
    apply andb_true_iff in H as [H1 H2]. cbn [map]. f_equal; [|apply IH; auto; [now apply canonical_tail in Cp|now apply canonical_tail in Cq|intros z Hz; apply F; now right]].
    destruct (cp_terms t lt _ Cp x (or_introl eq_refl)) as [K [N [Z Q]]]. destruct (cp_terms t lt _ Cq y (or_introl eq_refl)) as [Ky [Ny [Zy Qy]]].
    unfold conj_pair in H1. apply andb_true_iff in H1 as [H1 H3]. apply Nat.eqb_eq in H1. apply Nat.eqb_neq in Z. rewrite Z in H3. cbn [orb] in H3.
    pose proof (F x (or_introl eq_refl)) as Fx. specialize (Q Fx). rewrite <- H1 in Qy. specialize (Qy Fx). unfold conj_term.
    destruct (herm t (m_id x)) eqn:E; [|destruct (anti t (m_id x)) eqn:E'].
    - apply ceqb_spec in H3. apply mono_ext; cbn; auto; [congruence|]. now rewrite H3, cconj_conj.
    - rewrite Q, Qy in H3. cbn [Bool.eqb negb] in H3. destruct (ceqb (m_f x) (cconj (m_f y))); [discriminate|].
      destruct (ceqb (m_f x) (copp (cconj (m_f y)))) eqn:G; [|discriminate]. apply ceqb_spec in G. apply mono_ext; cbn; auto; [congruence|].
      rewrite G, cconj_opp, cconj_conj. ring.
    - destruct Fx; discriminate.
  Qed.
  Lemma cform_flagged : forall p, canonical t lt p -> flagged_terms p -> cform p = map (conj_term t) p.
  Proof.
    apply (two_ind (fun p => canonical t lt p -> flagged_terms p -> cform p = map (conj_term t) p)); [reflexivity|reflexivity|].
    intros x y p I J C F. rewrite cform_cons2. destruct (Nat.eqb_spec (m_id x) (m_id y)) as [E|E].
    - destruct (pair_facts x y p C E) as [X [Y [H A]]]. destruct (F x (or_introl eq_refl)); congruence.
    - cbn [map]. f_equal. apply J; [now apply canonical_tail in C|intros z Hz; apply F; now right].
  Qed.
  Lemma is_conjugate_iff p q : canonical t lt p -> canonical t lt q -> flagged_terms p -> (is_conjugate t p q = true <-> q = conjugate_poly t p).
  Proof.
    intros Cp Cq F. split; [|intros ->; now apply conj_is_conjugate]. intro H. rewrite (conj_cform p Cp), (cform_flagged p Cp F). now apply is_conjugate_flagged.
  Qed.

  (** ** real and imaginary parts *)
  Lemma half_half : cadd half half = @c1 R.
  Proof. unfold half. apply cx_ext; cbn; field. exact (two_neq_0 R). Qed.
  Lemma put_value v id cj (f : cx R) : value v (put id cj f) = term_value v (mk_mono id cj f).
  Proof.
    unfold put. destruct (is_zero f) eqn:Z; [|cbn [value fold_right]; ring]. apply is_zero_true in Z. rewrite Z. unfold term_value. cbn. apply cx_ext; cbn; ring.
  Qed.
  Lemma half_conj : cconj half = @half R. Proof. apply cx_ext; cbn; ring. Qed.
  Lemma tv v id cj (f : cx R) : term_value v (mk_mono id cj f) = cmul f (if cj then cconj (v id) else v id). Proof. reflexivity. Qed.
  Lemma real_terms_value v : forall p, canonical t lt p -> value v (real_terms p) = cmul half (cadd (value v p) (cconj (value v p))).
  Proof.
    apply (two_ind (fun p => canonical t lt p -> value v (real_terms p) = cmul half (cadd (value v p) (cconj (value v p))))).
    - intros _. cbn. apply cx_ext; cbn; ring.
    - intros x _. cbn [real_terms]. rewrite value_cons. unfold term_value. cbn [value fold_right]. destruct (m_cj x).
      + rewrite !value_app, !put_value, !tv. cbn [value fold_right]. rewrite cconj_add, cconj_mul, cconj_conj, cconj_0. ring.
      + rewrite !value_app, !put_value, !tv. cbn [value fold_right]. rewrite cconj_add, cconj_mul, cconj_0. ring.
    - intros x y p I J C. assert (Cy := canonical_tail _ _ C). assert (Cp := canonical_tail _ _ Cy).
      change (real_terms (x :: y :: p)) with
        (if m_cj x then put (m_id x) false (cmul half (cconj (m_f x))) ++ put (m_id x) true (cmul half (m_f x)) ++ real_terms (y :: p)
         else if Nat.eqb (m_id x) (m_id y) then
                   put (m_id x) false (cmul half (cadd (m_f x) (cconj (m_f y)))) ++
                   put (m_id x) true (cmul half (cadd (cconj (m_f x)) (m_f y))) ++ real_terms p
                 else put (m_id x) false (cmul half (m_f x)) ++ put (m_id x) true (cmul half (cconj (m_f x))) ++ real_terms (y :: p)).
      rewrite (value_cons R v x). destruct (m_cj x) eqn:X; [|destruct (Nat.eqb_spec (m_id x) (m_id y)) as [E|E]].
      + rewrite !value_app, !put_value, !tv, (J Cy). unfold term_value. rewrite X, cconj_add, cconj_mul, cconj_conj. ring.
      + destruct (pair_facts x y p C E) as [_ [Y _]]. rewrite !value_app, !put_value, !tv, (I Cp), (value_cons R v y). unfold term_value. rewrite X, Y, <- E, !cconj_add, !cconj_mul, cconj_conj. ring.
      + rewrite !value_app, !put_value, !tv, (J Cy). unfold term_value. rewrite X, cconj_add, cconj_mul. ring.
  Qed.
  Lemma imag_terms_value v : forall p, canonical t lt p -> value v (imag_terms p) = cmul mihalf (csub (value v p) (cconj (value v p))).
  Proof.
    apply (two_ind (fun p => canonical t lt p -> value v (imag_terms p) = cmul mihalf (csub (value v p) (cconj (value v p))))).
    - intros _. cbn. apply cx_ext; cbn; ring.
    - intros x _. cbn [imag_terms]. rewrite value_cons. unfold term_value. cbn [value fold_right]. destruct (m_cj x).
      + rewrite !value_app, !put_value, !tv. cbn [value fold_right]. rewrite cconj_add, cconj_mul, cconj_conj, cconj_0. unfold mihalf. ring.
      + rewrite !value_app, !put_value, !tv. cbn [value fold_right]. rewrite cconj_add, cconj_mul, cconj_0. unfold mihalf. ring.
    - intros x y p I J C. assert (Cy := canonical_tail _ _ C). assert (Cp := canonical_tail _ _ Cy).
      change (imag_terms (x :: y :: p)) with
        (if m_cj x then put (m_id x) false (cmul ihalf (cconj (m_f x))) ++ put (m_id x) true (cmul mihalf (m_f x)) ++ imag_terms (y :: p)
         else if Nat.eqb (m_id x) (m_id y) then
                   put (m_id x) false (cmul mihalf (csub (m_f x) (cconj (m_f y)))) ++
                   put (m_id x) true (cmul ihalf (csub (cconj (m_f x)) (m_f y))) ++ imag_terms p
                 else put (m_id x) false (cmul mihalf (m_f x)) ++ put (m_id x) true (cmul ihalf (cconj (m_f x))) ++ imag_terms (y :: p)).
      rewrite (value_cons R v x). destruct (m_cj x) eqn:X; [|destruct (Nat.eqb_spec (m_id x) (m_id y)) as [E|E]].
      + rewrite !value_app, !put_value, !tv, (J Cy). unfold term_value. rewrite X, cconj_add, cconj_mul, cconj_conj. unfold mihalf. ring.
      + destruct (pair_facts x y p C E) as [_ [Y _]]. rewrite !value_app, !put_value, !tv, (I Cp), (value_cons R v y). unfold term_value. rewrite X, Y, <- E, !cconj_add, !cconj_mul, cconj_conj. unfold mihalf. ring.
      + rewrite !value_app, !put_value, !tv, (J Cy). unfold term_value. rewrite X, cconj_add, cconj_mul. unfold mihalf. ring.
  Qed.
  Lemma half_real (x : cx R) : cmul half (cadd x (cconj x)) = creal (cre x).
  Proof. unfold half. apply cx_ext; cbn; field; exact (two_neq_0 R). Qed.
  Lemma half_imag (x : cx R) : cmul mihalf (csub x (cconj x)) = creal (cim x).
  Proof. unfold mihalf, ihalf, half. apply cx_ext; cbn; field; exact (two_neq_0 R). Qed.
  Lemma put_ok id cj f : id < length (t_syms t) -> Forall ok (put id cj f).
  Proof. intro H. unfold put. destruct (is_zero f); repeat constructor. exact H. Qed.
  Lemma real_terms_ok : forall p, Forall ok p -> Forall ok (real_terms p) /\ Forall ok (imag_terms p).
  Proof.
    apply (two_ind (fun p => Forall ok p -> Forall ok (real_terms p) /\ Forall ok (imag_terms p))); [split; constructor| |].
    - intros x F. inversion F. subst. cbn [real_terms imag_terms]. destruct (m_cj x); split; rewrite ?Forall_app; repeat split; try (now apply put_ok); constructor.
    - intros x y p I J F. inversion F as [|? ? Kx F']. inversion F' as [|? ? Ky F'']. subst. specialize (I F'') as [I1 I2]. specialize (J F') as [J1 J2].
      cbn [real_terms imag_terms] in *. destruct (m_cj x); [|destruct (m_id x =? m_id y)]; split; rewrite ?Forall_app; repeat split; try (now apply put_ok); auto.
  Qed.
  Variable srt : list mono -> list mono.
  Hypothesis HS : sorts t lt srt.
  Lemma nil_canonical : canonical t lt []. Proof. constructor; [constructor|easy]. Qed.
  Lemma real_part_spec p : canonical t lt p -> canonical t lt (real_part t srt p) /\ forall v, assignment t v -> value v (real_part t srt p) = creal (cre (value v p)).
  Proof.
    intro C. assert (F := proj1 (real_terms_ok p (canonical_ok R t lt p C))). destruct p as [|x p]; [split; [apply nil_canonical|reflexivity]|].
    unfold real_part. split; [now apply make_poly_canonical|]. intros v A. rewrite (make_poly_value R t lt srt HS) by auto. rewrite real_terms_value by exact C. apply half_real.
  Qed.
  Lemma imag_part_spec p : canonical t lt p -> canonical t lt (imag_part t srt p) /\ forall v, assignment t v -> value v (imag_part t srt p) = creal (cim (value v p)).
  Proof.
    intro C. assert (F := proj2 (real_terms_ok p (canonical_ok R t lt p C))). destruct p as [|x p]; [split; [apply nil_canonical|reflexivity]|].
    unfold imag_part. split; [now apply make_poly_canonical|]. intros v A. rewrite (make_poly_value R t lt srt HS) by auto. rewrite imag_terms_value by exact C. apply half_imag.
  Qed.
  Lemma parts_sum p : canonical t lt p -> sum_pp lt (real_part t srt p) (scale ci (imag_part t srt p)) = p.
  Proof.
    intro C. destruct (real_part_spec p C) as [Cr Vr]. destruct (imag_part_spec p C) as [Ci Vi].
    apply (canonical_unique R t lt HO); auto; [apply merge_canonical; auto; now apply scale_canonical|].
    intros v A. rewrite sum_value; auto; [|now apply scale_canonical]. rewrite Vr, scale_value, Vi by exact A. apply cx_ext; cbn; ring.
  Qed.
  (** ** the laws of addition and scaling *)
  Lemma sum_comm p q : canonical t lt p -> canonical t lt q -> sum_pp lt p q = sum_pp lt q p.
  Proof.
    intros Cp Cq. apply (canonical_unique R t lt HO); auto; try now apply merge_canonical. intros v A. rewrite !sum_value by auto. ring.
  Qed.
  Lemma sum_assoc p q r : canonical t lt p -> canonical t lt q -> canonical t lt r -> sum_pp lt (sum_pp lt p q) r = sum_pp lt p (sum_pp lt q r).
  Proof.
    intros Cp Cq Cr. assert (canonical t lt (sum_pp lt p q)) by now apply merge_canonical. assert (canonical t lt (sum_pp lt q r)) by now apply merge_canonical.
    apply (canonical_unique R t lt HO); auto; try now apply merge_canonical. intros v A. rewrite !sum_value by auto. ring.
  Qed.
  Lemma sum_opposite p : canonical t lt p -> sum_pp lt p (scale (copp c1) p) = [].
  Proof.
    intro C. assert (canonical t lt (scale (copp c1) p)) by now apply scale_canonical.
    apply (canonical_unique R t lt HO); auto; [now apply merge_canonical|apply nil_canonical|]. intros v A. rewrite sum_value, scale_value by auto. cbn [value fold_right]. ring.
  Qed.
  Lemma sum_is_construct p q : canonical t lt p -> canonical t lt q -> sum_pp lt p q = make_poly t srt (p ++ q).
  Proof.
    intros Cp Cq. assert (F : Forall ok (p ++ q)) by (apply Forall_app; split; now apply (canonical_ok R t lt)).
    apply (canonical_unique R t lt HO); auto; [now apply merge_canonical|now apply make_poly_canonical|]. intros v A.
    rewrite sum_value, (make_poly_value R t lt srt HS), value_app by auto. reflexivity.
  Qed.
  Lemma conj_involutive p : canonical t lt p -> conjugate_poly t (conjugate_poly t p) = p.
  Proof.
    intro C. assert (C' := conjugate_canonical p C). apply (canonical_unique R t lt HO); auto; [now apply conjugate_canonical|].
    intros v A. rewrite !conjugate_value by auto. apply cconj_conj.
  Qed.
  Lemma conj_sum p q : canonical t lt p -> canonical t lt q -> conjugate_poly t (sum_pp lt p q) = sum_pp lt (conjugate_poly t p) (conjugate_poly t q).
  Proof.
    intros Cp Cq. assert (C1 := conjugate_canonical p Cp). assert (C2 := conjugate_canonical q Cq). assert (C3 : canonical t lt (sum_pp lt p q)) by now apply merge_canonical.
    apply (canonical_unique R t lt HO); auto; [now apply conjugate_canonical|now apply merge_canonical|].
    intros v A. rewrite conjugate_value, !sum_value, !conjugate_value by auto. apply cconj_add.
  Qed.
  Lemma conj_scale f p : canonical t lt p -> conjugate_poly t (scale f p) = scale (cconj f) (conjugate_poly t p).
  Proof.
    intro C. assert (C1 := conjugate_canonical p C). assert (C2 := scale_canonical f p C). assert (C3 := scale_canonical (cconj f) _ C1).
    apply (canonical_unique R t lt HO); auto; [now apply conjugate_canonical|].
    intros v A. rewrite conjugate_value, !scale_value, conjugate_value by auto. apply cconj_mul.
  Qed.
  (** fix_cc(make_canonical) on a sorted polynomial *)
  Definition fix_only (p : list mono) := fst (fix_cc_in_place t true p).
  Lemma fix_weak p : Forall ok p -> StronglySorted strict p -> StronglySorted (fun x y => lt y x = false) (map (fix_term t) p).
  Proof.
    intros F. induction 1 as [|x l S IH A]; cbn; [constructor|]. inversion F as [|? ? K F']. subst. constructor; [now apply IH|].
    apply Forall_forall. intros y Hy. apply in_map_iff in Hy as [z [<- Hz]]. rewrite Forall_forall in A, F'. specialize (A z Hz). specialize (F' z Hz).
    assert (Kx : ok (fix_term t x)) by (unfold in_table in *; now rewrite fix_term_id). assert (Kz : ok (fix_term t z)) by (unfold in_table in *; now rewrite fix_term_id).
    destruct (Nat.eq_dec (m_id x) (m_id z)) as [E|E].
    - destruct (lt_pair x z K F' A E) as [X Z]. destruct (lt (fix_term t z) (fix_term t x)) eqn:L; [|reflexivity]. exfalso.
      destruct (lt_pair _ _ Kz Kx L) as [L1 L2]; [now rewrite !fix_term_id|].
      destruct (herm t (m_id x)) eqn:H; [rewrite fix_term_cj in L2 by auto; discriminate|]. destruct (anti t (m_id x)) eqn:H'; [rewrite fix_term_cj in L2 by auto; discriminate|].
      rewrite fix_term_generic in L2 by auto. congruence.
    - apply (lt_asym R t lt HO); auto. apply (lt_ids x z); auto using fix_term_id.
  Qed.
  Lemma fix_cc_canonical p : Forall ok p -> StronglySorted strict p -> (forall x, In x p -> m_f x <> c0 /\ m_id x <> 0) ->
    canonical t lt (fst (fix_cc_in_place t true p)) /\ forall v, assignment t v -> value v (fst (fix_cc_in_place t true p)) = value v p.
  Proof.
    intros F S N. unfold fix_cc_in_place. cbn [fst andb]. assert (F' : Forall ok (map (fix_term t) p)) by (apply in_table_map; [apply fix_term_id|exact F]).
    destruct (existsb (fix_changes t) p) eqn:E.
    - set (l := map (fix_term t) p) in *. assert (W := fix_weak p F S). fold l in W.
      assert (Q : (if 1 <? length l then remove_duplicates l else l) = remove_duplicates l).
      { destruct l as [|x [|y l']]; reflexivity. }
      rewrite Q. split; [constructor|].
      + unfold remove_zeros. apply filter_sorted. unfold remove_duplicates. destruct l as [|x l']; [constructor|]. now apply (dedup_sorted R t lt HO).
      + intros x Hx. unfold remove_zeros in Hx. apply filter_In in Hx as [Hx Hz]. apply negb_true_iff, orb_false_iff in Hz as [Hz1 Hz2].
        apply is_zero_false in Hz1. apply Nat.eqb_neq in Hz2.
        assert (exists y, In y l /\ same_term x y = true) as [y [Hy Sy]] by (unfold remove_duplicates in Hx; destruct l as [|z l']; [easy|now apply dedup_in in Hx]).
        apply same_term_spec in Sy as [S1 S2]. assert (ok y) by (rewrite Forall_forall in F'; auto). repeat split; auto; [unfold in_table in *; congruence|].
        intro H'. apply in_map_iff in Hy as [w [<- Hw]]. rewrite S2. apply fix_term_cj. rewrite S1, fix_term_id in H'. exact H'.
      + intros v A. rewrite value_zeros by apply (as_zero t v A). rewrite value_duplicates. unfold l. now apply fix_value.
    - assert (G : forall x, In x p -> (herm t (m_id x) = true \/ anti t (m_id x) = true -> m_cj x = false)).
      { intros x Hx H. destruct (m_cj x) eqn:Q; [|reflexivity]. rewrite <- E. symmetry. apply existsb_exists. exists x. split; [exact Hx|].
        unfold fix_changes. rewrite Q. cbn. apply orb_true_iff. exact H. }
      assert (M : map (fix_term t) p = p).
      { clear - G. induction p as [|x p IH]; [reflexivity|]. cbn [map]. rewrite IH; [|intros; apply G; auto; now right]. f_equal. apply fix_term_done. apply G. now left. }
      rewrite M. split; [|reflexivity]. constructor; [exact S|]. intros x Hx. rewrite Forall_forall in F. destruct (N x Hx). repeat split; auto.
  Qed.
End Ops.
