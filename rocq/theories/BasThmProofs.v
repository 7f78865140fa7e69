(** Matrices of polynomials, sets of symbols and basis elements, flags. *)
From Coq Require Import List NArith ZArith Arith Bool Sorted Permutation Lia Ring Field.
From Verif Require Import CoreModel FieldModel FieldProofs SymModel SymSpec SymProofs SymFinalProofs PolyModel PolySpec PolyProofs PolyBasisModel PolyBasisProofs PolyFinalProofs BasModel BasSpec BasProofs BasMatProofs BasFinalProofs.
Import ListNotations.

Section Thm.
  Variables (c : sctx) (V : hseq -> Prop).
  Hypothesis LW : lawful c V.
  Variable t : table.
  Hypothesis RC : reachable_clean c V t.
  Variable R : rfield.
  Add Field Rf3 : (r_field R).
  Add Field Cf3 : (cx_field R).
  Notation mono := (mono R).
  Let NB : numbered t := clean_numbered c V t LW RC.
  Variable lt : mono -> mono -> bool.
  Hypothesis HO : term_order t lt.
  Variable nonneg : R -> bool.
  Hypothesis N1 : nonneg (r1 R) = true.
  Hypothesis N2 : nonneg (ropp R (r1 R)) = false.

  Lemma poly_cell_canonical d (cells : list (list mono)) r q : Forall (canonical t lt) cells -> canonical t lt (cell d cells r q).
  Proof.
    intro F. unfold cell. destruct (nth_in_or_default (q * d + r) cells []) as [I|E]; [rewrite Forall_forall in F; now apply F|]. rewrite E. constructor; [constructor|easy].
  Qed.
  Lemma poly_known (cells : list (list mono)) : Forall (canonical t lt) cells -> Forall (Forall (in_table t)) cells.
  Proof. intro F. eapply Forall_impl; [|exact F]. intros p. apply canonical_ok. Qed.
  (** the vectors of one polynomial as functions of the index *)
  Definition coef (l : list (nat * cx R)) (k : nat) : cx R := csum R (map snd (filter (fun x => Nat.eqb (fst x) k) l)).
  Lemma cdot_coef n (a : nat -> R) l : Forall (fun x => fst x < n) l -> wsum R n a (coef l) = cdot l a.
  Proof.
    induction 1 as [|x l L F IH]; [apply wsum_zero|]. rewrite (wsum_ext R n a _ (fun k => cadd (if Nat.eqb (fst x) k then snd x else c0) (coef l k))).
    - rewrite wsum_add, IH, wsum_one by exact L. cbn [cdot fold_right]. f_equal. ring.
    - intros k _. unfold coef. cbn [filter]. destruct (Nat.eqb (fst x) k); cbn [map csum fold_right]; [reflexivity|]. change (fold_right cadd c0 ?z) with (csum R z). ring.
  Qed.
  Lemma coef_support n l k : PolySpec.sparse c0 n l -> (coef l k <> c0 <-> In k (map fst l)).
  Proof.
    intros [ND H]. assert (H' : forall w, In (k, w) l -> w <> c0) by (intros w I; now apply (H k w)). clear H. unfold coef. induction l as [|x l IH]; cbn [filter map In]; [cbn; intuition|].
    inversion ND as [|? ? Nx ND']; subst. destruct (Nat.eqb_spec (fst x) k) as [E|E].
    - assert (Z : filter (fun y => Nat.eqb (fst y) k) l = []).
      { destruct (filter (fun y => Nat.eqb (fst y) k) l) as [|y s] eqn:Q; [reflexivity|]. exfalso. assert (I : In y (filter (fun y => Nat.eqb (fst y) k) l)) by (rewrite Q; now left).
        apply filter_In in I. destruct I as [I Ey]. apply Nat.eqb_eq in Ey. apply Nx. rewrite E, <- Ey. now apply in_map. }
      rewrite Z. cbn [map csum fold_right]. split; [intros _; now left|]. intros _ Q. apply (H' (snd x)); [left; destruct x; cbn in *; now subst|]. rewrite <- Q. ring.
    - rewrite (IH ND' (fun w I => H' w (or_intror I))). intuition.
  Qed.
  Lemma sparse_forall n l : PolySpec.sparse (c0 : cx R) n l -> Forall (fun x => fst x < n) l.
  Proof. intros [_ H]. apply Forall_forall. intros [k w] I. now apply (H k w). Qed.
  (** the entries of the basis matrices are the coefficients of the polynomials in the basis *)
  Lemma basis_coefs d entry (b : basis R) r q p w : starts t -> represents t d entry b -> r < d -> q < d -> canonical t lt p ->
    (forall v, assignment t v -> value v p = value v (entry r q)) -> complex_vec t p = Some w ->
    forall k, nth k (b_real b) zero_matrix r q = coef (bv_real w) k /\ nth k (b_imag b) zero_matrix r q = coef (bv_imag w) k.
  Proof. clear N1 N2 nonneg.
    intros ST B Hr Hq C E W k. destruct (complex_export c V LW t RC R lt p HO C) as [w' [W' [S1 [S2 Val]]]]. assert (w' = w) by congruence. subst w'.
    destruct (null_unlisted t NB (clean_null0 c V t RC)) as [Z Z'].
    destruct (unique_at R t NB ST (fun k => nth k (b_real b) zero_matrix r q) (coef (bv_real w)) (fun k => nth k (b_imag b) zero_matrix r q) (coef (bv_imag w))) as [U U']; [|exact Z|exact Z'|].
    - intros v A. rewrite <- comb_ws, (rp_value t d entry b B v A r q Hr Hq), <- (E v A), <- (Val v A). rewrite !cdot_coef by (now apply sparse_forall). reflexivity.
    - assert (OV : forall n l, PolySpec.sparse c0 n l -> n <= k -> c0 = coef l k).
      { intros n l S L. destruct (ceqb (coef l k) c0) eqn:Q; [apply ceqb_spec in Q; now symmetry|]. exfalso. assert (X : coef l k <> c0) by (intro Y; rewrite Y in Q; rewrite (proj2 (ceqb_spec R c0 c0) eq_refl) in Q; discriminate).
        apply (coef_support n) in X; [|exact S]. apply in_map_iff in X. destruct X as [[k' w0] [Ek I]]. cbn in Ek. subst k'. apply (proj2 S) in I. lia. }
      split.
      + destruct (le_lt_dec (length (t_real t)) k) as [L|L]; [|now apply U]. rewrite nth_overflow by (rewrite (rp_real _ _ _ _ B); lia). now apply (OV (length (t_real t))).
      + destruct (le_lt_dec (length (t_imag t)) k) as [L|L]; [|now apply U']. rewrite nth_overflow by (rewrite (rp_imag _ _ _ _ B); lia). now apply (OV (length (t_imag t))).
  Qed.

  Lemma polynomial_basis d (cells : list (list mono)) : length cells = d * d -> Forall (canonical t lt) cells ->
    exists m, poly_matrix t nonneg d cells = Some m /\ ((sm_herm m = true -> truly_hermitian t d (poly_entry d cells)) ->
      forall is_dense, exists b, create_basis false is_dense false t m = BOk b /\ represents t d (poly_entry d cells) b).
  Proof.
    intros L F. unfold poly_matrix. cbv zeta. rewrite (proj2 (all_known_iff R t cells) (poly_known cells F)). eexists. split; [reflexivity|]. intros H is_dense.
    set (m := mk_smat d cells _ _ _ _ _ _ _) in *.
    apply (represented R t NB m (poly_known cells F)); [exact H| |discriminate].
    cbn [sm_cbasis sm_dim sm_cells m]. intros S v A r q Hr Hq. apply Bool.negb_false_iff, Nat.eqb_eq, set_of_nil in S.
    pose proof (poly_cell_canonical d cells r q F) as C. destruct (mask_export c V LW t RC R lt nonneg _ HO N1 N2 C) as [w [W M]].
    assert (E : bv_imag w = []).
    { destruct (bv_imag w) as [|[k x] l] eqn:Q; [reflexivity|]. exfalso. assert (I : In k (flat_map (fun p => snd (mask t nonneg p)) cells)); [|rewrite S in I; destruct I].
      apply in_flat_map. exists (cell d cells r q). split; [apply nth_In; rewrite L; nia|]. rewrite M. cbn [snd]. now left. }
    destruct (complex_export c V LW t RC R lt _ HO C) as [w' [W' [S1 [S2 Val]]]]. assert (w' = w) by congruence. subst w'.
    assert (A' : assignment t (fun id => creal (cre (v id)))) by apply (seen_assignment R t false v A).
    rewrite <- (Val v A), <- (Val _ A'), E. reflexivity.
  Qed.
  Lemma real_basis monomial is_dense (m : smat R) d herm_flag cells : (mono_matrix t d herm_flag cells = Some m \/ exists cs, poly_matrix t nonneg d cs = Some m) ->
    (create_basis monomial is_dense true t m = BRefused <-> exists p x, In p (sm_cells m) /\ In x p /\ cim (m_f x) <> r0 R) /\
    ((forall p x, In p (sm_cells m) -> In x p -> cim (m_f x) = r0 R) -> create_basis monomial is_dense true t m = create_basis monomial is_dense false t m).
  Proof.
    intro H. assert (E : sm_ccoef m = existsb (existsb complex_factor) (sm_cells m)).
    { destruct H as [H|[cs H]].
      - unfold mono_matrix in H. cbv zeta in H. destruct (all_known t _); [|discriminate]. injection H as <-. reflexivity.
      - unfold poly_matrix in H. cbv zeta in H. destruct (all_known t _); [|discriminate]. injection H as <-. reflexivity. }
    assert (X : sm_ccoef m = true <-> exists p x, In p (sm_cells m) /\ In x p /\ cim (m_f x) <> r0 R).
    { rewrite E. rewrite existsb_exists. split.
      - intros [p [Ip Q]]. apply existsb_exists in Q. destruct Q as [x [Ix Q]]. exists p, x. split; [exact Ip|]. split; [exact Ix|]. intro Z. unfold complex_factor, is_real in Q. rewrite (proj2 (r_eqb_spec R _ _) Z) in Q. discriminate.
      - intros (p & x & Ip & Ix & Z). exists p. split; [exact Ip|]. apply existsb_exists. exists x. split; [exact Ix|]. unfold complex_factor, is_real. destruct (r_eqb R (cim (m_f x)) (r0 R)) eqn:Q; [|reflexivity]. now apply r_eqb_spec in Q. }
    split.
    - rewrite <- X. unfold create_basis. cbn [andb]. destruct (sm_ccoef m); [easy|]. split; [|discriminate]. cbv zeta. intro Q. exfalso. destruct is_dense.
      + destruct (dense _ t _); discriminate.
      + destruct (BasModel.sparse t m _); discriminate.
    - intro Z. apply real_type_same; [exact E|]. destruct (sm_ccoef m) eqn:Q; [|reflexivity]. destruct (proj1 X eq_refl) as (p & x & Ip & Ix & N). exfalso. now apply N, (Z p).
  Qed.
  Lemma dense_sparse monomial d entry (m : smat R) b b' : starts t -> create_basis monomial true false t m = BOk b -> represents t d entry b -> create_basis monomial false false t m = BOk b' -> represents t d entry b' ->
    forall k r q, r < d -> q < d -> nth k (b_real b) zero_matrix r q = nth k (b_real b') zero_matrix r q /\ nth k (b_imag b) zero_matrix r q = nth k (b_imag b') zero_matrix r q.
  Proof. intros ST _ B _ B'. now apply (basis_unique R c V LW t RC d entry). Qed.

  Lemma cells_by_pos {A} d (cells : list A) x : length cells = d * d -> (In x cells <-> exists r q, r < d /\ q < d /\ nth_error cells (q * d + r) = Some x).
  Proof.
    clear -A d cells x. intro L. split; [|intros (r & q & _ & _ & E); now apply nth_error_In in E]. intro I. apply In_nth_error in I. destruct I as [n E]. assert (B : n < d * d) by (rewrite <- L; apply nth_error_Some; congruence).
    assert (Hd : d <> 0) by lia. exists (n mod d), (n / d). split; [now apply Nat.mod_upper_bound|]. split; [now apply Nat.div_lt_upper_bound|]. rewrite (Nat.mul_comm (n / d)), <- Nat.div_mod by exact Hd. exact E.
  Qed.
  Lemma poly_sets d (cells : list (list mono)) m b : starts t -> length cells = d * d -> Forall (canonical t lt) cells -> poly_matrix t nonneg d cells = Some m -> represents t d (poly_entry d cells) b ->
    (StronglySorted Peano.lt (sm_symbols m) /\ forall id, In id (sm_symbols m) <-> exists p x, In p cells /\ In x p /\ m_id x = id) /\
    (StronglySorted Peano.lt (sm_real m) /\ forall k, In k (sm_real m) <-> nonzero d (nth k (b_real b) zero_matrix)) /\
    (StronglySorted Peano.lt (sm_imag m) /\ forall k, In k (sm_imag m) <-> nonzero d (nth k (b_imag b) zero_matrix)).
  Proof.
    intros ST L F E B. unfold poly_matrix in E. cbv zeta in E. destruct (all_known t cells); [|discriminate]. injection E as <-. cbn [sm_symbols sm_real sm_imag].
    split; [split; [apply set_of_sorted|intro id; eapply symbols_in_in; eassumption]|].
    assert (G : forall r q, r < d -> q < d -> exists w : basis_vec (cx R), mask t nonneg (poly_entry d cells r q) = (map fst (bv_real w), map fst (bv_imag w)) /\ (forall k, nth k (b_real b) zero_matrix r q <> c0 <-> In k (map fst (bv_real w))) /\
      (forall k, nth k (b_imag b) zero_matrix r q <> c0 <-> In k (map fst (bv_imag w)))).
    { intros r q Hr Hq. pose proof (poly_cell_canonical d cells r q F) as C. destruct (mask_export c V LW t RC R lt nonneg _ HO N1 N2 C) as [w [W M]]. exists w. split; [exact M|].
      destruct (complex_export c V LW t RC R lt _ HO C) as [w' [W' [S1 [S2 Val]]]]. assert (w' = w) by congruence. subst w'.
      pose proof (basis_coefs d (poly_entry d cells) b r q _ w ST B Hr Hq C (fun v A => eq_refl) W) as K. split; intro k; destruct (K k) as [K1 K2].
      - rewrite K1. now apply (coef_support (length (t_real t))).
      - rewrite K2. now apply (coef_support (length (t_imag t))). }
    split; split; try apply set_of_sorted; intro k; rewrite set_of_in, in_flat_map; unfold nonzero.
    - split.
      + intros [p [Ip I]]. apply (cells_by_pos d) in Ip; [|exact L]. destruct Ip as (r & q & Hr & Hq & Ep). exists r, q. split; [exact Hr|]. split; [exact Hq|]. destruct (G r q Hr Hq) as [w [M [K _]]]. apply K.
        unfold poly_entry, by_columns in M. rewrite (nth_error_nth _ _ _ Ep) in M. now rewrite M in I.
      + intros (r & q & Hr & Hq & N). destruct (G r q Hr Hq) as [w [M [K _]]]. apply K in N. exists (poly_entry d cells r q). split; [apply nth_In; rewrite L; nia|]. now rewrite M.
    - split.
      + intros [p [Ip I]]. apply (cells_by_pos d) in Ip; [|exact L]. destruct Ip as (r & q & Hr & Hq & Ep). exists r, q. split; [exact Hr|]. split; [exact Hq|]. destruct (G r q Hr Hq) as [w [M [_ K]]]. apply K.
        unfold poly_entry, by_columns in M. rewrite (nth_error_nth _ _ _ Ep) in M. now rewrite M in I.
      + intros (r & q & Hr & Hq & N). destruct (G r q Hr Hq) as [w [M [_ K]]]. apply K in N. exists (poly_entry d cells r q). split; [apply nth_In; rewrite L; nia|]. now rewrite M.
  Qed.
  (** one monomial as a polynomial *)
  Definition as_poly (x : mono) : list mono := if Nat.eqb (m_id x) 0 then [] else [x].
  Lemma as_poly_canonical x : in_table t x -> canonical t lt (as_poly (canonical_mono t x)).
  Proof.
    intro L. unfold as_poly. destruct (Nat.eqb_spec (m_id (canonical_mono t x)) 0) as [E|E]; [constructor; [constructor|easy]|]. constructor; [repeat constructor|]. intros y [<-|[]].
    split; [apply canonical_mono_in; exact L|]. revert E. unfold canonical_mono. cbv zeta. match goal with |- context [is_zero (m_f ?y)] => destruct (is_zero (m_f y)) eqn:Z end; [cbn; congruence|]. intro E.
    split; [intro Q; rewrite Q in Z; now rewrite (proj2 (is_zero_true R c0) eq_refl) in Z|]. split; [exact E|]. clear Z E. destruct (m_cj x) eqn:J; [|auto]. destruct (herm t (m_id x)) eqn:H1; [auto|]. destruct (anti t (m_id x)) eqn:H2; [auto|].
    rewrite H1, H2. intuition congruence.
  Qed.
  Lemma as_poly_value v x : assignment t v -> value v (as_poly x) = value v [x].
  Proof. intro A. unfold as_poly. destruct (Nat.eqb_spec (m_id x) 0) as [E|]; [|reflexivity]. unfold value. cbn [fold_right]. unfold term_value. rewrite E, (as_zero t v A). destruct (m_cj x); apply cx_ext; cbn; ring. Qed.
  Lemma as_poly_vec x : canonical t lt (as_poly x) -> exists w, complex_vec t (as_poly x) = Some w /\ map fst (bv_real w) = keep (re_index t (m_id x)) /\ map fst (bv_imag w) = keep (im_index t (m_id x)).
  Proof. clear N1 N2 nonneg.
    destruct (null_unlisted t NB (clean_null0 c V t RC)) as [Z Z']. intro C. unfold as_poly in *. destruct (Nat.eqb_spec (m_id x) 0) as [E|E].
    - exists (mk_bv [] []). split; [reflexivity|]. cbn [bv_real bv_imag map]. rewrite E. assert (L : 0 < length (t_syms t)).
      { destruct (clean_null0 c V t RC) as (s & l & Q & _). rewrite Q. cbn. lia. }
      split.
      + destruct (re_index t 0) as [k|] eqn:K; [|reflexivity]. apply (re_index_spec t NB 0 k L) in K. now apply Z in K.
      + destruct (im_index t 0) as [k|] eqn:K; [|reflexivity]. apply (im_index_spec t NB 0 k L) in K. now apply Z' in K.
    - destruct (cp_terms t lt _ C x (or_introl eq_refl)) as [Ix [Fx _]]. unfold complex_vec. cbv zeta.
      assert (N0 : forall z : cx R, (z = c0 -> m_f x = c0) -> is_zero z = false). { intros z H. destruct (is_zero z) eqn:Q; [|reflexivity]. apply is_zero_true in Q. now apply H in Q. }
      destruct (m_cj x) eqn:J.
      + replace (paired [x]) with [(m_id x, (c0 : cx R, m_f x))] by (cbn; now rewrite J). replace (known t [(m_id x, (c0 : cx R, m_f x))]) with true by (cbn; symmetry; rewrite andb_true_r; now apply Nat.ltb_lt).
        eexists. split; [reflexivity|]. cbn [bv_real bv_imag spread flat_map fst snd]. rewrite !app_nil_r. split.
        * destruct (re_index t (m_id x)) as [k|]; [|reflexivity]. cbn [entry]. rewrite N0; [reflexivity|]. intro Q. rewrite <- Q. apply cx_ext; cbn; unfold az_ax, bz_ax; cbn; ring.
        * destruct (im_index t (m_id x)) as [k|]; [|reflexivity]. cbn [entry]. rewrite N0; [reflexivity|]. intro Q. transitivity (cmul ci (z_bx c0 (m_f x))); [|rewrite Q; apply cx_ext; cbn; ring]. apply cx_ext; cbn; unfold az_bx, bz_bx; cbn; ring.
      + replace (paired [x]) with [(m_id x, (m_f x, c0 : cx R))] by (cbn; now rewrite J). replace (known t [(m_id x, (m_f x, c0 : cx R))]) with true by (cbn; symmetry; rewrite andb_true_r; now apply Nat.ltb_lt).
        eexists. split; [reflexivity|]. cbn [bv_real bv_imag spread flat_map fst snd]. rewrite !app_nil_r. split.
        * destruct (re_index t (m_id x)) as [k|]; [|reflexivity]. cbn [entry]. rewrite N0; [reflexivity|]. intro Q. rewrite <- Q. apply cx_ext; cbn; unfold az_ax, bz_ax; cbn; ring.
        * destruct (im_index t (m_id x)) as [k|]; [|reflexivity]. cbn [entry]. rewrite N0; [reflexivity|]. intro Q. transitivity (cmul (copp ci) (z_bx (m_f x) c0)); [|rewrite Q; apply cx_ext; cbn; ring]. apply cx_ext; cbn; unfold az_bx, bz_bx; cbn; ring.
  Qed.
  Lemma in_keep {A} (o : option A) a : In a (keep o) <-> o = Some a.
  Proof. destruct o as [b|]; cbn; [|split; [tauto|discriminate]]. split; [intros [->|[]]; reflexivity|]. intro E. injection E as ->. now left. Qed.
  Lemma mono_sets d herm_flag (cells : list mono) m b : starts t -> length cells = d * d -> Forall (in_table t) cells -> mono_matrix t d herm_flag cells = Some m -> represents t d (mono_entry d cells) b ->
    (StronglySorted Peano.lt (sm_real m) /\ forall k, In k (sm_real m) <-> nonzero d (nth k (b_real b) zero_matrix)) /\
    (StronglySorted Peano.lt (sm_imag m) /\ forall k, In k (sm_imag m) <-> nonzero d (nth k (b_imag b) zero_matrix)).
  Proof.
    clear N1 N2 nonneg. intros ST L F E B. unfold mono_matrix in E. cbv zeta in E. destruct (all_known t _); [|discriminate]. injection E as <-. cbn [sm_real sm_imag].
    set (cc := map (fun x => [canonical_mono t x]) cells).
    assert (S : forall id, In id (symbols_in cc) <-> exists r q, r < d /\ q < d /\ m_id (canonical_mono t (by_columns d cells (mk_mono 0 false c0) r q)) = id).
    { intro id. rewrite (symbols_in_in R c V LW t RC). split.
      - intros (p & x & Ip & Ix & E). unfold cc in Ip. apply in_map_iff in Ip. destruct Ip as [y [<- Iy]]. destruct Ix as [<-|[]]. apply (cells_by_pos d) in Iy; [|exact L]. destruct Iy as (r & q & Hr & Hq & Ey).
        exists r, q. split; [exact Hr|]. split; [exact Hq|]. unfold by_columns. now rewrite (nth_error_nth _ _ _ Ey).
      - intros (r & q & Hr & Hq & E). exists [canonical_mono t (by_columns d cells (mk_mono 0 false c0) r q)]. eexists. split; [|split; [left; reflexivity|exact E]]. unfold cc. apply in_map_iff. eexists. split; [reflexivity|]. unfold by_columns. apply nth_In. rewrite L. nia. }
    assert (G : forall r q, r < d -> q < d -> (forall k, nth k (b_real b) zero_matrix r q <> c0 <-> re_index t (m_id (canonical_mono t (by_columns d cells (mk_mono 0 false c0) r q))) = Some k) /\
      (forall k, nth k (b_imag b) zero_matrix r q <> c0 <-> im_index t (m_id (canonical_mono t (by_columns d cells (mk_mono 0 false c0) r q))) = Some k)).
    { intros r q Hr Hq. set (x := by_columns d cells (mk_mono 0 false c0) r q). assert (Ix : in_table t x). { unfold x, by_columns. rewrite Forall_forall in F. apply F, nth_In. rewrite L. nia. }
      pose proof (as_poly_canonical x Ix) as C. destruct (as_poly_vec _ C) as [w [W [M1 M2]]]. destruct (complex_export c V LW t RC R lt _ HO C) as [w' [W' [S1 [S2 Val]]]]. assert (w' = w) by congruence. subst w'.
      assert (VE : forall v, assignment t v -> value v (as_poly (canonical_mono t x)) = value v (mono_entry d cells r q)).
      { intros v A. rewrite as_poly_value by exact A. unfold mono_entry. fold x. rewrite !value_cons. f_equal. now apply (canonical_mono_value R t). }
      pose proof (basis_coefs d (mono_entry d cells) b r q _ w ST B Hr Hq C VE W) as K. split; intro k; destruct (K k) as [K1 K2].
      - rewrite K1, (coef_support (length (t_real t)) _ _ S1), M1. apply in_keep.
      - rewrite K2, (coef_support (length (t_imag t)) _ _ S2), M2. apply in_keep. }
    split; split; try apply set_of_sorted; intro k; rewrite set_of_in, in_flat_map; unfold nonzero.
    - split.
      + intros [id [I K]]. apply S in I. destruct I as (r & q & Hr & Hq & E). apply in_keep in K. exists r, q. split; [exact Hr|]. split; [exact Hq|]. apply (proj1 (G r q Hr Hq)). now rewrite E.
      + intros (r & q & Hr & Hq & N). apply (proj1 (G r q Hr Hq)) in N. eexists. split; [apply S; exists r, q; split; [exact Hr|]; split; [exact Hq|reflexivity]|]. now apply in_keep.
    - split.
      + intros [id [I K]]. apply S in I. destruct I as (r & q & Hr & Hq & E). apply in_keep in K. exists r, q. split; [exact Hr|]. split; [exact Hq|]. apply (proj2 (G r q Hr Hq)). now rewrite E.
      + intros (r & q & Hr & Hq & N). apply (proj2 (G r q Hr Hq)) in N. eexists. split; [apply S; exists r, q; split; [exact Hr|]; split; [exact Hq|reflexivity]|]. now apply in_keep.
  Qed.
  (** the Hermiticity test *)
  Lemma hermicity_true d (cells : list (list mono)) : starts t -> no_null t -> Forall (canonical t lt) cells -> truly_hermitian t d (poly_entry d cells) -> test_hermicity t d cells = true.
  Proof.
    clear N1 N2 nonneg. intros ST NN F H. unfold test_hermicity. apply forallb_forall. intros r I. apply in_seq in I. apply andb_true_iff. split.
    - apply (proj1 (herm_spec R t lt _ HO ST NN (poly_cell_canonical d cells r r F))). intros v A. pose proof (H v A r r ltac:(lia) ltac:(lia)) as E. apply (f_equal cim) in E. cbn in E.
      unfold poly_entry, by_columns in E. fold (cell d cells r r) in E. set (z := cim (value v (cell d cells r r))) in *.
      assert (Q : radd R (rmul R z z) (rmul R z z) = r0 R). { transitivity (rmul R z (radd R z z)); [ring|]. rewrite E at 2. ring. } now apply (r_real R z z).
    - apply forallb_forall. intros q J. apply in_seq in J. pose proof (poly_cell_canonical d cells r q F) as C1. pose proof (poly_cell_canonical d cells q r F) as C2.
      assert (E : cell d cells q r = conjugate_poly t (cell d cells r q)).
      { destruct (conjugate_spec R t lt _ HO C1) as [C3 V3]. apply (unique_spec R t lt _ _ HO ST NN C2 C3). intros v A. rewrite (V3 v A). apply (H v A r q); lia. }
      rewrite E. now apply (conjugacy_spec R t lt _ (conjugate_poly t (cell d cells r q)) HO ST NN C1 (proj1 (conjugate_spec R t lt _ HO C1))).
  Qed.
  Lemma hermicity_means d (cells : list (list mono)) : starts t -> no_null t -> Forall (canonical t lt) cells ->
    (forall p x, In p cells -> In x p -> herm t (m_id x) = true \/ anti t (m_id x) = true) -> test_hermicity t d cells = true -> truly_hermitian t d (poly_entry d cells).
  Proof.
    clear N1 N2 nonneg. intros ST NN F FL T v A. unfold test_hermicity in T. rewrite forallb_forall in T.
    assert (D : forall r, r < d -> cim (value v (cell d cells r r)) = r0 R).
    { intros r Hr. assert (I : In r (seq 0 d)) by (apply in_seq; lia). specialize (T r I). apply andb_true_iff in T. destruct T as [T _].
      apply (proj1 (proj1 (herm_spec R t lt _ HO ST NN (poly_cell_canonical d cells r r F))) T v A). }
    assert (O : forall r q, r < q -> q < d -> value v (cell d cells q r) = cconj (value v (cell d cells r q))).
    { intros r q L Hq. assert (I : In r (seq 0 d)) by (apply in_seq; lia). specialize (T r I). apply andb_true_iff in T. destruct T as [_ T]. rewrite forallb_forall in T.
      assert (J : In q (seq (S r) (d - S r))) by (apply in_seq; lia). specialize (T q J). pose proof (poly_cell_canonical d cells r q F) as C1. pose proof (poly_cell_canonical d cells q r F) as C2.
      destruct (conjugacy_spec R t lt _ _ HO ST NN C1 C2) as [_ X]. rewrite X; [|intros x Ix|exact T].
      - destruct (conjugate_spec R t lt _ HO C1) as [_ V3]. now apply V3.
      - unfold cell in Ix. destruct (nth_in_or_default (q * d + r) cells []) as [K|K]; [now apply (FL _ x K)|rewrite K in Ix; destruct Ix]. }
    intros r q Hr Hq. change (poly_entry d cells q r) with (cell d cells q r). change (poly_entry d cells r q) with (cell d cells r q).
    destruct (lt_eq_lt_dec r q) as [[L|<-]|L].
    - now apply O.
    - apply cx_ext; cbn; [reflexivity|]. rewrite (D r Hr). ring.
    - rewrite (O q r L Hr). apply cx_ext; cbn; ring.
  Qed.
End Thm.
Lemma monolithic_entry (R : rfield) d (l : list (dmat R)) k r q : r < d -> q < d -> monolithic d l k (q * d + r) = nth k l zero_matrix r q.
Proof.
  intros Hr Hq. unfold monolithic. assert (Hd : d <> 0) by lia. rewrite (Nat.add_comm (q * d)). rewrite Nat.mod_add by exact Hd. rewrite Nat.div_add by exact Hd. now rewrite Nat.mod_small, Nat.div_small by exact Hr.
Qed.
