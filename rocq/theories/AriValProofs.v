(** Matrices of numbers, and their products with operators. *)
From Coq Require Import List NArith ZArith Arith Bool Lia Sorted Field.
From Verif Require Import CoreModel CoreSpec FieldModel FieldProofs SymModel SymSpec SymProofs SymFinalProofs PolyModel PolySpec PolyProofs PolyOpsProofs PolyTableProofs PolyFinalProofs FacModel RawModel BasModel BasFinalProofs AriModel AriSpec AriProofs AriMulProofs AriMul2Proofs.
Import ListNotations.

Section Val.
  Variable R : rfield.
  Add Field Rf : (r_field R).
  Add Field Cf : (cx_field R).
  Notation mono := (mono R).

  Lemma forallb_seq (f : nat -> bool) a k : forallb f (seq a k) = true <-> forall i, a <= i < a + k -> f i = true.
  Proof. rewrite forallb_forall. split; intros H i I; apply H; [now apply in_seq|now apply in_seq in I]. Qed.
  Lemma double_zero (z : cx R) : z = copp z -> z = c0.
  Proof.
    intro H. assert (D : forall a : R, a = ropp R a -> a = r0 R).
    { intros a Ha. assert (S : rmul R (radd R (r1 R) (r1 R)) a = r0 R) by (transitivity (radd R a a); [ring|rewrite Ha at 2; ring]).
      transitivity (rmul R (rinv R (radd R (r1 R) (r1 R))) (rmul R (radd R (r1 R) (r1 R)) a)); [field; apply two_neq_0|rewrite S; ring]. }
    apply cx_ext; cbn; apply D; rewrite H at 1; reflexivity.
  Qed.
  (** ** dense *)
  Lemma dense_test_spec diag (s : cx R -> cx R) d data : dense_test diag s d data = true <->
    (forall col, col < d -> diag (at_ d data col col) = true) /\ forall row col, col < row -> row < d -> s (cconj (at_ d data row col)) = at_ d data col row.
  Proof.
    unfold dense_test. rewrite forallb_seq. split.
    - intro H. split.
      + intros col L. specialize (H col ltac:(lia)). now apply andb_prop in H.
      + intros row col L1 L2. specialize (H col ltac:(lia)). apply andb_prop in H. destruct H as [_ H]. rewrite forallb_seq in H. apply ceqb_spec. apply H. lia.
    - intros [H1 H2] col L. rewrite H1 by lia. cbn [andb]. apply forallb_seq. intros row Lr. apply ceqb_spec. apply H2; lia.
  Qed.
  Lemma dense_hermitian_spec d data : dense_hermitian (R := R) d data = true <-> hermitian_data d (at_ d data).
  Proof.
    unfold dense_hermitian. rewrite dense_test_spec. unfold hermitian_data. split.
    - intros [H1 H2] row col Lr Lc. destruct (Nat.lt_trichotomy row col) as [L|[L|L]].
      + rewrite <- (H2 col row L Lc). now rewrite cconj_conj.
      + subst row. symmetry. apply ceqb_spec. now apply H1.
      + symmetry. now apply H2.
    - intro H. split.
      + intros col L. apply ceqb_spec. symmetry. now apply H.
      + intros row col L1 L2. symmetry. apply H; lia.
  Qed.
  Lemma dense_antihermitian_spec d data : dense_antihermitian (R := R) d data = true <-> antihermitian_data d (at_ d data).
  Proof.
    unfold dense_antihermitian. rewrite dense_test_spec. unfold antihermitian_data. split.
    - intros [H1 H2] row col Lr Lc. destruct (Nat.lt_trichotomy row col) as [L|[L|L]].
      + rewrite <- (H2 col row L Lc). rewrite cconj_opp, cconj_conj. ring.
      + subst row. pose proof (H1 col Lr) as Q. apply ceqb_spec in Q. rewrite Q. ring.
      + symmetry. now apply H2.
    - intro H. split.
      + intros col L. apply ceqb_spec. rewrite (H col col L L) at 2. ring.
      + intros row col L1 L2. symmetry. apply H; lia.
  Qed.
  Lemma both_zero d (f : nat -> nat -> cx R) : hermitian_data d f -> (antihermitian_data d f <-> forall row col, row < d -> col < d -> f row col = c0).
  Proof.
    intro H. split.
    - intros A row col Lr Lc. apply double_zero. rewrite (H col row Lc Lr) at 1. rewrite (A col row Lc Lr). ring.
    - intros Z row col Lr Lc. rewrite !Z by assumption. rewrite cconj_0. ring.
  Qed.
  Lemma at_in d (data : list (cx R)) : length data = d * d -> forall z, In z data -> exists row col, row < d /\ col < d /\ at_ d data row col = z.
  Proof.
    intros L z I. apply In_nth_error in I. destruct I as [o I]. assert (Lo : o < d * d) by (rewrite <- L; apply nth_error_Some; congruence). assert (d <> 0) by nia.
    exists (o mod d), (o / d). split; [now apply Nat.mod_upper_bound|]. split; [apply Nat.div_lt_upper_bound; nia|]. unfold at_. rewrite Nat.mul_comm, <- Nat.div_mod by assumption. now apply nth_error_nth.
  Qed.
  Lemma dense_zero_spec d (data : list (cx R)) : length data = d * d -> (dense_zero data = true <-> forall row col, row < d -> col < d -> at_ d data row col = c0).
  Proof.
    intro L. unfold dense_zero. rewrite forallb_forall. split.
    - intros H row col Lr Lc. apply is_zero_true. apply H. unfold at_. apply nth_In. nia.
    - intros H z I. destruct (at_in d data L z I) as (row & col & Lr & Lc & <-). rewrite H by assumption. apply ceqb_refl.
  Qed.
  Notation number := (AriSpec.number R).
  Lemma number_value v x : v 0 = c0 -> v 1 = c1 -> number x -> term_value v x = m_f x.
  Proof.
    intros Z O [->|[I J]]; unfold term_value; cbn [m_id m_cj m_f]; [ring|]. rewrite I, J, O. ring.
  Qed.
  Lemma canonical_number t x : number x -> canonical_mono t x = (if is_zero (m_f x) then mk_mono 0 false c0 else x) /\ number (canonical_mono t x) /\ m_f (canonical_mono t x) = m_f x.
  Proof.
    intro N. assert (J : m_cj x = false) by (destruct N as [->|[_ J]]; [reflexivity|exact J]). unfold canonical_mono. cbv zeta. rewrite J. split; [reflexivity|]. destruct (is_zero (m_f x)) eqn:Z.
    - split; [now left|]. apply is_zero_true in Z. now rewrite Z.
    - split; [exact N|reflexivity].
  Qed.
  Lemma value_dense_spec t real d data : length data = d * d -> let m := value_dense t real d data in
    mm_dim m = d /\ mm_value m = true /\ sized (SM m) /\ Forall number (mm_cells m) /\
    (forall v row col, v 0 = c0 -> v 1 = c1 -> row < d -> col < d -> entry v (SM m) (col * d + row) = Some (at_ d data row col)) /\
    (mm_herm m = true <-> hermitian_data d (at_ d data)) /\
    (mm_anti m = true -> antihermitian_data d (at_ d data)) /\
    (real = false -> antihermitian_data d (at_ d data) -> mm_anti m = true).
  Proof.
    intro L. cbv zeta. unfold value_dense. cbn [mm_dim mm_value mm_herm mm_anti]. split; [reflexivity|]. split; [reflexivity|]. split; [cbn; now rewrite !map_length|].
    assert (NB : forall z : cx R, number (if is_zero z then mk_mono 0 false c0 else mk_mono 1 false z) /\ m_f (if is_zero z then mk_mono 0 false c0 else mk_mono 1 false z) = z).
    { intro z. destruct (is_zero z) eqn:Z; [split; [now left|apply is_zero_true in Z; now rewrite Z]|split; [right; now split|reflexivity]]. }
    split; [|split; [|split; [apply dense_hermitian_spec|]]].
    - cbn [mm_cells]. rewrite map_map. apply Forall_map, Forall_forall. intros z _. apply (canonical_number t), NB.
    - intros v row col Z O Lr Lc. cbn [entry mm_cells]. rewrite !nth_error_map. unfold at_. rewrite (nth_error_nth' data c0) by nia. cbn [option_map]. f_equal.
      set (z := nth (col * d + row) data c0). destruct (NB z) as [N F]. destruct (canonical_number t _ N) as (_ & N' & F'). rewrite number_value by assumption. now rewrite F', F.
    - destruct (dense_hermitian d data) eqn:H; cbn [orb].
      + apply dense_hermitian_spec in H. split; [|intros _]; intro A; [apply (both_zero d _ H), (dense_zero_spec d data L), A|apply (dense_zero_spec d data L), (both_zero d _ H), A].
      + destruct real.
        * split; [|discriminate]. intro A. pose proof (proj1 (dense_zero_spec d data L) A) as A0. clear A. rename A0 into A. intros row col Lr Lc. rewrite !A by assumption. rewrite cconj_0. ring.
        * split; [apply dense_antihermitian_spec|intros _; apply dense_antihermitian_spec].
  Qed.
  (** ** sparse *)
  Notation sparse := (list (nat * nat * cx R)).
  Lemma sp_at_in (l : sparse) row col z : NoDup (map fst l) -> In (row, col, z) l -> sp_at l row col = z.
  Proof.
    intros ND I. unfold sp_at. induction l as [|[[r k] y] l IH]; [contradiction|]. cbn [find fst snd map] in *. inversion ND as [|? ? N1 N2]; subst. destruct I as [E|I].
    - injection E as -> -> ->. now rewrite !Nat.eqb_refl.
    - destruct (Nat.eqb r row && Nat.eqb k col) eqn:Q; [|now apply IH]. apply andb_prop in Q. destruct Q as [Q1 Q2]. apply Nat.eqb_eq in Q1, Q2. subst. exfalso. apply N1. change (row, col) with (fst (row, col, z)). now apply in_map.
  Qed.
  Lemma sp_at_none (l : sparse) row col : (forall z, ~ In (row, col, z) l) -> sp_at l row col = c0.
  Proof.
    intro N. unfold sp_at. destruct (find _ l) as [[[r k] y]|] eqn:F; [|reflexivity]. apply find_some in F. destruct F as [I Q]. cbn in Q. apply andb_prop in Q. destruct Q as [Q1 Q2].
    apply Nat.eqb_eq in Q1, Q2. subst. now destruct (N y).
  Qed.
  Lemma sp_at_cases (l : sparse) row col : NoDup (map fst l) -> (exists z, In (row, col, z) l /\ sp_at l row col = z) \/ ((forall z, ~ In (row, col, z) l) /\ sp_at l row col = c0).
  Proof.
    intro ND. destruct (find (fun e => Nat.eqb (fst (fst e)) row && Nat.eqb (snd (fst e)) col) l) as [[[r k] y]|] eqn:F.
    - pose proof (find_some _ _ F) as [I Q]. cbn in Q. apply andb_prop in Q. destruct Q as [Q1 Q2]. apply Nat.eqb_eq in Q1, Q2. subst. left. exists y. split; [exact I|]. now apply sp_at_in.
    - right. assert (N : forall z, ~ In (row, col, z) l) by (intros z I; pose proof (find_none _ _ F _ I) as Q; cbn in Q; now rewrite !Nat.eqb_refl in Q). split; [exact N|now apply sp_at_none].
  Qed.
  Notation mirrored := (AriSpec.mirrored R).
  Lemma sparse_test_spec diag (s : cx R -> cx R) (l : sparse) : sparse_test diag s l = true <->
    forall row col z, In (row, col, z) l -> (row = col -> diag z = true) /\ (col < row -> s (cconj (sp_at l col row)) = z).
  Proof.
    unfold sparse_test. rewrite forallb_forall. split.
    - intros H row col z I. specialize (H _ I). cbv beta iota in H. split.
      + intros ->. now rewrite Nat.eqb_refl in H.
      + intro L. destruct (Nat.eqb_spec row col); [lia|]. destruct (Nat.ltb_spec col row); [|lia]. now apply ceqb_spec.
    - intros H [[row col] z] I. destruct (H row col z I) as [H1 H2]. destruct (Nat.eqb_spec row col) as [E|E]; [now apply H1|]. destruct (Nat.ltb_spec col row) as [L|L]; [|reflexivity]. apply ceqb_spec. now apply H2.
  Qed.
  Lemma sparse_hermitian_complete d (l : sparse) : sparse_ok d l -> hermitian_data d (sp_at l) -> sparse_hermitian l = true.
  Proof.
    intros [ND RG] H. apply sparse_test_spec. intros row col z I. destruct (RG row col z I) as [Lr Lc]. rewrite <- (sp_at_in l row col z ND I). split.
    - intros ->. apply ceqb_spec. symmetry. now apply H.
    - intro L. symmetry. now apply H.
  Qed.
  Lemma sparse_hermitian_sound d (l : sparse) : sparse_ok d l -> mirrored l -> sparse_hermitian l = true -> hermitian_data d (sp_at l).
  Proof.
    intros [ND RG] M T0. pose proof (proj1 (sparse_test_spec _ _ l) T0) as T.
    assert (K : forall row col, col < row -> cconj (sp_at l col row) = sp_at l row col).
    { intros row col L. destruct (sp_at_cases l row col ND) as [(z & I & ->)|[N ->]]; [exact (proj2 (T row col z I) L)|].
      destruct (sp_at_cases l col row ND) as [(z & I & E)|[_ ->]]; [|apply cconj_0]. destruct (M col row z I L) as [z' I']. now destruct (N z'). }
    intros row col Lr Lc. destruct (Nat.lt_trichotomy row col) as [L|[->|L]].
    - symmetry. now apply K.
    - destruct (sp_at_cases l col col ND) as [(z & I & ->)|[_ ->]]; [|now rewrite cconj_0]. symmetry. apply ceqb_spec. now apply (T col col z I).
    - rewrite <- (K row col L). now rewrite cconj_conj.
  Qed.
  Lemma put_length {A} (x : A) o l : o < length l -> length (firstn o l ++ x :: skipn (S o) l) = length l.
  Proof. intro L. rewrite app_length, firstn_length. cbn [length]. rewrite skipn_length. lia. Qed.
  Lemma put_nth {A} (x : A) o l i : o < length l -> nth_error (firstn o l ++ x :: skipn (S o) l) i = if Nat.eqb i o then Some x else nth_error l i.
  Proof.
    revert l i. induction o as [|o IH]; intros [|y l] i L; cbn in L; try lia.
    - destruct i; reflexivity.
    - destruct i as [|i]; [reflexivity|]. cbn [firstn app nth_error Nat.eqb]. change (skipn (S (S o)) (y :: l)) with (skipn (S o) l). apply IH. lia.
  Qed.
  Lemma sp_cells_spec d (l : sparse) : sparse_ok d l -> length (sp_cells d l) = d * d /\ Forall number (sp_cells d l) /\
    forall row col, row < d -> col < d -> exists x, nth_error (sp_cells d l) (col * d + row) = Some x /\ m_f x = sp_at l row col.
  Proof.
    intros [ND RG]. unfold sp_cells.
    assert (G : forall cells : list mono, length cells = d * d -> Forall number cells ->
      let out := fold_left (fun cells e => let '(row, col, z) := e in firstn (col * d + row) cells ++ mk_mono 1 false z :: skipn (S (col * d + row)) cells) l cells in
      length out = d * d /\ Forall number out /\ forall row col, row < d -> col < d ->
        ((exists z, In (row, col, z) l /\ nth_error out (col * d + row) = Some (mk_mono 1 false z)) \/ ((forall z, ~ In (row, col, z) l) /\ nth_error out (col * d + row) = nth_error cells (col * d + row)))).
    { induction l as [|[[r k] y] l IH]; intros cells Lc Fc; cbv zeta.
      - cbn [fold_left]. split; [exact Lc|]. split; [exact Fc|]. intros row col _ _. right. split; [intros z []|reflexivity].
      - destruct (RG r k y (or_introl eq_refl)) as [Lr Lk]. assert (Lo : k * d + r < length cells) by nia. inversion ND as [|? ? N1 N2]; subst.
        specialize (IH N2 (fun a b z I => RG a b z (or_intror I)) (firstn (k * d + r) cells ++ mk_mono 1 false y :: skipn (S (k * d + r)) cells)).
        destruct IH as (I1 & I2 & I3); [now rewrite put_length| |].
        { pose proof Fc as Fc2. rewrite <- (firstn_skipn (k * d + r) cells) in Fc. apply Forall_app in Fc. rewrite <- (firstn_skipn (S (k * d + r)) cells) in Fc2. apply Forall_app in Fc2. apply Forall_app. split; [apply Fc|]. constructor; [right; now split|]. apply Fc2. }
        cbn [fold_left]. split; [exact I1|]. split; [exact I2|]. intros row col L1 L2. destruct (I3 row col L1 L2) as [(z & I & E)|[N E]].
        + left. exists z. split; [now right|exact E].
        + rewrite put_nth in E by exact Lo. destruct (Nat.eqb_spec (col * d + row) (k * d + r)) as [Q|Q].
          * assert (col = k) by nia. assert (row = r) by nia. subst. left. exists y. split; [now left|exact E].
          * right. split; [|exact E]. intros z [H|H]; [injection H as -> -> _; now apply Q|now apply (N z)]. }
    destruct (G (repeat (mk_mono 0 false c0) (d * d))) as (G1 & G2 & G3); [apply repeat_length|apply Forall_forall; intros x I; apply repeat_spec in I; now left|].
    split; [exact G1|]. split; [exact G2|]. intros row col L1 L2. destruct (G3 row col L1 L2) as [(z & I & E)|[N E]].
    - eexists. split; [exact E|]. cbn [m_f]. symmetry. now apply sp_at_in.
    - rewrite nth_error_repeat in E by nia. eexists. split; [exact E|]. cbn [m_f]. symmetry. now apply sp_at_none.
  Qed.
  Lemma value_sparse_spec t real d (l : sparse) : sparse_ok d l -> let m := value_sparse t real d l in
    mm_dim m = d /\ mm_value m = true /\ sized (SM m) /\ Forall number (mm_cells m) /\
    (forall v row col, v 0 = c0 -> v 1 = c1 -> row < d -> col < d -> entry v (SM m) (col * d + row) = Some (sp_at l row col)) /\
    (hermitian_data d (sp_at l) -> mm_herm m = true) /\
    (mirrored l -> mm_herm m = true -> hermitian_data d (sp_at l)).
  Proof.
    intro OK. destruct (sp_cells_spec d l OK) as (C1 & C2 & C3). cbv zeta. unfold value_sparse. cbn [mm_dim mm_value mm_herm].
    split; [reflexivity|]. split; [reflexivity|]. split; [cbn; now rewrite map_length|]. cbn [mm_cells]. split; [|split; [|split]].
    - apply Forall_map. eapply Forall_impl; [|exact C2]. intros x N. now apply (canonical_number t).
    - intros v row col Z O L1 L2. cbn [entry mm_cells]. rewrite nth_error_map. destruct (C3 row col L1 L2) as (x & E & F). rewrite E. cbn [option_map]. f_equal.
      rewrite Forall_forall in C2. destruct (canonical_number t x (C2 x (nth_error_In _ _ E))) as (_ & N & F'). rewrite number_value by assumption. now rewrite F'.
    - now apply sparse_hermitian_complete.
    - intros M T. now apply sparse_hermitian_sound.
  Qed.

  (** ** products *)
  Variables (c : sctx) (V : hseq -> Prop).
  Hypothesis LW : lawful c V.
  Hypothesis UC : unsigned_conj c V.
  Lemma to_scalar_phase s : to_scalar s = sphase R s. Proof. destruct s; reflexivity. Qed.
  Lemma monomialize_spec q (w : cx R) t : reachable c V t -> V q -> exists t' x, monomialize c q w t = Done t' x /\ reachable c V t' /\ later c V t t' /\ 
    forall E v, expectation c V R E -> agrees E t' v -> in_table t' x /\ symbol_word t' (m_id x) <> None /\ term_value v x = cmul w (E q) .
  Proof.
    intros RT Vq. pose proof (lw_pos c V LW q Vq) as Vp. unfold monomialize. cbv zeta. change (set_sign q SPos) with (pos q).
    set (w' := match hs_sign q with SPos => w | SIm => _ | SNeg => _ | SNegIm => _ end).
    assert (EW : forall E, expectation c V R E -> cmul w' (E (pos q)) = cmul w (E q)).
    { intros E HE. rewrite (ex_phase c V R E HE q Vq). subst w'. destruct (hs_sign q); rewrite ?to_scalar_phase; unfold sphase; ring. }
    destruct (lk_symbol (where_ c t (pos q))) as [id|] eqn:K.
    - do 2 eexists. split; [reflexivity|]. split; [exact RT|]. split; [apply later_refl|]. intros E v HE AG.
      destruct (lookup_term c V LW R E HE UC t t v (pos q) w' id RT (later_refl c V t) Vp AG K) as [T1 T2]. split; [exact T1|]. split.
      + pose proof (where_value c V LW R E t (pos q) id RT Vp HE UC K) as W. unfold symbol_value in W. cbn [m_id]. intro X. rewrite X in W. discriminate W.
      + rewrite T2. apply EW, HE.
    - assert (HF : hfind (hs_hash (table_entry c (pos q))) (t_hash t) = None).
      { unfold where_, hash_to_index in K. destruct (hfind (hs_hash (pos q)) (t_hash t)) eqn:F1; [destruct (Z.leb 0 z); discriminate K|]. unfold table_entry. change (pos (pos q)) with (pos q).
        destruct (cx_alias c); [|exact F1]. destruct (N.eqb_spec (hs_hash (cx_moment c (pos q))) (hs_hash (pos q))) as [Q|Q]; [now rewrite Q|].
        destruct (hfind (hs_hash (cx_moment c (pos q))) (t_hash t)) eqn:F2; [destruct (Z.leb 0 z); discriminate K|reflexivity]. }
      destruct (register_done c V LW t (pos q) RT Vp) as (t1 & id & M & RT1 & LT1 & _). rewrite M. do 2 eexists. split; [reflexivity|]. split; [exact RT1|]. split; [exact LT1|]. intros E v HE AG.
      change (merge_symbol t (symbol_pair (table_entry c (pos q)) (cx_conj c (table_entry c (pos q)))) = Done t1 id) in M.
      pose proof (entry_ok c V LW (pos q) Vp) as Ve. destruct (merge_symbol_new c V t _ _ t1 id (reachable_hinv c V LW t RT) (pair_of c V LW _ Ve) HF M) as (Lid & (re & im & Y) & _).
      assert (W : symbol_word t1 id = Some (pos (table_entry c (pos q)))).
      { rewrite (word_snoc t t1 _ id Y), Lid, Nat.eqb_refl. reflexivity. }
      cbn [m_id]. split; [unfold in_table; cbn [m_id]; rewrite Y, app_length, Lid; cbn; lia|]. split; [rewrite W; discriminate|]. unfold term_value. cbn [m_id m_cj m_f]. rewrite (AG id _ W).
      rewrite <- (EW E HE). f_equal. change (pos (pos (table_entry c (pos q)))) with (pos (table_entry c (pos q))). unfold table_entry. change (pos (pos q)) with (pos q). destruct (cx_alias c) eqn:A; [|reflexivity].
      rewrite <- (ex_moment c V R E HE A (pos q) Vp). f_equal. pose proof (lw_moment_phase c V LW (pos q) Vp) as P. change (pos (pos q)) with (pos q) in P. unfold pos at 1. rewrite P at 2. reflexivity.
  Qed.
  Lemma nothing E q (w : cx R) : expectation c V R E -> V q -> is_zero w || hs_zero q = true -> cmul w (E q) = c0.
  Proof.
    intros HE Vq Z. apply orb_prop in Z. destruct Z as [Z|Z]; [apply is_zero_true in Z; rewrite Z; ring|]. apply N.eqb_eq in Z. rewrite (ex_phase c V R E HE q Vq).
    assert (P : pos q = hseq_const true) by (pose proof (lw_hash c V LW q (hseq_const true) Vq (proj1 (lw_zero c V LW)) Z) as O; destruct q as [h o s]; cbn in *; now subst).
    rewrite P, (ex_zero c V R E HE). ring.
  Qed.
  Lemma vm_multiply_spec q (w : cx R) m t : reachable c V t -> V q -> sized (SM m) -> Forall number (mm_cells m) ->
    exists t' m', vm_multiply c q w m t = Done t' m' /\ reachable c V t' /\ later c V t t' /\ mm_dim m' = mm_dim m /\ sized (SM m') /\ 
      forall E v, expectation c V R E -> assignment t' v -> agrees E t' v -> forall o z, entry v (SM m) o = Some z -> entry v (SM m') o = Some (cmul (cmul w (E q)) z).
  Proof.
    intros RT Vq SZ NB. unfold vm_multiply. destruct (is_zero w || hs_zero q) eqn:Z.
    - exists t, (zero_matrix (mm_dim m)). split; [reflexivity|]. split; [exact RT|]. split; [apply later_refl|]. split; [reflexivity|]. split; [cbn; apply repeat_length|]. intros E v HE A AG o z Ez.
      assert (Lo : o < mm_dim m * mm_dim m) by (cbn [sized] in SZ; rewrite <- SZ; cbn [entry] in Ez; apply nth_error_Some; intro X; rewrite X in Ez; discriminate Ez).
      cbn [entry zero_matrix mm_cells]. rewrite nth_error_repeat by exact Lo. cbn [option_map]. f_equal. unfold term_value. cbn [m_id m_cj m_f].
      assert (ZZ : cmul w (E q) = c0) by (now apply (nothing E q w HE Vq)).
      rewrite ZZ. ring.
    - destruct (monomialize_spec q w t RT Vq) as (t' & x & E1 & RT' & LT & H). rewrite E1. do 2 eexists. split; [reflexivity|]. split; [exact RT'|]. split; [exact LT|]. split; [reflexivity|].
      split; [cbn [sized mm_cells mm_dim] in *; now rewrite !map_length|]. intros E v HE A AG o z Ez. destruct (H E v HE AG) as (_ & W & T). cbn [entry mm_cells] in *. rewrite !nth_error_map. destruct (nth_error (mm_cells m) o) as [e|] eqn:N; [|discriminate Ez].
      cbn [option_map] in *. apply some_inj in Ez. subst z. f_equal. rewrite Forall_forall in NB. rewrite (number_value v e (as_zero t' v A) (as_one t' v A) (NB e (nth_error_In _ _ N))).
      set (f := cmul (m_f x) (m_f e)). rewrite canonical_value.
      + destruct (is_zero f) eqn:Zf.
        * apply is_zero_true in Zf. rewrite <- T. unfold term_value. cbn [m_id m_cj m_f]. transitivity (cmul f (if m_cj x then cconj (v (m_id x)) else v (m_id x))); [rewrite Zf; ring|unfold f; ring].
        * rewrite <- T. unfold term_value. cbn [m_id m_cj m_f]. unfold f. ring.
      + exact (assignment_respects R t' v A).
      + exact (as_zero t' v A).
      + destruct (is_zero f); cbn [m_id]; [|exact W]. rewrite (proj1 (table_shape c V LW t' RT')). discriminate.
  Qed.
  (** the Hermitian flag of the product *)
  Notation antihermitian_values := (AriSpec.antihermitian_values R).
  Notation flags_right := (AriSpec.flags_right R).
  Notation one_identity := (AriSpec.one_identity V).
  Lemma type_value E q : one_identity -> expectation c V R E -> V q ->
    match hermitian_type c q with Some 1%Z => cconj (E q) = E q | Some (-1)%Z => cconj (E q) = copp (E q) | _ => True end.
  Proof.
    intros OI HE Vq. unfold hermitian_type. destruct (hs_ops q) as [|x l] eqn:O.
    - destruct (hs_zero q) eqn:Z; [exact Logic.I|]. pose proof (OI q Vq Z O) as P. rewrite (ex_phase c V R E HE q Vq), P. pose proof (ex_conj c V R E HE _ (proj1 (lw_one c V LW))) as C. rewrite (proj2 (lw_one c V LW)) in C.
      unfold hs_imaginary. destruct (hs_sign q); cbn [s_is_imaginary sphase]; cbv beta iota. all: rewrite cconj_mul, <- C. all: apply cx_ext; cbn; ring.
    - unfold hs_compare_same_negation. destruct (N.eqb_spec (hs_hash q) (hs_hash (cx_conj c q))) as [H|H]; cbn [negb]; [|exact Logic.I].
      destruct (Bool.eqb (hs_imaginary q) (hs_imaginary (cx_conj c q))) eqn:B; cbn [negb]; [|exact Logic.I]. pose proof (lw_conj c V LW q Vq) as Vc. pose proof (lw_hash c V LW _ _ Vq Vc H) as OO.
      rewrite <- (ex_conj c V R E HE q Vq). rewrite (ex_phase c V R E HE q Vq), (ex_phase c V R E HE _ Vc). assert (P : pos (cx_conj c q) = pos q).
      { destruct q as [h o s], (cx_conj c _) as [h' o' s']. cbn in *. now subst. }
      rewrite P. unfold hs_imaginary, hs_negated in *. destruct (hs_sign q), (hs_sign (cx_conj c q)); cbn in B; try discriminate B; cbv [s_is_negative sign_code N.land Pos.land N.eqb Pos.eqb negb Bool.eqb sphase N.succ_double N.double Pos.Nsucc_double Pos.Ndouble]. all: try reflexivity. all: ring.
  Qed.
  Lemma vm_flag q (w : cx R) m t t' m' : reachable c V t -> V q -> one_identity -> sized (SM m) -> Forall number (mm_cells m) -> cim w = r0 R -> vm_multiply c q w m t = Done t' m' -> mm_herm m' = true ->
    forall E v, expectation c V R E -> assignment t' v -> agrees E t' v -> flags_right v m -> hermitian_values v (SM m').
  Proof.
    intros RT Vq OI SZ NB RW EM HH E v HE A AG [F1 F2]. destruct (vm_multiply_spec q w m t RT Vq SZ NB) as (t1 & m1 & E1 & RT1 & _ & D & SZ' & VAL). rewrite EM in E1. injection E1 as <- <-. specialize (VAL E v HE A AG).
    intros row col x y Lr Lc Ex Ey. cbn [smx_dim] in *. rewrite D in *.
    assert (GE : forall o z, entry v (SM m') o = Some z -> exists z0, entry v (SM m) o = Some z0 /\ z = cmul (cmul w (E q)) z0).
    { intros o z Ez. assert (Lo : o < mm_dim m * mm_dim m) by (cbn [sized] in SZ'; rewrite D in SZ'; rewrite <- SZ'; cbn [entry] in Ez; apply nth_error_Some; intro X; rewrite X in Ez; discriminate Ez).
      cbn [sized] in SZ. rewrite <- SZ in Lo. destruct (nth_error (mm_cells m) o) as [e|] eqn:N; [|apply nth_error_None in N; lia].
      assert (En : entry v (SM m) o = Some (term_value v e)) by (cbn [entry]; now rewrite N). exists (term_value v e). split; [exact En|]. rewrite (VAL o _ En) in Ez. congruence. }
    destruct (GE _ _ Ex) as (x0 & X0 & ->). destruct (GE _ _ Ey) as (y0 & Y0 & ->). rewrite !cconj_mul. rewrite (real_conj R w RW).
    pose proof (type_value E q OI HE Vq) as TV. unfold vm_multiply in EM. destruct (is_zero w || hs_zero q) eqn:Z.
    - assert (ZZ : cmul w (E q) = c0).
      { apply orb_prop in Z. destruct Z as [Z|Z]; [apply is_zero_true in Z; rewrite Z; ring|]. apply N.eqb_eq in Z. rewrite (ex_phase c V R E HE q Vq).
        assert (P : pos q = hseq_const true) by (pose proof (lw_hash c V LW q (hseq_const true) Vq (proj1 (lw_zero c V LW)) Z) as O; destruct q as [h o s]; cbn in *; now subst).
        rewrite P, (ex_zero c V R E HE). ring. }
      assert (ZC : cmul w (cconj (E q)) = c0) by (rewrite <- (real_conj R w RW), <- cconj_mul, ZZ; apply cconj_0). rewrite ZZ, ZC. ring.
    - destruct (monomialize c q w t) as [t2 e| |]; try discriminate EM. injection EM as <- <-. cbn [mm_herm] in HH. destruct (mm_herm m) eqn:Hm.
      + destruct (hermitian_type c q) as [z|]; [|discriminate HH]. apply Z.eqb_eq in HH. subst z. cbn in TV. rewrite TV. rewrite (F1 eq_refl row col x0 y0 Lr Lc X0 Y0). ring.
      + destruct (mm_anti m) eqn:Am; [|discriminate HH]. destruct (hermitian_type c q) as [z|]; [|discriminate HH]. apply Z.eqb_eq in HH. subst z. cbn in TV. rewrite TV. rewrite (F2 eq_refl row col x0 y0 Lr Lc X0 Y0). ring.
  Qed.
  (** operator polynomials *)
  Variables (srt : table -> list mono -> list mono) (lt : mono -> mono -> bool).
  Lemma vm_multiply_raw_spec p m t : reachable c V t -> raw_ok V p -> (forall x, In x p -> hs_sign (fst x) = SPos /\ hs_zero (fst x) = false) -> one_identity -> sized (SM m) -> Forall number (mm_cells m) ->
    (forall t', later c V t t' -> sorts t' lt (srt t)) -> 2 <= length p ->
    exists t' a, vm_multiply_raw c srt p m t = Done t' a /\ later c V t t' /\ smx_dim a = mm_dim m /\ sized a /\
      forall E v, expectation c V R E -> assignment t' v -> agrees E t' v -> forall o z, entry v (SM m) o = Some z -> entry v a o = Some (cmul (raw_value E p) z).
  Proof.
    intros RT OK SG OI SZ NB HS L2.
    assert (EQ : vm_multiply_raw c srt p m t = if raw_is_scalar p then as_smx (vm_multiply c (hseq_const false) (fold_left (fun s x => cadd s (snd x)) p c0) m t)
      else match register_construct c t (srt t) p with Done t' q => Done t' (SP (mk_pm (mm_dim m) (map (fun e => scale (m_f e) q) (mm_cells m)))) | Throw t' => Throw t' | Undef => Undef end).
    { destruct p as [|[q w] [|y p]]; [cbn in L2; lia|cbn in L2; lia|reflexivity]. }
    rewrite EQ. clear EQ. destruct (raw_is_scalar p) eqn:SC.
    - destruct (vm_multiply_spec (hseq_const false) (fold_left (fun s x => cadd s (snd x)) p c0) m t RT (proj1 (lw_one c V LW)) SZ NB) as (t' & m' & E1 & RT' & LT & D & SZ' & VAL). rewrite E1. exists t', (SM m').
      split; [reflexivity|]. split; [exact LT|]. split; [exact D|]. split; [exact SZ'|]. intros E v HE A AG o z Ez. rewrite (VAL E v HE A AG o z Ez). f_equal. f_equal.
      unfold raw_is_scalar in SC. assert (G : forall s, cmul (fold_left (fun s x => cadd s (snd x)) p s) (E (hseq_const false)) = cadd (cmul s (E (hseq_const false))) (raw_value E p)).
      { clear HS L2 E1 VAL. induction p as [|[q w] p IH]; intro s; [cbn; ring|]. cbn [forallb] in SC. apply andb_prop in SC. destruct SC as [S1 S2]. inversion OK as [|? ? O1 O2]; subst. cbn [fold_left].
        rewrite (IH O2 (fun x I => SG x (or_intror I)) S2). cbn [raw_value fold_right fst snd]. fold (raw_value E p). cbn [fst] in *. destruct (SG _ (or_introl eq_refl)) as [_ Zq]. cbn [fst] in Zq. rewrite (OI q O1 Zq); [ring|]. now destruct (hs_ops q). }
      rewrite G. ring.
    - destruct (register_construct_spec c V LW R (fun _ => c0) (null_expectation c V R) UC lt (srt t) t p RT OK HS) as (t' & q & E1 & LT & _ & _). rewrite E1. exists t'. eexists. split; [reflexivity|]. split; [exact LT|]. split; [reflexivity|].
      split; [cbn [sized pm_cells pm_dim] in *; now rewrite map_length|]. intros E v HE A AG o z Ez.
      destruct (register_construct_spec c V LW R E HE UC lt (srt t) t p RT OK HS) as (t2 & q2 & E2 & _ & _ & VAL). rewrite E1 in E2. injection E2 as <- <-.
      cbn [entry pm_cells] in *. rewrite nth_error_map. destruct (nth_error (mm_cells m) o) as [e|] eqn:N; [|discriminate Ez]. cbn [option_map] in *. apply some_inj in Ez. subst z. f_equal.
      rewrite scale_value, (VAL v A AG). rewrite Forall_forall in NB. rewrite (number_value v e (as_zero t' v A) (as_one t' v A) (NB e (nth_error_In _ _ N))). ring.
  Qed.
End Val.
