(** The bases represent the matrices. *)
From Coq Require Import List NArith ZArith Arith Bool Sorted Permutation Lia Ring Field.
From Verif Require Import CoreModel FieldModel FieldProofs SymModel SymSpec PolyModel PolySpec PolyProofs PolyBasisModel PolyBasisProofs PolyFinalProofs BasModel BasSpec BasProofs.
Import ListNotations.

(** ** sets *)
Lemma set_insert_in x s y : In y (set_insert x s) <-> y = x \/ In y s.
Proof.
  induction s as [|z s IH]; [cbn; intuition|]. cbn [set_insert]. destruct (Nat.ltb_spec x z); [cbn; intuition|]. destruct (Nat.eqb_spec x z) as [->|N]; [cbn; intuition|].
  cbn [In]. rewrite IH. intuition.
Qed.
Lemma set_of_gen l : forall s y, In y (fold_left (fun s x => set_insert x s) l s) <-> In y l \/ In y s.
Proof. induction l as [|x l IH]; intros s y; cbn [fold_left In]; [tauto|]. rewrite IH, set_insert_in. intuition. Qed.
Lemma set_of_in l y : In y (set_of l) <-> In y l.
Proof. unfold set_of. rewrite set_of_gen. cbn. tauto. Qed.
Lemma set_insert_sorted x s : StronglySorted lt s -> StronglySorted lt (set_insert x s).
Proof.
  induction 1 as [|z s SS IH F]; cbn [set_insert]; [repeat constructor|]. destruct (Nat.ltb_spec x z).
  - constructor; [now constructor|]. constructor; [lia|]. eapply Forall_impl; [|exact F]. cbn. lia.
  - destruct (Nat.eqb_spec x z) as [->|N]; [now constructor|]. constructor; [exact IH|]. apply Forall_forall. intros y I. apply set_insert_in in I. rewrite Forall_forall in F.
    destruct I as [->|I]; [lia|now apply F].
Qed.
Lemma set_of_sorted l : StronglySorted lt (set_of l).
Proof. unfold set_of. assert (G : forall s, StronglySorted lt s -> StronglySorted lt (fold_left (fun s x => set_insert x s) l s)); [|apply G; constructor]. induction l as [|x l IH]; intros s H; [exact H|]. cbn. apply IH. now apply set_insert_sorted. Qed.
Lemma set_of_nil l : length (set_of l) = 0 -> l = [].
Proof. intro H. destruct l as [|x l]; [reflexivity|]. assert (I : In x (set_of (x :: l))) by (apply set_of_in; now left). destruct (set_of (x :: l)); [destruct I|discriminate]. Qed.

Section Mat.
  Variable R : rfield.
  Add Field Rf : (r_field R).
  Add Field Cf : (cx_field R).
  Notation mono := (mono R).
  Variable t : table.
  Hypothesis NB : numbered t.

  (** ** one term *)
  Definition dparts (rt complex : bool) (r c : nat) (x : mono) : list (deposit R) :=
    match re_index t (m_id x) with Some k => [mk_dep false k r c (re_factor rt (m_f x))] | None => [] end ++
    if complex then match im_index t (m_id x) with Some k => [mk_dep true k r c (cmul (if m_cj x then copp ci else ci) (m_f x))] | None => [] end else [].
  Definition mparts (rt complex : bool) (r c : nat) (x : mono) : list (deposit R) :=
    match re_index t (m_id x) with Some k => [mk_dep false k r c (re_factor rt (cconj (m_f x)))] | None => [] end ++
    if complex then match im_index t (m_id x) with Some k => [mk_dep true k r c (cmul (if m_cj x then ci else copp ci) (cconj (m_f x)))] | None => [] end else [].
  Lemma at_yes r c i k w : at_pos R r c (mk_dep i k r c w) = true. Proof. unfold at_pos. cbn. now rewrite !Nat.eqb_refl. Qed.
  Lemma at_no r c i k row col w : (row, col) <> (r, c) -> at_pos R r c (mk_dep i k row col w) = false.
  Proof. intro N. unfold at_pos. cbn. destruct (Nat.eqb_spec row r), (Nat.eqb_spec col c); try reflexivity. subst. contradiction. Qed.
  Lemma swapped (r c : nat) : r <> c -> (c, r) <> (r, c). Proof. congruence. Qed.
  Lemma at_direct rt sym cb r c x : filter (at_pos R r c) (deposits t rt sym cb r c x) = dparts rt cb r c x.
  Proof.
    unfold deposits, dparts. rewrite filter_app. destruct (Nat.eqb_spec r c) as [E|N]; [subst c|].
    - rewrite andb_false_r. destruct (re_index t (m_id x)), cb, (im_index t (m_id x)); cbn [filter app]; rewrite ?at_yes; reflexivity.
    - apply swapped in N. destruct sym; cbn [negb andb]; destruct (re_index t (m_id x)), cb, (im_index t (m_id x)); cbn [filter app]; rewrite ?at_yes, ?at_no by exact N; reflexivity.
  Qed.
  Lemma at_mirror rt cb r c x : r <> c -> filter (at_pos R r c) (deposits t rt true cb c r x) = mparts rt cb r c x.
  Proof.
    intro N. unfold deposits, mparts. rewrite filter_app. destruct (Nat.eqb_spec c r) as [E|_]; [congruence|]. apply swapped in N.
    destruct (re_index t (m_id x)), cb, (im_index t (m_id x)); cbn [negb andb filter app]; rewrite ?at_yes, ?at_no by exact N; reflexivity.
  Qed.
  Lemma at_elsewhere rt sym cb r c row col x : (row, col) <> (r, c) -> (sym = true -> (col, row) <> (r, c)) -> filter (at_pos R r c) (deposits t rt sym cb row col x) = [].
  Proof.
    intros N M. unfold deposits. rewrite filter_app. destruct sym; cbn [andb].
    - specialize (M eq_refl). destruct (Nat.eqb row col); cbn [negb]; destruct (re_index t (m_id x)), cb, (im_index t (m_id x)); cbn [filter app]; rewrite ?at_no by assumption; reflexivity.
    - destruct (re_index t (m_id x)), cb, (im_index t (m_id x)); cbn [filter app]; rewrite ?at_no by assumption; reflexivity.
  Qed.
  (** what a real basis sees of an assignment *)
  Definition seen (cb : bool) (v : nat -> cx R) (id : nat) : cx R := if cb then v id else creal (cre (v id)).
  Lemma seen_assignment cb v : assignment t v -> assignment t (seen cb v).
  Proof.
    intros [A B C D]. destruct cb; [constructor; assumption|]. constructor; unfold seen; cbn.
    - rewrite A. reflexivity.
    - rewrite B. reflexivity.
    - reflexivity.
    - exact D.
  Qed.
  Lemma no_re v id : assignment t v -> id < length (t_syms t) -> re_index t id = None -> cre (v id : cx R) = r0 R.
  Proof. intros A L N. apply (re_index_none t NB id L) in N. destruct (in_table_sym t id L) as [s S]. apply (as_anti t v A id s S). now rewrite <- (anti_sym t id s S). Qed.
  Lemma no_im v id : assignment t v -> id < length (t_syms t) -> im_index t id = None -> cim (v id : cx R) = r0 R.
  Proof. intros A L N. apply (im_index_none t NB id L) in N. destruct (in_table_sym t id L) as [s S]. apply (as_herm t v A id s S). now rewrite <- (herm_sym t id s S). Qed.
  Lemma dparts_total v cb r c x : assignment t v -> in_table t x -> total R t v (dparts false cb r c x) = term_value (seen cb v) x.
  Proof.
    intros A L. unfold dparts, re_factor. rewrite total_app.
    assert (E1 : total R t v (match re_index t (m_id x) with Some k => [mk_dep false k r c (m_f x)] | None => [] end) = cmul (creal (cre (v (m_id x)))) (m_f x)).
    { destruct (re_index t (m_id x)) as [k|] eqn:K; unfold total, elem; cbn [fold_right d_imag d_index d_value].
      - rewrite (elem_re R t NB v (m_id x) k L K). ring.
      - rewrite (no_re v _ A L K). apply cx_ext; cbn; ring. }
    rewrite E1. unfold term_value, seen. destruct cb.
    - assert (E2 : total R t v (match im_index t (m_id x) with Some k => [mk_dep true k r c (cmul (if m_cj x then copp ci else ci) (m_f x))] | None => [] end) = cmul (creal (cim (v (m_id x)))) (cmul (if m_cj x then copp ci else ci) (m_f x))).
      { destruct (im_index t (m_id x)) as [k|] eqn:K; unfold total, elem; cbn [fold_right d_imag d_index d_value].
        - rewrite (elem_im R t NB v (m_id x) k L K). ring.
        - rewrite (no_im v _ A L K). destruct (m_cj x); apply cx_ext; cbn; ring. }
      rewrite E2. destruct (m_cj x); apply cx_ext; cbn; ring.
    - unfold total at 1. cbn [fold_right]. destruct (m_cj x); apply cx_ext; cbn; ring.
  Qed.
  Lemma mparts_total v cb r c x : assignment t v -> in_table t x -> total R t v (mparts false cb r c x) = cconj (term_value (seen cb v) x).
  Proof.
    intros A L. unfold mparts, re_factor. rewrite total_app.
    assert (E1 : total R t v (match re_index t (m_id x) with Some k => [mk_dep false k r c (cconj (m_f x))] | None => [] end) = cmul (creal (cre (v (m_id x)))) (cconj (m_f x))).
    { destruct (re_index t (m_id x)) as [k|] eqn:K; unfold total, elem; cbn [fold_right d_imag d_index d_value].
      - rewrite (elem_re R t NB v (m_id x) k L K). ring.
      - rewrite (no_re v _ A L K). apply cx_ext; cbn; ring. }
    rewrite E1. unfold term_value, seen. destruct cb.
    - assert (E2 : total R t v (match im_index t (m_id x) with Some k => [mk_dep true k r c (cmul (if m_cj x then ci else copp ci) (cconj (m_f x)))] | None => [] end) = cmul (creal (cim (v (m_id x)))) (cmul (if m_cj x then ci else copp ci) (cconj (m_f x)))).
      { destruct (im_index t (m_id x)) as [k|] eqn:K; unfold total, elem; cbn [fold_right d_imag d_index d_value].
        - rewrite (elem_im R t NB v (m_id x) k L K). ring.
        - rewrite (no_im v _ A L K). destruct (m_cj x); apply cx_ext; cbn; ring. }
      rewrite E2. destruct (m_cj x); apply cx_ext; cbn; ring.
    - unfold total at 1. cbn [fold_right]. destruct (m_cj x); apply cx_ext; cbn; ring.
  Qed.
  Lemma dparts_value v cb r c p : assignment t v -> Forall (in_table t) p -> total R t v (flat_map (dparts false cb r c) p) = value (seen cb v) p.
  Proof. intros A F. induction F as [|x p L F IH]; [reflexivity|]. cbn [flat_map]. rewrite total_app, IH, dparts_total by assumption. reflexivity. Qed.
  Lemma mparts_value v cb r c p : assignment t v -> Forall (in_table t) p -> total R t v (flat_map (mparts false cb r c) p) = cconj (value (seen cb v) p).
  Proof.
    intros A F. induction F as [|x p L F IH]; [cbn; apply cx_ext; cbn; ring|]. cbn [flat_map]. rewrite total_app, IH, mparts_total, value_cons by assumption. apply cx_ext; cbn; ring.
  Qed.
  Lemma deposits_ok rt sym cb row col x : in_table t x -> Forall (ok_dep R t) (deposits t rt sym cb row col x).
  Proof.
    intro L. apply Forall_forall. intros y I. unfold deposits in I. apply in_app_iff in I. unfold ok_dep.
    assert (K1 : forall k, re_index t (m_id x) = Some k -> k < length (t_real t)). { intros k E. apply (re_index_spec t NB _ _ L) in E. apply nth_error_Some. congruence. }
    assert (K2 : forall k, im_index t (m_id x) = Some k -> k < length (t_imag t)). { intros k E. apply (im_index_spec t NB _ _ L) in E. apply nth_error_Some. congruence. }
    destruct I as [I|I].
    - destruct (re_index t (m_id x)) as [k|]; [|destruct I]. destruct I as [<-|I]; [now apply K1|]. destruct (sym && negb (Nat.eqb row col)); [|destruct I]. destruct I as [<-|[]]. now apply K1.
    - destruct cb; [|destruct I]. destruct (im_index t (m_id x)) as [k|]; [|destruct I]. destruct I as [<-|I]; [now apply K2|]. destruct (sym && negb (Nat.eqb row col)); [|destruct I]. destruct I as [<-|[]]. now apply K2.
  Qed.
  Lemma deposits_real rt sym row col (x : mono) : Forall (fun y : deposit R => d_imag y = false) (deposits t rt sym false row col x).
  Proof.
    apply Forall_forall. intros y I. unfold deposits in I. rewrite app_nil_r in I. destruct (re_index t (m_id x)) as [k|]; [|destruct I]. destruct I as [<-|I]; [reflexivity|].
    destruct (sym && negb (Nat.eqb row col)); [|destruct I]. now destruct I as [<-|[]].
  Qed.

  (** ** one cell *)
  Variable m : smat R.
  Notation d := (sm_dim m).
  Notation cellm := (cell d (sm_cells m)).
  Hypothesis TAB : Forall (Forall (in_table t)) (sm_cells m).
  Lemma cell_ok r c : Forall (in_table t) (cellm r c).
  Proof. unfold cell. destruct (nth_in_or_default (c * d + r) (sm_cells m) []) as [I|E]; [|rewrite E; constructor]. rewrite Forall_forall in TAB. now apply TAB. Qed.
  (** the deposits for one entry *)
  Definition share (rt direct : bool) (r c : nat) : list (deposit R) :=
    if direct then flat_map (dparts rt (sm_cbasis m) r c) (cellm r c) else flat_map (mparts rt (sm_cbasis m) r c) (cellm c r).
  Lemma flat_map_ext_in {A B} (f g : A -> list B) l : (forall x, In x l -> f x = g x) -> flat_map f l = flat_map g l.
  Proof. intro H. induction l as [|x l IH]; [reflexivity|]. cbn. rewrite (H x (or_introl eq_refl)), IH; [reflexivity|intros; apply H; now right]. Qed.
  Lemma flat_map_nil {A B} (f : A -> list B) l : (forall x, In x l -> f x = []) -> flat_map f l = [].
  Proof. intro H. induction l as [|x l IH]; [reflexivity|]. cbn. rewrite (H x (or_introl eq_refl)), IH; [reflexivity|intros; apply H; now right]. Qed.
  Lemma place_direct rt places r c : NoDup places -> In (r, c) places -> (sm_herm m = true -> r <> c -> ~ In (c, r) places) ->
    filter (at_pos R r c) (all_deposits t rt places m) = share rt true r c.
  Proof.
    intros ND I N. unfold all_deposits. rewrite filter_flat_map. rewrite (flat_map_one _ (r, c)); [|exact ND|exact I|].
    - cbn [fst snd]. rewrite filter_flat_map. unfold share. apply flat_map_ext_in. intros x _. apply at_direct.
    - intros [row col] J NE. cbn [fst snd]. rewrite filter_flat_map. apply flat_map_nil. intros x _. apply at_elsewhere; [exact NE|]. intros S E. injection E as -> ->.
      apply (N S); [intros ->; now apply NE|exact J].
  Qed.
  Lemma place_mirror rt places r c : NoDup places -> In (c, r) places -> ~ In (r, c) places -> sm_herm m = true ->
    filter (at_pos R r c) (all_deposits t rt places m) = share rt false r c.
  Proof.
    intros ND I N S. unfold all_deposits. rewrite filter_flat_map. rewrite (flat_map_one _ (c, r)); [|exact ND|exact I|].
    - cbn [fst snd]. rewrite filter_flat_map. unfold share. apply flat_map_ext_in. intros x _. rewrite S. apply at_mirror. intros ->. contradiction.
    - intros [row col] J NE. cbn [fst snd]. rewrite filter_flat_map. apply flat_map_nil. intros x _. apply at_elsewhere; [intros E; congruence|]. intros _ E. apply NE. congruence.
  Qed.
  Lemma mono_share rt r c : r < d -> c < d -> filter (at_pos R r c) (mono_deposits t rt m) = share rt (negb (sm_herm m) || Nat.leb r c) r c.
  Proof.
    intros Hr Hc. unfold mono_deposits. destruct (sm_herm m) eqn:S; cbn [negb orb].
    - destruct (Nat.leb_spec r c).
      + apply place_direct; [apply upper_nodup|apply upper_in; lia|]. intros _ N I. apply upper_in in I. lia.
      + apply place_mirror; [apply upper_nodup|apply upper_in; lia| |exact S]. intro I. apply upper_in in I. lia.
    - apply place_direct; [apply everywhere_nodup|apply everywhere_in; lia|congruence].
  Qed.
  Lemma poly_share rt r c : r < d -> c < d -> filter (at_pos R r c) (poly_deposits t rt m) = share rt (negb (sm_herm m) || Nat.leb c r) r c.
  Proof.
    intros Hr Hc. unfold poly_deposits. destruct (sm_herm m) eqn:S; cbn [negb orb].
    - destruct (Nat.leb_spec c r).
      + apply place_direct; [apply lower_nodup|apply lower_in; lia|]. intros _ N I. apply lower_in in I. lia.
      + apply place_mirror; [apply lower_nodup|apply lower_in; lia| |exact S]. intro I. apply lower_in in I. lia.
    - apply place_direct; [apply everywhere_nodup|apply everywhere_in; lia|congruence].
  Qed.
  Lemma all_ok rt places : Forall (ok_dep R t) (all_deposits t rt places m).
  Proof.
    apply Forall_forall. intros y I. unfold all_deposits in I. apply in_flat_map in I. destruct I as [[r c] [_ I]]. apply in_flat_map in I. destruct I as [x [Ix I]]. cbn [fst snd] in *.
    pose proof (cell_ok r c) as F. rewrite Forall_forall in F. pose proof (deposits_ok rt (sm_herm m) (sm_cbasis m) r c x (F x Ix)) as G. rewrite Forall_forall in G. now apply G.
  Qed.
  Lemma all_real rt places : sm_cbasis m = false -> Forall (fun y : deposit R => d_imag y = false) (all_deposits t rt places m).
  Proof.
    intro E. apply Forall_forall. intros y I. unfold all_deposits in I. apply in_flat_map in I. destruct I as [[r c] [_ I]]. apply in_flat_map in I. destruct I as [x [Ix I]]. cbn [fst snd] in *.
    rewrite E in I. pose proof (deposits_real rt (sm_herm m) r c x) as G. rewrite Forall_forall in G. now apply G.
  Qed.
  (** ** the whole matrix *)
  Hypothesis TRUE_HERM : sm_herm m = true -> truly_hermitian t d cellm.
  Hypothesis TRUE_REAL : sm_cbasis m = false -> forall v, assignment t v -> forall r c, r < d -> c < d -> value (fun id => creal (cre (v id))) (cellm r c) = value v (cellm r c).
  Lemma share_value v direct r c : assignment t v -> r < d -> c < d -> (direct = false -> sm_herm m = true) -> total R t v (share false direct r c) = value v (cellm r c).
  Proof.
    intros A Hr Hc D.
    assert (E : value (seen (sm_cbasis m) v) (cellm r c) = value v (cellm r c)). { destruct (sm_cbasis m) eqn:B; [reflexivity|]. now apply TRUE_REAL. }
    unfold share. destruct direct.
    - rewrite dparts_value by auto using cell_ok. exact E.
    - rewrite mparts_value by auto using cell_ok. rewrite <- (TRUE_HERM (D eq_refl) (seen (sm_cbasis m) v) (seen_assignment _ v A) c r Hc Hr). exact E.
  Qed.
  Lemma one_key imag k rt direct r c : length (cellm r c) <= 1 -> length (cellm c r) <= 1 -> length (filter (at_key R imag k) (share rt direct r c)) <= 1.
  Proof.
    intros L1 L2. unfold share.
    assert (G1 : forall x, length (filter (at_key R imag k) (dparts rt (sm_cbasis m) r c x)) <= 1).
    { intro x. unfold dparts. rewrite filter_app. destruct imag, (re_index t (m_id x)), (sm_cbasis m), (im_index t (m_id x)); cbn; try (destruct (Nat.eqb _ k)); cbn; lia. }
    assert (G2 : forall x, length (filter (at_key R imag k) (mparts rt (sm_cbasis m) r c x)) <= 1).
    { intro x. unfold mparts. rewrite filter_app. destruct imag, (re_index t (m_id x)), (sm_cbasis m), (im_index t (m_id x)); cbn; try (destruct (Nat.eqb _ k)); cbn; lia. }
    destruct direct.
    - destruct (cellm r c) as [|x [|y l]]; cbn [length flat_map] in *; [cbn; lia| |lia]. rewrite app_nil_r. apply G1.
    - destruct (cellm c r) as [|x [|y l]]; cbn [length flat_map] in *; [cbn; lia| |lia]. rewrite app_nil_r. apply G2.
  Qed.
  Lemma represented (monomial is_dense : bool) : (monomial = true -> Forall (fun p => length p <= 1) (sm_cells m)) ->
    exists b, create_basis monomial is_dense false t m = BOk b /\ represents t d cellm b.
  Proof.
    intro ONE. unfold create_basis. cbn [andb]. set (l := (if monomial then mono_deposits else poly_deposits) t false m). cbv zeta.
    assert (OK : Forall (ok_dep R t) l) by (unfold l; destruct monomial; [unfold mono_deposits|unfold poly_deposits]; apply all_ok).
    assert (RE : sm_cbasis m = false -> Forall (fun y : deposit R => d_imag y = false) l) by (intro E; unfold l; destruct monomial; [unfold mono_deposits|unfold poly_deposits]; now apply all_real).
    assert (SH : forall r c, r < d -> c < d -> exists direct, filter (at_pos R r c) l = share false direct r c /\ (direct = false -> sm_herm m = true)).
    { intros r c Hr Hc. unfold l. destruct monomial; [rewrite mono_share by assumption|rewrite poly_share by assumption]; eexists; (split; [reflexivity|]); destruct (sm_herm m); cbn; congruence. }
    assert (B : exists b, (if is_dense then dense (negb monomial) t l else BasModel.sparse t m l) = Some b /\ length (b_real b) = length (t_real t) /\ length (b_imag b) = length (t_imag t) /\
      forall imag k r c, r < d -> c < d -> nth k (part R imag b) zero_matrix r c = csum R (vals R imag k r c l)).
    { destruct is_dense.
      - destruct (dense_spec R (negb monomial) t l OK) as [b [E [Lr [Li H]]]]. exists b. split; [exact E|]. split; [exact Lr|]. split; [exact Li|]. intros imag k r c Hr Hc. rewrite H.
        destruct monomial; cbn [negb].
        + apply result_one. unfold vals. rewrite map_length. destruct (SH r c Hr Hc) as [direct [-> _]]. specialize (ONE eq_refl). rewrite Forall_forall in ONE.
          assert (C1 : forall a a', length (cellm a a') <= 1). { intros a a'. unfold cell. destruct (nth_in_or_default (a' * d + a) (sm_cells m) []) as [I|Z]; [now apply ONE|rewrite Z; cbn; lia]. }
          now apply one_key.
        + rewrite result_adding. ring.
      - destruct (sparse_spec R t m l OK RE) as [b [E [Lr [Li H]]]]. exists b. split; [exact E|]. split; [exact Lr|]. split; [exact Li|]. intros; apply H. }
    destruct B as [b [E [Lr [Li H]]]]. rewrite E. exists b. split; [reflexivity|]. constructor; [exact Lr|exact Li|].
    intros v A r c Hr Hc. rewrite (combination_total R t v b l r c OK) by (intros; now apply H). destruct (SH r c Hr Hc) as [direct [-> D]]. now apply share_value.
  Qed.
  (** without complex coefficients, the bases with real matrices are the same *)
  Lemma real_type_same monomial is_dense : sm_ccoef m = existsb (existsb complex_factor) (sm_cells m) -> sm_ccoef m = false -> create_basis monomial is_dense true t m = create_basis monomial is_dense false t m.
  Proof.
    intros E F. unfold create_basis. rewrite F. cbn [andb]. rewrite E in F.
    assert (G : forall places, all_deposits t true places m = all_deposits t false places m).
    { intro places. unfold all_deposits. apply flat_map_ext_in. intros [r c] _. cbn [fst snd]. apply flat_map_ext_in. intros x I.
      assert (Z : cim (m_f x) = r0 R).
      { unfold cell in I. destruct (nth_in_or_default (c * d + r) (sm_cells m) []) as [J|Q]; [|rewrite Q in I; destruct I].
        destruct (is_real (m_f x)) eqn:RR; [now apply r_eqb_spec in RR|]. exfalso. assert (T : existsb (existsb complex_factor) (sm_cells m) = true); [|congruence].
        apply existsb_exists. eexists. split; [exact J|]. apply existsb_exists. exists x. split; [exact I|]. unfold complex_factor. now rewrite RR. }
      unfold deposits, re_factor. assert (Q1 : creal (cre (m_f x)) = m_f x) by (apply cx_ext; cbn; [reflexivity|now rewrite Z]).
      assert (Q2 : creal (cre (cconj (m_f x))) = cconj (m_f x)) by (apply cx_ext; cbn; [reflexivity|rewrite Z; ring]). now rewrite Q1, Q2. }
    unfold mono_deposits, poly_deposits. destruct monomial; now rewrite G.
  Qed.
End Mat.
