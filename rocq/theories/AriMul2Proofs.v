(** Products with operator polynomials, and with monomials. *)
From Coq Require Import List NArith ZArith Arith Bool Lia Sorted Field.
From Verif Require Import CoreModel CoreSpec FieldModel FieldProofs SymModel SymSpec SymProofs SymFinalProofs PolyModel PolySpec PolyProofs PolyOpsProofs PolyTableProofs PolyFinalProofs FacModel FacSpec RawModel BasModel AriModel AriSpec AriProofs AriMulProofs.
Import ListNotations.

Lemma some_inj {A} (a b : A) : Some a = Some b -> a = b. Proof. congruence. Qed.

Section Mul2.
  Variables (c : sctx) (V : hseq -> Prop).
  Hypothesis LW : lawful c V.
  Hypothesis UC : unsigned_conj c V.
  Variable R : rfield.
  Add Field Cf : (cx_field R).
  Notation mono := (mono R).
  Variable only : bool.
  Variable mul : hseq -> hseq -> hseq.
  (** the products of every term with the elements lie in the context's words, and Hermitian ones have no phase *)
  Notation terms_ok := (AriSpec.terms_ok c V R only mul).
  Definition part_ok (pre : bool) (dim : nat) (ops : list hseq) (factor : cx R) (t : table) (x : hseq * cx R) (cells : list mono) : Prop :=
    length cells = dim * dim /\ Forall (in_table t) cells /\ forall E v, expectation c V R E -> agrees E t v -> forall o a, nth_error ops o = Some a ->
      option_map (term_value v) (nth_error cells o) = Some (cmul factor (cmul (snd x) (E (if pre then mul (fst x) a else mul a (fst x))))).
  Lemma in_table_later t t' (x : mono) : reachable c V t -> later c V t t' -> in_table t x -> in_table t' x.
  Proof.
    intros RT LT I. unfold in_table in *. destruct (later_hinv c V LW t t' RT LT) as [_ [G _]]. destruct (nth_error (t_syms t) (m_id x)) as [s|] eqn:E.
    - destruct (G _ s E) as (s' & N & _). apply nth_error_Some. congruence.
    - apply nth_error_None in E. lia.
  Qed.
  Lemma terms_spec pre dim ops factor : length ops = dim * dim -> forall p t, reachable c V t -> flagged c t -> terms_ok pre p ops ->
    exists t' l, mm_terms c mul only pre dim ops factor p t = Done t' l /\ later c V t t' /\ reachable c V t' /\ flagged c t' /\ Forall2 (part_ok pre dim ops factor t') p l.
  Proof.
    intro L. induction p as [|[q w] p IH]; intros t RT FL OK.
    - exists t, []. split; [reflexivity|]. split; [apply later_refl|]. split; [exact RT|]. split; [exact FL|constructor].
    - cbn [mm_terms]. destruct (OK (q, w) (or_introl eq_refl)) as (PV & PK & PP). cbn [fst] in *.
      destruct (from_ops_spec c V LW UC R only dim (times mul pre q ops) (cmul factor w) t RT PV ltac:(now rewrite times_length) PK) as (t1 & m & E1 & Rg & RT1 & Fl & D & O & Fa & _ & _ & Ln & Pl & St).
      rewrite E1. destruct (IH t1 RT1 (Fl PP FL) (fun x I => OK x (or_intror I))) as (t2 & l & E2 & L2 & RT2 & FL2 & F2). rewrite E2.
      exists t2, (mm_cells m :: l). split; [reflexivity|]. split; [exact (later_trans c V _ _ _ (proj1 Rg) L2)|]. split; [exact RT2|]. split; [exact FL2|]. constructor; [|exact F2].
      split; [exact Ln|]. split; [apply Forall_forall; intros x I; rewrite Forall_forall in Pl; exact (in_table_later t1 t2 x RT1 L2 (proj1 (Pl x I)))|].
      intros E v HE AG o a N. cbn [fst snd]. pose proof (agrees_before c V LW R E t1 t2 v RT1 L2 AG) as AG1.
      pose proof (St E v HE (flagged_respects c V LW R E t1 v RT1 HE (Fl PP FL) AG1) AG1 _ o (if pre then mul q a else mul a q) O) as S. rewrite Fa in S. cbn [entry] in S. rewrite S; [f_equal; ring|].
      unfold times. now rewrite nth_error_map, N.
  Qed.
  Variables (srt : table -> list mono -> list mono) (lt : table -> mono -> mono -> bool).
  Lemma parts_value pre dim ops factor t E v o a : expectation c V R E -> agrees E t v -> nth_error ops o = Some a -> forall p l, Forall2 (part_ok pre dim ops factor t) p l ->
    value v (flat_map (fun l => match nth_error l o with Some x => [x] | None => [] end) l) = cmul factor (product_value E mul pre p a).
  Proof.
    intros HE AG N. induction 1 as [|x cells p l H _ IH]; [cbn; ring|]. cbn [flat_map product_value fold_right]. fold (product_value E mul pre p a). rewrite value_app, IH.
    destruct H as (_ & _ & H). specialize (H E v HE AG o a N). destruct (nth_error cells o) as [y|]; [|discriminate H]. cbn [option_map] in H. apply some_inj in H. rewrite value_cons, H. cbn [value fold_right]. ring.
  Qed.
  Lemma multiply_raw_spec pre p m ops t : reachable c V t -> flagged c t -> mm_ops m = Some ops -> length ops = mm_dim m * mm_dim m -> terms_ok pre p ops -> 2 <= length p ->
    (forall t', later c V t t' -> term_order t' (lt t') /\ sorts t' (lt t') (srt t')) ->
    exists t' r, mm_multiply_raw c mul only srt lt pre p m t = Done t' (SP r) /\ later c V t t' /\ reachable c V t' /\ pm_dim r = mm_dim m /\ sized (SP r) /\ (2 < length p -> well_formed t' (lt t') (SP r)) /\
      forall E v, expectation c V R E -> assignment t' v -> agrees E t' v -> forall o a, nth_error ops o = Some a ->
        entry v (SP r) o = Some (cmul (mm_factor m) (product_value E mul pre p a)).
  Proof.
    intros RT FL EO L OK L2 OS. destruct (terms_spec pre (mm_dim m) ops (mm_factor m) L p t RT FL OK) as (t' & l & E1 & LT & RT' & FL' & F2). destruct (OS t' LT) as [HO HS].
    assert (EQ : mm_multiply_raw c mul only srt lt pre p m t = match mm_terms c mul only pre (mm_dim m) ops (mm_factor m) p t with
      | Done t' l => as_poly (lift t' (synthesize t' (srt t') (lt t') (mm_dim m) l)) | Throw t' => Throw t' | Undef => Undef end).
    { destruct p as [|[q w] [|y p]]; [cbn in L2; lia|cbn in L2; lia|]. unfold mm_multiply_raw. now rewrite EO. }
    rewrite EQ, E1. clear EQ E1. destruct F2 as [|x1 c1' p l H1 F2]; [cbn in L2; lia|]. destruct F2 as [|x2 c2' p l H2 F2]; [cbn in L2; lia|].
    destruct F2 as [|x3 c3 p l H3 F2].
    - cbn [synthesize lift as_poly]. do 2 eexists. split; [reflexivity|]. split; [exact LT|]. split; [exact RT'|]. split; [reflexivity|]. destruct H1 as (L1' & I1 & V1), H2 as (L2' & I2 & V2).
      split; [cbn [sized pm_cells pm_dim]; rewrite map_length, combine_length; lia|]. split; [cbn; lia|]. intros E v HE A AG o a N. cbn [entry pm_cells]. rewrite nth_error_map.
      specialize (V1 E v HE AG o a N). specialize (V2 E v HE AG o a N). destruct (nth_error c1' o) as [y1|] eqn:N1; [|discriminate V1]. destruct (nth_error c2' o) as [y2|] eqn:N2; [|discriminate V2]. cbn [option_map] in V1, V2. apply some_inj in V1. apply some_inj in V2.
      assert (NC : nth_error (List.combine c1' c2') o = Some (y1, y2)).
      { clear -N1 N2. revert c2' o N1 N2. induction c1' as [|z c1' IH]; intros [|z' c2'] [|o] N1 N2; try discriminate; cbn in *; [congruence|now apply IH]. }
      rewrite NC. cbn [option_map fst snd]. f_equal. rewrite Forall_forall in I1, I2. destruct (sum_values_spec R t' (lt t') [] y1 y2 v HO) as [_ ->]; [constructor|exact (I1 _ (nth_error_In _ _ N1))|exact (I2 _ (nth_error_In _ _ N2))|exact (as_zero t' v A)|].
      rewrite V1, V2. cbn [product_value fold_right]. ring.
    - remember (x1 :: x2 :: x3 :: p) as ps eqn:Ep. assert (Fps : Forall2 (part_ok pre (mm_dim m) ops (mm_factor m) t') ps (c1' :: c2' :: c3 :: l)) by (subst ps; constructor; [exact H1|]; constructor; [exact H2|]; constructor; [exact H3|exact F2]).
      assert (IN : forall o, Forall (in_table t') (flat_map (fun l => match nth_error l o with Some x => [x] | None => [] end) (c1' :: c2' :: c3 :: l))).
      { intro o. apply Forall_forall. intros x I. apply in_flat_map in I. destruct I as (k & I & J). destruct (nth_error k o) as [y|] eqn:N; [|contradiction]. destruct J as [<-|[]].
        clear -Fps I N. induction Fps as [|z k' ps ls H _ IH]; [contradiction|]. destruct I as [<-|I]; [|exact (IH I)]. destruct H as (_ & H & _). rewrite Forall_forall in H. exact (H _ (nth_error_In _ _ N)). }
      cbn [synthesize lift as_poly]. do 2 eexists. split; [reflexivity|]. split; [exact LT|]. split; [exact RT'|]. split; [reflexivity|].
      assert (SZ : sized (SP (mk_pm (mm_dim m) (map (fun o => make_poly t' (srt t') (flat_map (fun l => match nth_error l o with Some x => [x] | None => [] end) (c1' :: c2' :: c3 :: l))) (seq 0 (mm_dim m * mm_dim m)))))) by (cbn [sized pm_cells pm_dim]; now rewrite map_length, seq_length).
      split; [exact SZ|]. split.
      + intros _. split; [exact SZ|]. cbn [pm_cells]. apply Forall_forall. intros q I. apply in_map_iff in I. destruct I as (o & <- & _). exact (proj1 (construct_spec R t' (lt t') (srt t') _ HO HS (IN o))).
      + intros E v HE A AG o a N. assert (Lo : o < mm_dim m * mm_dim m) by (rewrite <- L; apply nth_error_Some; congruence). cbn [entry pm_cells]. rewrite nth_error_map. rewrite (nth_error_nth' _ 0) by now rewrite seq_length.
        rewrite seq_nth by exact Lo. cbn [option_map plus]. f_equal. rewrite (proj2 (construct_spec R t' (lt t') (srt t') _ HO HS (IN o)) v A). exact (parts_value pre _ ops _ t' E v o a HE AG N ps _ Fps).
  Qed.
  (** ** monomials *)
  Lemma mono_zero pre (x : mono) (a : smx R) t : m_id x = 0 -> multiply_mono c mul only pre x a t = Done t (SM (zero_matrix (smx_dim a))).
  Proof. intro H. unfold multiply_mono. now rewrite H. Qed.
  Lemma mono_does pre (x : mono) (m : monomat R) ops t s w : mm_value m = false -> mm_ops m = Some ops -> m_id x <> 0 -> ~ (m_id x = 1 /\ m_f x = c1) ->
    nth_error (t_syms t) (m_id x) = Some s -> (if m_cj x || sy_herm s then sy_seq s else sy_conj s) = Some w ->
    multiply_mono c mul only pre x (SM m) t = as_smx (mm_multiply c mul only pre w (m_f x) m t).
  Proof.
    intros VM EO NZ N1 NS SW. unfold multiply_mono. destruct (Nat.eqb_spec (m_id x) 0) as [?|_]; [contradiction|].
    assert (U : Nat.eqb (m_id x) 1 && ceqb (m_f x) c1 = false).
    { destruct (Nat.eqb_spec (m_id x) 1) as [Q|Q]; [|reflexivity]. cbn. apply ceqb_false. intro Z. now apply N1. }
    rewrite U. cbn [has_ops]. rewrite EO. cbn [negb]. unfold looked_up. rewrite NS. assert (Q : (if m_cj x then sy_seq s else if sy_herm s then sy_seq s else sy_conj s) = Some w) by (destruct (m_cj x); [exact SW|cbn [orb] in SW; exact SW]).
    rewrite Q. unfold multiply. now rewrite VM.
  Qed.
  Lemma mono_one pre (x : mono) (a : smx R) t : m_id x = 1 -> m_f x = c1 -> multiply_mono c mul only pre x a t = lift t (clone a).
  Proof. intros I F. unfold multiply_mono. rewrite I, F. cbn [Nat.eqb andb]. now rewrite ceqb_refl. Qed.
  Lemma poly_does pre (p : list mono) (m : monomat R) t r : 2 <= length p -> mm_value m = false -> raw_of_poly t p = Some r -> multiply_poly c mul only srt lt pre p (SM m) t = mm_multiply_raw c mul only srt lt pre r m t.
  Proof.
    intros L VM E. destruct p as [|x [|y p]]; [cbn in L; lia|cbn in L; lia|]. cbn [multiply_poly]. rewrite E. cbn [multiply_raw]. now rewrite VM.
  Qed.
End Mul2.
