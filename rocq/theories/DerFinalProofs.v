(** The theorems of C65. *)
From Coq Require Import List Arith NArith ZArith Bool Sorted Permutation Lia Field_theory Ring.
From Verif Require Import CoreModel FieldModel FieldProofs SymModel SymSpec PolyModel PolySpec PolyProofs PolyOpsProofs PolyTableProofs PolyFinalProofs ParModel ParProofs DerModel DerSpec DerCoreProofs DerProofs.
Import ListNotations.

Section Final.
  Context {R : rfield}.
  Add Ring Rr2 : (F_R (r_field R)).
  Add Ring Cr2 : (cx_ring R).
  Notation mono := (mono R).
  Variables (positive : R -> bool) (srt : list mono -> list mono) (solve : mapcore R -> option (solution R)) (t : table) (x : input R).
  Hypothesis pos0 : positive (r0 R) = false.
  Hypothesis HS : forall s, sorts s id_less srt.
  Hypothesis Hsolve : forall c, (forall row, In row (mc_core c) -> length row = length (mc_rows c)) -> length (mc_core c) = length (mc_cols c) -> exists s, solve c = Some s /\ factors c s.
  Hypothesis WF : well_formed x.
  Hypothesis IX : indexed t (in_cols x).
  Hypothesis St : starts t.

  Lemma core_exists skipped : 1 <= in_rows x -> in_rows x <= in_cols x -> (forall r, r < in_rows x -> entry x r 0 = if Nat.eqb r 0 then r1 R else r0 R) -> exists c, core_of positive skipped x = Some (Some c) /\ says skipped x c.
  Proof.
    intros A B C. destruct x as [rows cols M|rows columns]; cbn [core_of in_rows in_cols entry] in *.
    - destruct (dense_says skipped rows cols M A ltac:(lia) C) as [c [E S]]. exists c. now rewrite E.
    - apply (sparse_says positive pos0 skipped rows columns WF A); [lia|exact C].
  Qed.
  (** everything about one assignment *)
  Lemma map_main v : assignment t v -> acts x t v -> exists m, make_map positive srt solve t table_start x = MBuilt m /\ length (s_inv m) = length (t_syms (s_target m)) /\
    length (s_map m) = length (t_syms t) /\ assignment (s_target m) (new_values m v) /\
    forall i id, i < in_cols x -> map_index t i = Some (id, false) -> id <> 0 -> exists p, apply_id m id = Some p /\ canonical (s_target m) id_less p /\ value (new_values m v) p = image x t v i.
  Proof.
    intros A [B1 [B2 [B3 B4]]]. destruct IX as [Z0 IXi]. unfold make_map.
    destruct (unzip_spec t (seq 0 (in_cols x))) as [osg [Eo [Lo No]]]; [intros i I; apply in_seq in I; destruct (IXi i ltac:(lia)) as [id [cj [E _]]]; eauto|]. rewrite Eo. rewrite seq_length in Lo.
    assert (Osg : forall r, r < in_cols x -> nth_error osg r = map_index t r). { intros r L. apply No. rewrite (nth_error_nth' (seq 0 (in_cols x)) 0) by (rewrite seq_length; exact L). now rewrite seq_nth. }
    set (skipped := fun i => match nth_error osg i with Some (_, cj) => cj | None => false end). destruct (core_exists skipped B1 B2 B3) as [c [Ec Sc]]. rewrite Ec. destruct (sy_core _ _ _ Sc) as [LC1 [LC2 LC3]]. destruct (Hsolve c LC2 LC1) as [s [Es [F1 [F2 F3]]]]. rewrite Es, F1.
    destruct (sy_rows _ _ _ Sc) as [pr [Er Hr]].
    assert (Rin : Forall (fun r => r < in_cols x) (mc_rows c)). { apply Forall_forall. intros r I. rewrite Er in I. apply filter_In in I. destruct I as [I _]. apply in_seq in I. lia. }
    assert (Ho : forall r, r < in_cols x -> nth_error osg r = map_index t r /\ exists id cj, map_index t r = Some (id, cj) /\ id < length (t_syms t)) by (intros r L; split; [now apply Osg|now apply IXi]).
    destruct (inv_all_spec t v srt osg (so_inv s) (mc_rows c) (in_cols x) HS A Ho Rin (seq 0 (so_out s))) as [q [Eq [Lq [Fq Vq]]]]. rewrite seq_length in Lq.
    unfold construct_map. set (sym := fun i => match nth_error osg i with Some (id, _) => id | None => length (t_syms t) end). set (puts := (0, []) :: (1, scalar srt (r1 R)) :: _ ++ _).
    assert (Sym : forall i id cj, i < in_cols x -> map_index t i = Some (id, cj) -> sym i = id) by (intros i id cj L E; unfold sym; rewrite (Osg i L), E; reflexivity).
    assert (Skip : forall i, i < in_cols x -> skipped i = false -> exists id, map_index t i = Some (id, false) /\ id < length (t_syms t)). { intros i L K. destruct (IXi i L) as [id [cj [E H]]]. exists id. unfold skipped in K. rewrite (Osg i L), E in K. subst cj. now split. }
    assert (Two : 2 <= length (t_syms t)) by (destruct St as [s0 [s1 [l [-> _]]]]; cbn; lia).
    assert (Pin : forall y, In y puts -> y = (0, []) \/ y = (1, scalar srt (r1 R)) \/ (exists i k, In (i, k) (mc_consts c) /\ y = (sym i, scalar srt k)) \/
        exists a i, nth_error (mc_cols c) a = Some i /\ y = (sym i, make_plain srt (row_terms (nth a (mc_offset c) (r0 R)) (so_map s) a))).
    { intros y [<-|[<-|I]]; [now left|right; now left|]. right. right. apply in_app_or in I. destruct I as [I|I]; apply in_map_iff in I.
      - destruct I as [[i k] [<- I]]. left. exists i, k. now split.
      - destruct I as [a [<- I]]. apply in_seq in I. right. exists a, (nth a (mc_cols c) 0). split; [|reflexivity]. apply nth_error_nth'. lia. }
    assert (Pid : Forall (fun y => fst y < length (repeat (@nil mono) (length (t_syms t)))) puts).
    { rewrite repeat_length. apply Forall_forall. intros y I. destruct (Pin y I) as [->|[->|[[i [k [J ->]]]|[a [i [J ->]]]]]]; cbn [fst]; [lia|lia| |].
      - destruct (sy_consts _ _ _ Sc i k J) as [L [K _]]. destruct (Skip i ltac:(lia) K) as [id [E H]]. now rewrite (Sym i id false ltac:(lia) E).
      - apply nth_error_In in J. destruct (sy_cols _ _ _ Sc i J) as [L K]. destruct (Skip i ltac:(lia) K) as [id [E H]]. now rewrite (Sym i id false ltac:(lia) E). }
    destruct (put_all_spec puts _ Pid) as [mm [Em [Lm Hm]]]. rewrite Em, Eq. change (length (t_syms table_start) =? 2) with true. cbv iota. eexists. split; [reflexivity|]. cbn [s_inv s_map s_target tl].
    destruct (populate_syms t q table_start) as [P1 [P2 P3]]. change (length (t_syms table_start)) with 2 in P1, P3. set (tg := populate t table_start q) in *. rewrite repeat_length in Lm.
    set (y := fun j => value v (nth j ([] :: scalar srt (r1 R) :: q) [])).
    assert (Yv : forall m, s_inv m = [] :: scalar srt (r1 R) :: q -> forall j, new_values m v j = y j) by (intros m E j; unfold new_values; now rewrite E).
    assert (Sc1 : forall w z, w 0 = c0 -> w 1 = c1 -> value w (scalar srt z) = creal z).
    { intros w z W0 W1. unfold scalar, make_plain. rewrite (tidy_value R t id_less srt (HS t) w _ W0); [|constructor; [|constructor]; unfold in_table; cbn; lia]. rewrite value_single, W1. ring. }
    assert (Y0 : y 0 = c0) by reflexivity. assert (Y1 : y 1 = c1). { unfold y. cbn [nth]. rewrite Sc1; [apply creal_1|apply A|apply A]. }
    assert (Y2 : forall j, j < so_out s -> y (j + 2) = lsum (seq 0 (length (mc_rows c))) (fun b => cmul (creal (x_at (so_inv s) j b)) (word_value t v (nth b (mc_rows c) 0)))).
    { intros j L. unfold y. replace (j + 2) with (S (S j)) by lia. cbn [nth]. apply Vq. rewrite (nth_error_nth' (seq 0 (so_out s)) 0) by (rewrite seq_length; exact L). now rewrite seq_nth. }
    assert (Yas : assignment tg y).
    { constructor; [exact Y0|exact Y1| |].
      - intros id sm Es' Hh. destruct id as [|[|k]]; [rewrite Y0; reflexivity|rewrite Y1; reflexivity|]. assert (Lk : k < length q) by (assert (X : S (S k) < length (t_syms tg)) by (apply nth_error_Some; congruence); lia). destruct (nth_error q k) as [p|] eqn:Ep; [|apply nth_error_None in Ep; lia].
        destruct (P3 k p Ep) as [s' [E' [H' _]]]. cbn [plus] in E'. rewrite Es' in E'. injection E' as <-. rewrite Hh in H'. unfold y. cbn [nth]. rewrite (nth_error_nth q k [] Ep). apply (is_hermitian_real t v p A); [|now symmetry]. rewrite Forall_forall in Fq. apply Fq. now apply nth_error_In in Ep.
      - intros id sm Es' Ha. destruct id as [|[|k]]; [rewrite Y0; reflexivity| |].
        + rewrite (P2 1 symbol_identity eq_refl) in Es'. injection Es' as <-. discriminate.
        + assert (Lk : k < length q) by (assert (X : S (S k) < length (t_syms tg)) by (apply nth_error_Some; congruence); lia). destruct (nth_error q k) as [p|] eqn:Ep; [|apply nth_error_None in Ep; lia]. destruct (P3 k p Ep) as [s' [E' [_ H']]]. cbn [plus] in E'. rewrite Es' in E'. injection E' as <-. congruence. }
    split; [cbn [length]; lia|]. split; [exact Lm|]. split.
    { assert (X := Yas). destruct X as [X1 X2 X3 X4]. constructor; [exact X1|exact X2|exact X3|exact X4]. }
    (** values of images *)
    assert (Im : forall i, image x t v i = cadd (creal (entry x 0 i)) (lsum (seq 1 (in_rows x - 1)) (fun r => cmul (creal (entry x r i)) (word_value t v r)))).
    { intros i. unfold image. replace (in_rows x) with (S (in_rows x - 1)) at 1 by lia. cbn [seq]. rewrite lsum_cons. f_equal. unfold word_value at 1. rewrite Z0, (as_one t v A). ring. }
    assert (ImC : forall i k, In (i, k) (mc_consts c) -> image x t v i = creal k).
    { intros i k I. destruct (sy_consts _ _ _ Sc i k I) as [_ [_ [E0 E1]]]. rewrite Im, E0, lsum_zero; [ring|]. intros r J. apply in_seq in J. rewrite (E1 r) by lia. rewrite creal_0. ring. }
    assert (ImN : forall a i, nth_error (mc_cols c) a = Some i -> image x t v i = value y (row_terms (nth a (mc_offset c) (r0 R)) (so_map s) a)).
    { intros a i E. rewrite (row_terms_value y _ _ _ Y1), Im. destruct (sy_offset _ _ _ Sc) as [_ So]. rewrite (So a i E). f_equal. rewrite F2.
      rewrite <- (lsum_filter pr) by (intros r J Pr; apply in_seq in J; rewrite (Hr r i (nth_error_In _ _ E) ltac:(lia) Pr), creal_0; ring). rewrite <- Er, (lsum_nth (mc_rows c) 0).
      rewrite (lsum_ext (seq 0 (so_out s)) _ (fun j => lsum (seq 0 (length (mc_rows c))) (fun b => cmul (creal (rmul R (x_at (so_map s) a j) (x_at (so_inv s) j b))) (word_value t v (nth b (mc_rows c) 0))))).
      2:{ intros j J. apply in_seq in J. rewrite Y2 by lia. rewrite <- lsum_scale. apply lsum_ext. intros b _. rewrite creal_mul. ring. }
      rewrite lsum_swap. apply lsum_ext. intros b J. apply in_seq in J. assert (Eb : nth_error (mc_rows c) b = Some (nth b (mc_rows c) 0)) by (apply nth_error_nth'; lia). rewrite <- (LC3 a i b _ E Eb), <- F3; [|apply nth_error_Some; congruence|lia].
      rewrite creal_rsum. rewrite (lsum_ext _ (fun i0 => cmul (creal (rmul R (x_at (so_map s) a i0) (x_at (so_inv s) i0 b))) (word_value t v (nth b (mc_rows c) 0))) (fun i0 => cmul (word_value t v (nth b (mc_rows c) 0)) (creal (rmul R (x_at (so_map s) a i0) (x_at (so_inv s) i0 b))))) by (intros; ring). rewrite lsum_scale. ring. }
    intros i id Li Ei Nid. unfold apply_id. cbn [s_map]. change (fun j => new_values _ v j) with (fun j => y j).
    apply (Hm id (fun p => canonical tg id_less p /\ value y p = image x t v i)).
    - intros p I. destruct (Pin _ I) as [E|[E|[[j [k [J E]]]|[a [j [J E]]]]]]; injection E as Eid ->.
      + contradiction.
      + subst id. split; [apply plain_canonical; [exact HS|]; intros w [<-|[]]; cbn; lia|]. rewrite (Sc1 y (r1 R) Y0 Y1), (B4 i 0 1 Li ltac:(lia) Ei Z0), Im, (B3 0 ltac:(lia)). cbn [Nat.eqb]. rewrite lsum_zero; [ring|]. intros r J. apply in_seq in J. rewrite (B3 r) by lia. destruct (Nat.eqb_spec r 0); [lia|]. rewrite creal_0. ring.
      + destruct (sy_consts _ _ _ Sc j k J) as [L [K _]]. destruct (Skip j ltac:(lia) K) as [id' [E' _]]. rewrite (Sym j id' false ltac:(lia) E') in Eid. subst id'. split; [apply plain_canonical; [exact HS|]; intros w [<-|[]]; cbn; lia|]. rewrite (Sc1 y k Y0 Y1), <- (ImC j k J). apply (B4 j i id); auto. lia.
      + pose proof (nth_error_In _ _ J) as J'. destruct (sy_cols _ _ _ Sc j J') as [L K]. destruct (Skip j ltac:(lia) K) as [id' [E' _]]. rewrite (Sym j id' false ltac:(lia) E') in Eid. subst id'.
        assert (Rt : forall w, In w (row_terms (nth a (mc_offset c) (r0 R)) (so_map s) a) -> m_cj w = false /\ m_id w < length (t_syms tg)). { intros w I'. destruct (row_terms_in _ _ _ _ I') as [C1 [C2 C3]]. split; [exact C1|]. rewrite F2 in C3. lia. }
        split; [now apply plain_canonical|]. unfold make_plain. rewrite (tidy_value R tg id_less srt (HS tg) y _ Y0); [|apply Forall_forall; intros w I'; apply (Rt w I')]. rewrite <- (ImN a j J). apply (B4 j i id); auto. lia.
    - left. destruct (Nat.eq_dec i 0) as [->|Ni].
      + rewrite Z0 in Ei. injection Ei as <-. eexists. right. left. reflexivity.
      + assert (K : skipped i = false) by (unfold skipped; rewrite (Osg i Li), Ei; reflexivity). destruct (sy_all _ _ _ Sc i ltac:(lia) K) as [J|[k J]].
        * destruct (In_nth_error _ _ J) as [a Ea]. eexists. right. right. apply in_or_app. right. apply in_map_iff. exists a. rewrite (nth_error_nth _ _ 0 Ea). split; [apply f_equal2; [apply (Sym i id false Li Ei)|reflexivity]|]. apply in_seq. assert (a < length (mc_cols c)) by (apply nth_error_Some; congruence). lia.
        * eexists. right. right. apply in_or_app. left. apply in_map_iff. exists (i, k). cbn [fst snd]. split; [apply f_equal2; [apply (Sym i id false Li Ei)|reflexivity]|exact J].
  Qed.
  Lemma cconj_mul (a b : cx R) : cconj (cmul a b) = cmul (cconj a) (cconj b).
  Proof. unfold cconj, cmul. cbn [cre cim]. f_equal; ring. Qed.
  Lemma cconj_real (f : cx R) : cim f = r0 R -> cconj f = f.
  Proof. destruct f as [a b]. unfold cconj. cbn [cre cim]. intros ->. f_equal. ring. Qed.
  Lemma mono_value m v i id cj f : length (s_inv m) = length (t_syms (s_target m)) -> assignment (s_target m) (new_values m v) ->
    (exists p, apply_id m id = Some p /\ canonical (s_target m) id_less p /\ value (new_values m v) p = image x t v i) -> (cj = true -> cim f = r0 R) ->
    exists p, apply_mono m (mk_mono id cj f) = Some p /\ canonical (s_target m) id_less p /\ value (new_values m v) p = cmul f (if cj then cconj (image x t v i) else image x t v i).
  Proof.
    intros L As [p [Ep [Cp Vp]]] Hf. unfold apply_mono. cbn [m_id m_f m_cj]. rewrite Ep. destruct (scale_spec R (s_target m) id_less f p (id_less_order R _) Cp) as [Cs Vs]. destruct cj.
    - destruct (conjugate_spec R (s_target m) id_less (scale f p) (id_less_order R _) Cs) as [Cc Vc]. eexists. split; [reflexivity|]. split; [exact Cc|]. rewrite (Vc _ As), Vs, Vp, cconj_mul, (cconj_real f (Hf eq_refl)). reflexivity.
    - eexists. split; [reflexivity|]. split; [exact Cs|]. now rewrite Vs, Vp.
  Qed.
  Lemma f_images v : assignment t v -> acts x t v -> exists m, make_map positive srt solve t table_start x = MBuilt m /\ assignment (s_target m) (new_values m v) /\ length (s_inv m) = length (t_syms (s_target m)) /\
    (forall i id cj f, i < in_cols x -> map_index t i = Some (id, false) -> id <> 0 -> (cj = true -> cim f = r0 R) ->
      exists p, apply_mono m (mk_mono id cj f) = Some p /\ canonical (s_target m) id_less p /\ value (new_values m v) p = cmul f (if cj then cconj (image x t v i) else image x t v i)) /\
    (forall y, length (t_syms t) <= m_id y -> apply_mono m y = None).
  Proof.
    intros A B. destruct (map_main v A B) as [m [E [L1 [L2 [As H]]]]]. exists m. split; [exact E|]. split; [exact As|]. split; [exact L1|]. split.
    - intros i id cj f Li Ei N Hf. apply mono_value; auto.
    - intros y L. unfold apply_mono, apply_id. rewrite (proj2 (nth_error_None _ _)); [reflexivity|]. now rewrite L2.
  Qed.
  Lemma f_invariant v m : assignment t v -> acts x t v -> invariant x t v -> make_map positive srt solve t table_start x = MBuilt m ->
    forall p, (forall y, In y p -> covered x t (m_id y) /\ (m_cj y = true -> cim (m_f y) = r0 R)) ->
    exists q, apply_poly srt m p = Some q /\ canonical (s_target m) id_less q /\ value (new_values m v) q = value v p.
  Proof.
    intros A B I E p Hp. destruct (f_images v A B) as [m' [E' [As [L [H _]]]]]. rewrite E in E'. injection E' as <-. unfold apply_poly.
    assert (X : exists q, apply_terms m p = Some q /\ Forall (fun y => in_table (s_target m) y /\ (herm (s_target m) (m_id y) = true \/ anti (s_target m) (m_id y) = true -> m_cj y = false)) q /\ value (new_values m v) q = value v p).
    { induction p as [|y p IH]; cbn [apply_terms]; [exists []; repeat split; constructor|]. destruct IH as [q [Eq [Fq Vq]]]; [intros z Z; apply Hp; now right|]. destruct (Hp y (or_introl eq_refl)) as [[N [i [Li Ei]]] Hf]. destruct (H i (m_id y) (m_cj y) (m_f y) Li Ei N Hf) as [a [Ea [Ca Va]]]. replace (mk_mono (m_id y) (m_cj y) (m_f y)) with y in Ea by now destruct y. rewrite Ea, Eq.
      exists (a ++ q). split; [reflexivity|]. split.
      - apply Forall_app. split; [|exact Fq]. apply Forall_forall. intros z Z. destruct (cp_terms _ _ _ Ca z Z) as [T1 [_ [_ T2]]]. now split.
      - rewrite value_app, Va, Vq, value_cons. f_equal. unfold term_value. rewrite (I i (m_id y) Li Ei). unfold word_value. rewrite Ei. now destruct (m_cj y). }
    destruct X as [q [Eq [Fq Vq]]]. rewrite Eq. cbn [option_map]. eexists. split; [reflexivity|]. assert (Ft : Forall (in_table (s_target m)) q) by (eapply Forall_impl; [|exact Fq]; intros z [Z _]; exact Z). split.
    - constructor; [apply (tidy_sorted R _ id_less (id_less_order R _) srt (HS _) q Ft)|]. intros z Z. destruct (tidy_nonzero R srt q z Z) as [N1 N2]. destruct (tidy_in R _ id_less srt (HS _) q z Ft Z) as [w [W S]]. rewrite Forall_forall in Fq. destruct (Fq w W) as [W1 W2]. unfold same_term in S. apply andb_true_iff in S. destruct S as [S1 S2]. apply Nat.eqb_eq in S1. apply eqb_prop in S2. unfold in_table in *. rewrite S1, S2. rewrite S1 in N2. auto.
    - unfold make_plain. rewrite (tidy_value R _ id_less srt (HS _) _ q (as_zero _ _ As) Ft). exact Vq.
  Qed.
End Final.
