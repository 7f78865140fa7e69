(** Rows of words and coefficients. *)
From Coq Require Import NArith ZArith Arith Bool List Lia.
From Verif Require Import CoreModel FieldModel FieldProofs SymModel SymSpec SymProofs SymFinalProofs PolyModel PolySpec PolyProofs PolyTableProofs RawModel RawSpec RawProofs RawTableProofs FacModel RowModel RowSpec.
Import ListNotations.
Local Open Scope list_scope.
Local Open Scope nat_scope.

Section Plain.
  Context {R : rfield}.
  Add Field CfRow : (cx_field R).
  Notation row := (row (R:=R)).
  Lemma rows_iff {A} (f : A -> rout row) l rs : rows f l = ROk rs <-> Forall2 (fun a r => f a = ROk r) l rs.
  Proof.
    revert rs. induction l as [|a l IH]; intro rs; cbn [rows].
    - split; [intro H; injection H as <-; constructor|intro H; now inversion H].
    - split.
      + destruct (f a) as [y|e] eqn:F; [|discriminate]. destruct (rows f l) as [ys|e]; [|discriminate]. intro H. injection H as <-. constructor; [exact F|]. now apply IH.
      + intro H. inversion H as [|? y ? ys F G]; subst. rewrite F. apply IH in G. now rewrite G.
  Qed.
  Lemma rows_err {A} (f : A -> rout row) l e : rows f l = RErr e <-> exists j a, nth_error l j = Some a /\ f a = RErr e /\ forall i b, i < j -> nth_error l i = Some b -> exists r, f b = ROk r.
  Proof.
    induction l as [|a l IH]; cbn [rows].
    - split; [discriminate|]. intros (j & a & N & _). destruct j; discriminate.
    - split.
      + destruct (f a) as [y|e'] eqn:F.
        * destruct (rows f l) as [ys|e']; [discriminate|]. intro H. apply IH in H. destruct H as (j & b & N & G & K). exists (S j), b. split; [exact N|]. split; [exact G|].
          intros [|i] d L D; [injection D as <-; now exists y|]. apply (K i d); [lia|exact D].
        * intro H. injection H as ->. exists 0, a. repeat split; auto. intros i b L. lia.
      + intros (j & b & N & G & K). destruct j as [|j]; [injection N as ->; now rewrite G|]. destruct (K 0 a) as [r F]; [lia|reflexivity|]. rewrite F.
        assert (H : rows f l = RErr e) by (apply IH; exists j, b; split; [exact N|]; split; [exact G|]; intros i d L D; apply (K (S i) d); [lia|exact D]). now rewrite H.
  Qed.
  Lemma rows_all {A} (f : A -> rout row) l : (exists rs, rows f l = ROk rs) <-> forall a, In a l -> exists r, f a = ROk r.
  Proof.
    induction l as [|a l IH]; cbn [rows].
    - split; [intros _ a []|intros _; now exists []].
    - split.
      + intros [rs H] b [<-|B].
        * destruct (f a) as [r|]; [now exists r|discriminate].
        * apply IH; [|exact B]. destruct (f a); [|discriminate]. destruct (rows f l) as [ys|]; [now exists ys|discriminate].
      + intro H. destruct (H a (or_introl eq_refl)) as [r F]. rewrite F. destruct (proj2 IH (fun b B => H b (or_intror B))) as [ys Y]. rewrite Y. now exists (r :: ys).
  Qed.
  Lemma F2_mono {A B} (P Q : A -> B -> Prop) l m : (forall a b, In a l -> P a b -> Q a b) -> Forall2 P l m -> Forall2 Q l m.
  Proof. intros H F. induction F as [|a b l m K F IH]; constructor; [apply H; [now left|exact K]|]. apply IH. intros x y X. apply H. now right. Qed.
  Lemma F2_map {A B} (P : A -> B -> Prop) (f : A -> B) l : (forall a, In a l -> P a (f a)) -> Forall2 P l (map f l).
  Proof. induction l as [|a l IH]; intro H; constructor; [apply H; now left|]. apply IH. intros x X. apply H. now right. Qed.

  Lemma ops_back l : map pred (map S l) = l. Proof. rewrite map_map. apply map_id. Qed.
  Lemma row_holds q (f : cx R) i a : holds q (mk_row (export_ops q) f (hs_hash q) i a).
  Proof.
    split; [apply Forall_forall; intros o H; apply in_map_iff in H; destruct H as [k [<- _]]; lia|]. unfold row_word, export_ops. cbn [r_ops r_hash]. rewrite ops_back. reflexivity.
  Qed.
  Lemma holds_value (E : hseq -> cx R) q r : holds q r -> row_value E r = cmul (r_coef r) (E (pos q)).
  Proof. intros [_ H]. unfold row_value. now rewrite H. Qed.
  Lemma same_ops (c : sctx) (V : hseq -> Prop) a b (r r' : row) : lawful c V -> V a -> V b -> holds a r -> holds b r' -> r_hash r = r_hash r' -> r_ops r = r_ops r'.
  Proof.
    intros LW Va Vb [A1 A2] [B1 B2] H. assert (K : hs_ops a = hs_ops b). { apply (lw_hash c V LW a b Va Vb). change (hs_hash (pos a) = hs_hash (pos b)). rewrite <- A2, <- B2. exact H. }
    assert (M : map pred (r_ops r) = map pred (r_ops r')). { change (hs_ops (row_word r) = hs_ops (row_word r')). rewrite A2, B2. exact K. }
    unfold from_1 in *. revert A1 B1 M. clear. generalize (r_ops r') as m. induction (r_ops r) as [|x l IH]; intros [|y m] A B M; try discriminate; [reflexivity|].
    cbn [map] in M. injection M as M1 M2. inversion A; inversion B; subst. f_equal; [lia|]. now apply IH.
  Qed.
  Lemma raw_rows_spec (E : hseq -> cx R) p : Forall2 (fun (x : hseq * cx R) r => holds (fst x) r /\ r_coef r = snd x) p (raw_rows p) /\ rows_value E (raw_rows p) = raw_value E p.
  Proof.
    split.
    - apply F2_map. intros a _. split; [apply row_holds|reflexivity].
    - induction p as [|[q w] p IH]; [reflexivity|]. cbn [raw_rows map rows_value raw_value fold_right fst snd]. f_equal; [|exact IH]. rewrite (holds_value E q); [reflexivity|apply row_holds].
  Qed.
  Lemma rows_sum {A} (g : A -> cx R) (E : hseq -> cx R) l rs : Forall2 (fun a r => row_value E r = g a) l rs -> rows_value E rs = fold_right (fun a s => cadd (g a) s) c0 l.
  Proof. intro F. induction F as [|a r l rs H F IH]; [reflexivity|]. cbn [rows_value fold_right]. rewrite H. f_equal. exact IH. Qed.
End Plain.

Section Tables.
  Context (c : sctx) (V : hseq -> Prop) (LW : lawful c V).
  Lemma basis_of l id o : (forall k, o = Some k <-> nth_error l k = Some id) -> in_basis l id (key o).
  Proof.
    intro H. destruct o as [k|]; [right; exists k; split; [reflexivity|]; now apply H|]. left. split; [reflexivity|]. intro I. apply In_nth_error in I. destruct I as [k K]. apply H in K. discriminate.
  Qed.
  Lemma info_describes t id cj s : numbered t -> nth_error (t_syms t) id = Some s -> describes t id cj (info_of id cj s).
  Proof. intros NB N. repeat split; apply basis_of; intro k; [exact (nb_re t NB id s k N)|exact (nb_im t NB id s k N)]. Qed.
  Lemma where_exists t q id : reachable c V t -> V q -> lk_symbol (where_ c t q) = Some id -> exists s, nth_error (t_syms t) id = Some s /\ sy_id s = id.
  Proof.
    intros RT Vq H. assert (K : exists w, symbol_word t id = Some w).
    { pose proof (reachable_hinv c V LW t RT) as I. unfold where_ in H. assert (G : forall h i b, hash_to_index t h = Some (i, b) -> exists w, symbol_word t i = Some w).
      { intros h i b F. unfold hash_to_index in F. destruct (hfind h (t_hash t)) as [z|] eqn:Z; [|discriminate]. destruct (hi_tab c V t I h z Z) as (w & W & _).
        destruct (Z.leb 0 z) eqn:Le; injection F as <- <-; exists w; rewrite <- W; f_equal; lia. }
      destruct (hash_to_index t (hs_hash q)) as [[i b]|] eqn:F; [cbn in H; injection H as <-; eauto|]. destruct (cx_alias c); [|discriminate]. destruct (N.eqb _ _); [discriminate|].
      destruct (hash_to_index t (hs_hash (cx_moment c q))) as [[i b]|] eqn:F2; cbn in H; [injection H as <-; eauto|discriminate]. }
    destruct K as [w W]. unfold symbol_word in W. destruct (nth_error (t_syms t) id) as [s|] eqn:N; [|discriminate]. exists s. split; [reflexivity|]. exact (hi_id c V t (reachable_hinv c V LW t RT) id s N).
  Qed.
  Lemma table_rows_nth t from j : nth_error (table_rows t from) j = option_map (fun s => symbol_row s None None) (nth_error (t_syms t) (from + j)).
  Proof.
    unfold table_rows. rewrite nth_error_map. f_equal. generalize (t_syms t) as l. induction from as [|f IH]; intro l; [reflexivity|]. destruct l as [|x l]; [cbn; now destruct j|]. cbn [skipn Nat.add nth_error]. apply IH.
  Qed.
  Lemma table_rows_spec t from : reachable c V t -> numbered t -> length (table_rows t from) = length (t_syms t) - from /\
    forall j w, nth_error (table_rows t from) j = Some w -> exists s, nth_error (t_syms t) (from + j) = Some s /\ w_symbol w = Some (from + j) /\ w_cj w = None /\ w_alias w = None /\ w_herm w = sy_herm s /\
      in_basis (t_real t) (from + j) (w_re w) /\ in_basis (t_imag t) (from + j) (w_im w).
  Proof.
    intros RT NB. split; [unfold table_rows; rewrite map_length, skipn_length; reflexivity|]. intros j w H. rewrite table_rows_nth in H. destruct (nth_error (t_syms t) (from + j)) as [s|] eqn:N; [|discriminate].
    injection H as <-. exists s. cbn [symbol_row w_symbol w_cj w_alias w_herm w_re w_im]. rewrite (hi_id c V t (reachable_hinv c V LW t RT) _ s N). repeat split; apply basis_of; intro k; [exact (nb_re t NB _ s k N)|exact (nb_im t NB _ s k N)].
  Qed.
  Section Values.
    Context (R : rfield) (E : hseq -> cx R) (EX : expectation c V R E) (UC : unsigned_conj c V).
    Add Field CfRow2 : (cx_field R).
    Lemma word_rows_spec l : Forall V l -> Forall2 (fun q r => holds q r /\ row_value E r = E q /\ r_info r = None) l (word_rows l).
    Proof.
      intro F. apply F2_map. intros q I. rewrite Forall_forall in F. pose proof (row_holds q (cmul c1 (to_scalar (R:=R) (hs_sign q))) None None) as H. split; [exact H|]. split; [|reflexivity].
      unfold seq_row. rewrite (holds_value E q _ H), (ex_phase c V R E EX q (F q I)). cbn [r_coef]. change (@to_scalar R (hs_sign q)) with (sphase R (hs_sign q)). ring.
    Qed.
    Lemma full_row t q : reachable c V t -> numbered t -> V q -> match seq_row_full (R:=R) c t q with
      | ROk r => holds q r /\ (exists id, lk_symbol (where_ c t q) = Some id /\ tells t id (lk_conj (where_ c t q)) r) /\ (forall v, agrees E t v -> consistent E v r) /\
          (hs_sign q = SPos \/ hs_sign q = SNeg -> row_value E r = E q)
      | RErr e => e = RNoSymbol /\ lk_symbol (where_ c t q) = None end.
    Proof.
      intros RT NB Vq. unfold seq_row_full. destruct (lk_symbol (where_ c t q)) as [id|] eqn:K; [|auto]. destruct (where_exists t q id RT Vq K) as (s & N & I). rewrite N.
      pose proof (row_holds (R:=R) q (if hs_negated q then copp c1 else c1) (Some (info_of (sy_id s) (lk_conj (where_ c t q)) s)) None) as H. split; [exact H|]. rewrite I in *. split; [|split].
      - exists id. split; [reflexivity|]. exists (info_of id (lk_conj (where_ c t q)) s). split; [reflexivity|]. now apply info_describes.
      - intros v AG i J. injection J as <-. rewrite (holds_value E q _ H). cbn [info_of i_id i_cj r_coef]. exact (proj2 (lookup_term c V LW R E EX UC t t v q _ id RT (later_refl c V t) Vq AG K)).
      - intro SG. rewrite (holds_value E q _ H), (ex_phase c V R E EX q Vq). cbn [r_coef]. unfold hs_negated. destruct SG as [-> | ->]; cbn; ring.
    Qed.
    Lemma pair_rows_spec t v cells words rs : reachable c V t -> numbered t -> agrees E t v -> Forall2 (fun x q => V q /\ answers c t q (m_id x) (m_cj x)) cells words ->
      matrix_rows t cells words = ROk rs -> Forall2 (fun q r => holds q r) words rs /\ Forall2 (fun x r => r_coef r = m_f x /\ tells t (m_id x) (m_cj x) r /\ row_value E r = term_value v x) cells rs.
    Proof.
      intros RT NB AG F H. apply rows_iff in H. revert rs H. induction F as [|x q cells words [Vq A] F IH]; intros rs H; cbn [List.combine] in H; inversion H as [|? r ? rs' G K]; subst; [split; constructor|].
      destruct (IH rs' K) as [I1 I2]. unfold pair_row in G. cbn [fst snd] in G. destruct (nth_error (t_syms t) (m_id x)) as [s|] eqn:N; [|discriminate]. injection G as <-.
      pose proof (row_holds (R:=R) q (m_f x) (Some (info_of (m_id x) (m_cj x) s)) None) as HO. split; constructor; auto. split; [reflexivity|]. split.
      - exists (info_of (m_id x) (m_cj x) s). split; [reflexivity|]. now apply info_describes.
      - rewrite (holds_value E q _ HO). cbn [r_coef]. unfold term_value. f_equal. pose proof (answers_value c V LW R E t q (m_id x) (m_cj x) RT Vq EX UC A) as SV. unfold symbol_value in SV.
        destruct (symbol_word t (m_id x)) as [w|] eqn:W; [|discriminate]. cbn [option_map] in SV. rewrite (AG _ w W). congruence.
    Qed.
    Lemma pair_rows_ok t cells words : Forall (fun x => m_id (R:=R) x < length (t_syms t)) cells -> exists rs, matrix_rows t cells words = ROk rs.
    Proof.
      intro F. apply rows_all. intros [x q] I. apply in_combine_l in I. rewrite Forall_forall in F. specialize (F x I). unfold pair_row. cbn [fst snd]. apply nth_error_Some in F. destruct (nth_error (t_syms t) (m_id x)) as [s|]; [eauto|easy].
    Qed.
    (** the word a term stands for *)
    Lemma stored_spec t id s w cj : reachable c V t -> clean_words c t -> nth_error (t_syms t) id = Some s -> sy_seq s = Some w -> (sy_herm s = true \/ sy_anti s = true -> cj = false) -> (id = 0 -> cj = false) ->
      exists q, stored s cj = Some q /\ V q /\ hs_sign q = SPos /\ forall v, agrees E t v -> (if cj then cconj (v id) else v id) = E (pos q).
    Proof.
      intros RT [PW CW] N Q HC H0. assert (W : symbol_word t id = Some w) by (unfold symbol_word; now rewrite N). destruct (hi_seq c V t (reachable_hinv c V LW t RT) id w W) as [Vw _]. pose proof (PW id w W) as SW.
      destruct cj; cbn [stored].
      - destruct (sy_herm s) eqn:SH; [now specialize (HC (or_introl eq_refl))|]. destruct (sy_anti s) eqn:SA; [now specialize (HC (or_intror eq_refl))|].
        pose proof (reachable_keeps c V LW t RT) as KP. rewrite Forall_forall in KP. destruct (KP s (nth_error_In _ _ N) w Q) as [[_ B]|[_ B]]; [congruence|]. exists (cx_conj c w). split; [exact B|]. split; [now apply (lw_conj c V LW)|].
        destruct id as [|i]; [now specialize (H0 eq_refl)|]. pose proof (CW i s w N Q SH SA) as SC. split; [exact SC|]. intros v AG. rewrite (AG _ w W), (pos_same w SW), (pos_same _ SC). symmetry. now apply (ex_conj c V R E EX).
      - exists w. split; [exact Q|]. split; [exact Vw|]. split; [exact SW|]. intros v AG. exact (AG id w W).
    Qed.
    Lemma term_rows t symbols x s w q al : numbered t -> nth_error (t_syms t) (m_id x) = Some s -> sy_seq s = Some w -> (forall v, agrees E t v -> (if m_cj x then cconj (v (m_id x)) else v (m_id x)) = E (pos q)) ->
      row_of E t symbols x (mk_row (export_ops q) (m_f x) (hs_hash q) (if symbols then Some (info_of (m_id x) (m_cj x) s) else None) al).
    Proof.
      intros NB N Q H. pose proof (row_holds (R:=R) q (m_f x) (if symbols then Some (info_of (m_id x) (m_cj x) s) else None) al) as HO. split; [exact (proj1 HO)|]. split; [reflexivity|]. split.
      - destruct symbols; [|reflexivity]. exists (info_of (m_id x) (m_cj x) s). split; [reflexivity|]. now apply info_describes.
      - intros v AG. rewrite (holds_value E q _ HO). cbn [r_coef]. unfold term_value. now rewrite (H v AG).
    Qed.
    Lemma poly_row_spec t symbols x : reachable c V t -> numbered t -> clean_words c t -> good_term t x -> match poly_row c symbols t x with
      | ROk r => row_of E t symbols x r /\ symbol_word t (m_id x) <> None /\ r_alias r = (if symbols && cx_alias c then Some false else None)
      | RErr e => symbol_word t (m_id x) = None /\ e = (if m_id x <? length (t_syms t) then RNoWordAt 1 else RUnknownAt 1) end.
    Proof.
      intros RT NB CW GT. unfold poly_row. destruct (nth_error (t_syms t) (m_id x)) as [s|] eqn:N.
      - assert (L : m_id x < length (t_syms t)) by (apply nth_error_Some; congruence). destruct (sy_seq s) as [w|] eqn:Q.
        + unfold good_term, herm, anti, sym_of in GT. rewrite (nth_error_nth _ _ _ N) in GT. destruct (stored_spec t (m_id x) s w (m_cj x) RT CW N Q (proj1 GT) (proj2 GT)) as (q & S1 & _ & _ & S2). rewrite S1.
          split; [now apply (term_rows t symbols x s w q)|]. split; [unfold symbol_word; now rewrite N, Q|reflexivity].
        + split; [unfold symbol_word; now rewrite N|]. apply Nat.ltb_lt in L. now rewrite L.
      - split; [unfold symbol_word; now rewrite N|]. apply nth_error_None in N. apply Nat.ltb_ge in N. now rewrite N.
    Qed.
    Lemma poly_rows_ok t symbols (p : list (mono R)) : reachable c V t -> numbered t -> clean_words c t -> Forall (good_term t) p -> (exists rs, poly_rows c symbols t p = ROk rs) <-> forall x, In x p -> symbol_word t (m_id x) <> None.
    Proof.
      intros RT NB CW GT. unfold poly_rows. rewrite rows_all. rewrite Forall_forall in GT. split; intros H x I; specialize (H x I); pose proof (poly_row_spec t symbols x RT NB CW (GT x I)) as K.
      - destruct H as [r H]. rewrite H in K. tauto.
      - destruct (poly_row c symbols t x) as [r|e]; [now exists r|]. tauto.
    Qed.
    Lemma poly_rows_spec t symbols (p : list (mono R)) rs : reachable c V t -> numbered t -> clean_words c t -> Forall (good_term t) p -> poly_rows c symbols t p = ROk rs ->
      Forall2 (fun x r => row_of E t symbols x r /\ r_alias r = (if symbols && cx_alias c then Some false else None)) p rs /\ forall v, agrees E t v -> rows_value E rs = value v p.
    Proof.
      intros RT NB CW GT H. apply rows_iff in H. rewrite Forall_forall in GT. assert (F : Forall2 (fun x r => row_of E t symbols x r /\ r_alias r = (if symbols && cx_alias c then Some false else None)) p rs).
      { revert H. apply F2_mono. intros x r I K. pose proof (poly_row_spec t symbols x RT NB CW (GT x I)) as S. rewrite K in S. tauto. }
      split; [exact F|]. intros v AG. unfold value. apply (rows_sum (term_value v)). revert F. apply F2_mono. intros x r _ [(_ & _ & _ & K) _]. now apply K.
    Qed.
    Lemma poly_rows_err t symbols (p : list (mono R)) e : reachable c V t -> numbered t -> clean_words c t -> Forall (good_term t) p -> poly_rows c symbols t p = RErr e ->
      exists j x, nth_error p j = Some x /\ symbol_word t (m_id x) = None /\ e = (if m_id x <? length (t_syms t) then RNoWordAt 1 else RUnknownAt 1) /\ forall i y, i < j -> nth_error p i = Some y -> symbol_word t (m_id y) <> None.
    Proof.
      intros RT NB CW GT H. apply rows_err in H. rewrite Forall_forall in GT. destruct H as (j & x & N & F & K). exists j, x. split; [exact N|]. pose proof (poly_row_spec t symbols x RT NB CW (GT x (nth_error_In _ _ N))) as S. rewrite F in S.
      destruct S as [S1 S2]. split; [exact S1|]. split; [exact S2|]. intros i y L M. destruct (K i y L M) as [r G]. pose proof (poly_row_spec t symbols y RT NB CW (GT y (nth_error_In _ _ M))) as T. rewrite G in T. tauto.
    Qed.
    Lemma single_row_spec t full (p : list (mono R)) : reachable c V t -> numbered t -> clean_words c t -> Forall (good_term t) p -> length p <= 1 -> (forall x, In x p -> symbol_word t (m_id x) <> None) ->
      exists r, single_row full t p = ROk r /\ from_1 r /\ (r_info r = None <-> full = false) /\ forall v, agrees E t v -> row_value E r = value v p /\ consistent E v r.
    Proof.
      intros RT NB CW GT LE WD. set (x := last p (mk_mono 0 false c0)). assert (X : symbol_word t (m_id x) <> None /\ good_term t x /\ forall v, term_value v x = value v p).
      { destruct p as [|y [|? ?]]; [|inversion GT; subst|cbn in LE; lia]; cbn [last] in x; subst x; (split; [|split]).
        - cbn [m_id]. rewrite (hi_zero c V t (reachable_hinv c V LW t RT)). discriminate.
        - split; intros _; reflexivity.
        - intro v. unfold term_value. cbn [m_f m_cj m_id value fold_right]. ring.
        - apply WD. now left.
        - assumption.
        - intro v. cbn [value fold_right]. ring. }
      destruct X as (X1 & X2 & X3). unfold symbol_word in X1. destruct (nth_error (t_syms t) (m_id x)) as [s|] eqn:N; [|easy]. destruct (sy_seq s) as [w|] eqn:Q; [|easy]. unfold good_term, herm, anti, sym_of in X2. rewrite (nth_error_nth _ _ _ N) in X2.
      destruct (stored_spec t (m_id x) s w (m_cj x) RT CW N Q (proj1 X2) (proj2 X2)) as (q & S1 & _ & _ & S2). destruct (term_rows t full x s w q None NB N Q S2) as (T1 & T2 & T3 & T4).
      eexists. split; [unfold single_row, mono_row; fold x; rewrite N, S1; reflexivity|]. split; [exact T1|]. split; [destruct full; cbn [r_info]; split; (discriminate || reflexivity)|]. intros v AG. split; [rewrite (T4 v AG); apply X3|].
      intros i J. rewrite (T4 v AG). destruct full; [|discriminate]. cbn [r_info] in J. injection J as <-. cbn [info_of i_id i_cj r_coef]. unfold term_value. reflexivity.
    Qed.
    Lemma lookup_row_spec t q : reachable c V t -> numbered t -> V q -> exists w, lookup_row c t q = ROk w /\ w_symbol w = lk_symbol (where_ c t q) /\ w_alias w = (if cx_alias c then Some (match w_symbol w with Some _ => lk_alias (where_ c t q) | None => false end) else None) /\
      (w_symbol w = None -> w_re w = 0 /\ w_im w = 0 /\ w_cj w = Some false) /\
      forall id, w_symbol w = Some id -> exists cj, w_cj w = Some cj /\ w_herm w = herm t id /\ in_basis (t_real t) id (w_re w) /\ in_basis (t_imag t) id (w_im w) /\ symbol_value E t id cj = Some (E (pos q)).
    Proof.
      intros RT NB Vq. unfold lookup_row. destruct (lk_symbol (where_ c t q)) as [id|] eqn:K.
      - destruct (where_exists t q id RT Vq K) as (s & N & I). rewrite N. eexists. split; [reflexivity|]. cbn [symbol_row w_symbol w_alias w_cj w_re w_im w_herm]. rewrite I. split; [reflexivity|]. split; [reflexivity|]. split; [discriminate|].
        intros j J. injection J as <-. exists (lk_conj (where_ c t q)). split; [reflexivity|]. split; [unfold herm, sym_of; now rewrite (nth_error_nth _ _ _ N)|]. split; [apply basis_of; intro k; exact (nb_re t NB _ s k N)|]. split; [apply basis_of; intro k; exact (nb_im t NB _ s k N)|].
        now apply (where_value c V LW R E t q id RT Vq EX UC).
      - eexists. split; [reflexivity|]. cbn [w_symbol w_alias w_re w_im w_cj]. split; [reflexivity|]. split; [reflexivity|]. split; [auto|discriminate].
    Qed.
    Lemma clean_of t : unsigned_conj c V -> real_phases c t -> reachable c V t -> plain_words t -> flagged c t -> clean_words c t.
    Proof.
      intros U RP RT PW FL. split; [exact PW|]. intros id s w N Q SH SA. assert (W : symbol_word t (S id) = Some w) by (unfold symbol_word; now rewrite N). destruct (hi_seq c V t (reachable_hinv c V LW t RT) _ w W) as [Vw _]. pose proof (PW _ w W) as SW.
      destruct (U w Vw) as [X|X]; [now rewrite (pos_same w SW) in X|]. exfalso. destruct (FL id s w N Q) as [FH FA]. destruct (RP _ w W X) as [K|K]; [apply FH in K|apply FA in K]; congruence.
    Qed.
  End Values.
End Tables.
