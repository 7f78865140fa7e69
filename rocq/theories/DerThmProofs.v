(** The processor, the average of a group, monomial maps, refusals. *)
From Coq Require Import List Arith NArith ZArith Bool Sorted Permutation Lia Field_theory Ring.
From Verif Require Import CoreModel FieldModel FieldProofs SymModel SymSpec PolyModel PolySpec PolyProofs PolyOpsProofs PolyTableProofs PolyFinalProofs ParModel ParProofs DerModel DerSpec DerCoreProofs DerProofs DerFinalProofs.
Import ListNotations.

Section Thm.
  Context {R : rfield}.
  Add Ring Rr3 : (F_R (r_field R)).
  Add Ring Cr3 : (cx_ring R).
  Notation mono := (mono R).

  Lemma lu_factors lu (c : mapcore R) : length (mc_core c) = length (mc_cols c) -> lu_contract lu (mc_core c) (length (mc_rows c)) -> exists s, lu_process lu c = Some s /\ factors c s.
  Proof.
    intros L H. unfold lu_process. destruct (Nat.eqb_spec (length (mc_rows c)) 0) as [Z|Z]; cbn [orb].
    - eexists. split; [reflexivity|]. split; [reflexivity|]. split; [reflexivity|]. intros a b La Lb. lia.
    - destruct (Nat.eqb_spec (length (mc_cols c)) 0) as [Z'|Z'].
      + eexists. split; [reflexivity|]. split; [reflexivity|]. split; [reflexivity|]. intros a b La Lb. lia.
      + unfold lu_contract in H. destruct (lu (mc_core c)) as [[[rank m] p] q]. eexists. split; [reflexivity|]. split; [|split; [reflexivity|]].
        * unfold check_solution. cbn [so_dense so_map so_inv so_out x_rows x_cols]. now rewrite !Nat.eqb_refl.
        * intros a b La Lb. cbn [so_map so_inv so_out x_at]. unfold lower, upper. apply H; [now rewrite L|exact Lb].
  Qed.
  (** sums *)
  Lemma rsum_ext n (f g : nat -> R) : (forall i, i < n -> f i = g i) -> rsum n f = rsum n g.
  Proof. intros H. unfold rsum. assert (K : forall i, In i (seq 0 n) -> f i = g i) by (intros i I; apply in_seq in I; apply H; lia). induction (seq 0 n) as [|i l IH]; [reflexivity|]. cbn [fold_right]. rewrite (K i (or_introl eq_refl)), IH by (intros j J; apply K; now right). reflexivity. Qed.
  Lemma image_dense n (M : nat -> nat -> R) t v c : image (Dense n n M) t v c = lsum (seq 0 n) (fun r => cmul (creal (M r c)) (word_value t v r)).
  Proof. reflexivity. Qed.
  Lemma creal_add (a b : R) : creal (radd R a b) = cadd (creal a) (creal b).
  Proof. unfold creal, cadd. cbn [cre cim]. f_equal. ring. Qed.
  Lemma csum_perm {A} (l l' : list A) (f : A -> cx R) : Permutation l l' -> csum l f = csum l' f.
  Proof. unfold csum. induction 1; cbn [fold_right]; [reflexivity|now rewrite IHPermutation|ring|congruence]. Qed.
  Lemma average_value (inv : R) (mats : list (nat -> nat -> R)) n t v c : image (Dense n n (average inv mats)) t v c = cmul (creal inv) (csum mats (fun d => image (Dense n n d) t v c)).
  Proof.
    rewrite image_dense. unfold average. rewrite (lsum_ext _ _ (fun r => cmul (creal inv) (cmul (creal (fold_right (fun d s => radd R (d r c) s) (r0 R) mats)) (word_value t v r)))) by (intros; rewrite creal_mul; ring). rewrite lsum_scale. f_equal. unfold csum. induction mats as [|d mats IH]; cbn [fold_right].
    - apply lsum_zero. intros. rewrite creal_0. ring.
    - rewrite <- IH, image_dense, <- lsum_add. apply lsum_ext. intros r _. rewrite creal_add. ring.
  Qed.
  Lemma image_product n (e d : nat -> nat -> R) t v c : lsum (seq 0 n) (fun r => cmul (creal (d r c)) (image (Dense n n e) t v r)) = lsum (seq 0 n) (fun q => cmul (creal (product n e d q c)) (word_value t v q)).
  Proof.
    rewrite (lsum_ext _ _ (fun r => lsum (seq 0 n) (fun q => cmul (cmul (creal (d r c)) (creal (e q r))) (word_value t v q)))).
    2:{ intros r _. rewrite image_dense, <- lsum_scale. apply lsum_ext. intros. ring. }
    rewrite lsum_swap. apply lsum_ext. intros q _. unfold product. rewrite creal_rsum. rewrite (lsum_ext _ _ (fun k => cmul (word_value t v q) (creal (rmul R (e q k) (d k c))))) by (intros; rewrite creal_mul; ring). rewrite lsum_scale. ring.
  Qed.
  Lemma average_fixed (inv : R) (mats : list (nat -> nat -> R)) n t v d c : permuted_by n mats d -> c < n ->
    lsum (seq 0 n) (fun r => cmul (creal (d r c)) (image (Dense n n (average inv mats)) t v r)) = image (Dense n n (average inv mats)) t v c.
  Proof.
    intros [mats' [P F]] Lc. rewrite average_value, (csum_perm _ _ _ P). rewrite (lsum_ext _ _ (fun r => cmul (creal inv) (cmul (creal (d r c)) (csum mats (fun e => image (Dense n n e) t v r))))) by (intros; rewrite average_value; ring). rewrite lsum_scale. f_equal. clear P. unfold csum. induction F as [|e f mats mats' H F IH]; cbn [fold_right].
    - apply lsum_zero. intros. ring.
    - rewrite <- IH. rewrite (lsum_ext _ _ (fun r => cadd (cmul (creal (d r c)) (image (Dense n n e) t v r)) (cmul (creal (d r c)) (fold_right (fun d0 s => cadd (image (Dense n n d0) t v r) s) c0 mats)))) by (intros; ring). rewrite lsum_add. f_equal.
      rewrite image_product, image_dense. apply lsum_ext. intros q I. apply in_seq in I. now rewrite H by lia.
  Qed.
  (** monomial maps *)
  Lemma forallb_nth (f : list mono -> bool) l i p : forallb f l = true -> nth_error l i = Some p -> f p = true.
  Proof. intros H E. rewrite forallb_forall in H. apply H. eapply nth_error_In, E. Qed.
  Lemma conj_length t (p : list mono) : length p <= 1 -> length (conjugate_poly t p) <= 1.
  Proof. destruct p as [|a [|b p]]; cbn [length]; intros L; [cbn; lia| |lia]. unfold conjugate_poly. change (Nat.ltb 1 (length [a])) with false. rewrite andb_false_r. cbn. lia. Qed.
  Lemma monomial_value (m : symmap R) w x p : forallb is_monomial (s_map m) = s_mono m -> w 0 = c0 -> s_mono m = true -> apply_mono m x = Some p ->
    exists y, apply_monomial m x = Some y /\ term_value w y = value w p.
  Proof.
    intros E W M A. unfold apply_monomial. rewrite M, A. assert (L : length p <= 1).
    { unfold apply_mono in A. destruct (apply_id m (m_id x)) as [p0|] eqn:E0; [|discriminate]. injection A as <-. rewrite M in E. pose proof (forallb_nth _ _ _ _ E E0) as K. unfold is_monomial in K. apply Nat.leb_le in K. assert (K' : length (scale (m_f x) p0) <= 1) by (unfold scale; repeat match goal with |- context[if ?b then _ else _] => destruct b end; rewrite ?map_length; cbn [length]; lia).
      destruct (m_cj x); [now apply conj_length|exact K']. }
    destruct p as [|a [|b p]]; cbn [length mono_of_poly] in *; [| |lia].
    - eexists. split; [reflexivity|]. unfold term_value. cbn [m_f m_cj m_id value fold_right]. rewrite W. ring.
    - exists a. split; [reflexivity|]. rewrite value_cons. unfold value. cbn [fold_right]. ring.
  Qed.
  Lemma map_monomial positive srt solve t x (m : symmap R) : make_map positive srt solve t table_start x = MBuilt m -> forallb is_monomial (s_map m) = s_mono m.
  Proof.
    unfold make_map. intros H. repeat match type of H with match ?e with _ => _ end = _ => destruct e; try discriminate | (if ?e then _ else _) = _ => destruct e; try discriminate | (let '(_, _) := ?e in _) = _ => destruct e end.
    all: repeat match type of H with match ?e with _ => _ end = _ => destruct e; try discriminate | (if ?e then _ else _) = _ => destruct e; try discriminate | (let '(_, _) := ?e in _) = _ => destruct e end. injection H as <-. reflexivity.
  Qed.
  (** refusals *)
  Lemma refuses_words positive srt solve t target (x : input R) i : i < in_cols x -> map_index t i = None -> make_map positive srt solve t target x = MThrow.
  Proof.
    intros L E. unfold make_map. assert (K : unzip_indices t (seq 0 (in_cols x)) = None); [|now rewrite K]. assert (I : In i (seq 0 (in_cols x))) by (apply in_seq; lia). induction (seq 0 (in_cols x)) as [|j l IH]; [destruct I|]. cbn [unzip_indices]. destruct I as [->|I]; [now rewrite E|]. rewrite (IH I). now destruct (map_index t j) as [[]|].
  Qed.
  Lemma refuses_target positive srt solve t target (x : input R) m : length (t_syms target) <> 2 -> make_map positive srt solve t target x <> MBuilt m.
  Proof.
    intros L H. unfold make_map in H. apply Nat.eqb_neq in L. repeat match type of H with match ?e with _ => _ end = _ => destruct e eqn:?; try discriminate end.
  Qed.
  Lemma non_constant_true rows (M : nat -> nat -> R) c r : 1 <= r -> r < rows -> M r c <> r0 R -> non_constant rows M c = true.
  Proof. intros A B N. unfold non_constant. apply existsb_exists. exists r. split; [apply in_seq; lia|]. unfold nz. apply negb_true_iff. destruct (r_eqb R (M r c) (r0 R)) eqn:E; [|reflexivity]. apply r_eqb_spec in E. contradiction. Qed.
  Lemma refuses_first positive srt solve t target (x : input R) r : well_formed x -> indexed t (in_cols x) -> r < in_rows x -> entry x r 0 <> (if Nat.eqb r 0 then r1 R else r0 R) -> make_map positive srt solve t target x = MThrow.
  Proof.
    intros WF [_ IX] L N. unfold make_map. destruct (unzip_spec t (seq 0 (in_cols x))) as [osg [-> _]]; [intros i I; apply in_seq in I; destruct (IX i ltac:(lia)) as [id [cj [E _]]]; eauto|].
    match goal with |- context[core_of positive ?f x] => set (sk := f) end. assert (E : core_of positive sk x = Some None); [|now rewrite E]. destruct x as [rows cols M|rows columns]; cbn [core_of in_rows in_cols entry] in *.
    - unfold dense_core. destruct (Nat.ltb cols 1 || Nat.ltb rows 1); [reflexivity|]. destruct (Nat.eqb_spec r 0) as [->|Nr].
      + destruct (r_eqb R (M 0 0) (r1 R)) eqn:E; [apply r_eqb_spec in E; contradiction|reflexivity].
      + destruct (negb (r_eqb R (M 0 0) (r1 R))); [reflexivity|]. rewrite (non_constant_true rows M 0 r) by (auto; lia). reflexivity.
    - unfold sparse_core. destruct (Nat.ltb (length columns) 1 || Nat.ltb rows 1); [reflexivity|]. destruct WF as [W _]. rewrite W. cbn [Nat.eqb negb orb]. destruct (r_eqb R (coeff (nth 0 columns []) 0) (r1 R)) eqn:E; [|reflexivity]. exfalso. apply r_eqb_spec in E.
      destruct (nth 0 columns []) as [|[k z] [|? ?]]; try discriminate. unfold coeff in *. cbn [find fst snd] in *. destruct (Nat.eqb_spec k 0) as [->|Nk].
      + destruct (Nat.eqb_spec r 0) as [->|Nr]; [cbn in N; contradiction|]. apply N. destruct (Nat.eqb_spec 0 r); [lia|reflexivity].
      + apply (F_1_neq_0 (r_field R)). now symmetry.
  Qed.
End Thm.
