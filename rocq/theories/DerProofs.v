(** The map of a derived matrix system gives the images under the matrix. *)
From Coq Require Import List Arith NArith ZArith Bool Sorted Permutation Lia Field_theory Ring.
From Verif Require Import CoreModel FieldModel FieldProofs SymModel SymSpec PolyModel PolySpec PolyProofs PolyOpsProofs PolyTableProofs PolyFinalProofs ParModel ParProofs DerModel DerSpec DerCoreProofs.
Import ListNotations.

Section Der.
  Context {R : rfield}.
  Add Ring Rr : (F_R (r_field R)).
  Add Ring Cr : (cx_ring R).
  Notation mono := (mono R).
  (** sums *)
  Lemma lsum_ext l (f g : nat -> cx R) : (forall i, In i l -> f i = g i) -> lsum l f = lsum l g.
  Proof. induction l as [|i l IH]; intros H; [reflexivity|]. change (cadd (f i) (lsum l f) = cadd (g i) (lsum l g)). rewrite IH by (intros; apply H; now right). now rewrite (H i (or_introl eq_refl)). Qed.
  Lemma lsum_cons i l (f : nat -> cx R) : lsum (i :: l) f = cadd (f i) (lsum l f). Proof. reflexivity. Qed.
  Lemma lsum_scale l z (f : nat -> cx R) : lsum l (fun i => cmul z (f i)) = cmul z (lsum l f).
  Proof. induction l as [|i l IH]; [unfold lsum; cbn [fold_right]; ring|]. rewrite !lsum_cons, IH. ring. Qed.
  Lemma lsum_add l (f g : nat -> cx R) : lsum l (fun i => cadd (f i) (g i)) = cadd (lsum l f) (lsum l g).
  Proof. induction l as [|i l IH]; [unfold lsum; cbn [fold_right]; ring|]. rewrite !lsum_cons, IH. ring. Qed.
  Lemma lsum_zero l (f : nat -> cx R) : (forall i, In i l -> f i = c0) -> lsum l f = c0.
  Proof. induction l as [|i l IH]; intros H; [reflexivity|]. rewrite lsum_cons, (H i (or_introl eq_refl)), IH by (intros; apply H; now right). ring. Qed.
  Lemma lsum_swap l k (f : nat -> nat -> cx R) : lsum l (fun i => lsum k (f i)) = lsum k (fun j => lsum l (fun i => f i j)).
  Proof.
    induction l as [|i l IH]; [symmetry; now apply lsum_zero|]. rewrite lsum_cons, IH, <- lsum_add. reflexivity.
  Qed.
  Lemma lsum_filter p l (f : nat -> cx R) : (forall i, In i l -> p i = false -> f i = c0) -> lsum (filter p l) f = lsum l f.
  Proof.
    induction l as [|i l IH]; intros H; [reflexivity|]. cbn [filter]. specialize (IH (fun j I => H j (or_intror I))). destruct (p i) eqn:P; rewrite !lsum_cons, IH; [reflexivity|]. rewrite (H i (or_introl eq_refl) P). ring.
  Qed.
  Lemma lsum_nth l d (f : nat -> cx R) : lsum l f = lsum (seq 0 (length l)) (fun b => f (nth b l d)).
  Proof.
    induction l as [|i l IH]; [reflexivity|]. cbn [length seq]. rewrite !lsum_cons. cbn [nth]. f_equal. rewrite IH. rewrite <- seq_shift. unfold lsum. clear. induction (seq 0 (length l)) as [|j s IH]; [reflexivity|]. cbn [map fold_right]. now rewrite IH.
  Qed.
  Lemma creal_rsum n (f : nat -> R) : creal (rsum n f) = lsum (seq 0 n) (fun k => creal (f k)).
  Proof.
    unfold rsum, lsum. induction (seq 0 n) as [|k l IH]; [reflexivity|]. cbn [fold_right]. rewrite <- IH. unfold creal, cadd. cbn [cre cim]. f_equal. ring.
  Qed.
  Lemma creal_mul (a b : R) : creal (rmul R a b) = cmul (creal a) (creal b).
  Proof. unfold creal, cmul. cbn [cre cim]. f_equal; ring. Qed.
  Lemma creal_0 : creal (r0 R) = c0. Proof. reflexivity. Qed.
  Lemma creal_1 : creal (r1 R) = c1. Proof. reflexivity. Qed.
  Lemma nz_true (x : R) : nz x = true -> creal x <> c0.
  Proof. intros H E. injection E as E. apply nz_false in E. congruence. Qed.

  (** a polynomial that passes the Hermiticity check has real values *)
  Lemma cim_add (x y : cx R) : cim (cadd x y) = radd R (cim x) (cim y). Proof. reflexivity. Qed.
  Lemma herm_scan_real t v : assignment t v -> forall (p : list mono) last, Forall (in_table t) p ->
    match last with Some y => in_table t y /\ m_cj y = false | None => True end -> herm_scan t last p = true ->
    cim (cadd (match last with Some y => term_value v y | None => c0 end) (value v p)) = r0 R.
  Proof.
    intros A. assert (Sy : forall x : mono, in_table t x -> nth_error (t_syms t) (m_id x) = Some (sym_of t (m_id x))) by (intros x I; apply nth_error_nth'; exact I).
    induction p as [|x p IH]; intros last F L H.
    - destruct last; [discriminate|]. rewrite cim_add. cbn. ring.
    - inversion F as [|? ? Fx Fp]; subst. rewrite value_cons. cbn [herm_scan] in H. destruct (is_zero (m_f x)) eqn:Z.
      { assert (m_f x = c0) by (unfold is_zero, ceqb in Z; apply andb_true_iff in Z; destruct Z as [Z1 Z2]; apply r_eqb_spec in Z1, Z2; destruct (m_f x); cbn in *; subst; reflexivity).
        replace (term_value v x) with (@c0 R); [|unfold term_value; rewrite H0; ring]. specialize (IH last Fp L H). rewrite !cim_add in *. cbn [cim c0] in *. match type of IH with ?a = _ => transitivity a; [ring|exact IH] end. }
      destruct (herm t (m_id x)) eqn:Hh.
      { destruct last; [discriminate|]. apply andb_true_iff in H. destruct H as [H1 H2]. apply r_eqb_spec in H1. specialize (IH None Fp Logic.I H2). rewrite !cim_add in *. cbn [cim c0] in *.
        assert (X : cim (term_value v x) = r0 R). { pose proof (as_herm t v A _ _ (Sy x Fx) Hh) as Re. unfold term_value. destruct (m_cj x); unfold cmul, cconj; cbn [cim cre]; rewrite Re, H1; ring. } rewrite X. match type of IH with ?a = _ => transitivity a; [ring|exact IH] end. }
      destruct (anti t (m_id x)) eqn:Ha.
      { destruct last; [discriminate|]. apply andb_true_iff in H. destruct H as [H1 H2]. apply r_eqb_spec in H1. specialize (IH None Fp Logic.I H2). rewrite !cim_add in *. cbn [cim c0] in *.
        assert (X : cim (term_value v x) = r0 R). { pose proof (as_anti t v A _ _ (Sy x Fx) Ha) as Re. unfold term_value. destruct (m_cj x); unfold cmul, cconj; cbn [cim cre]; rewrite Re, H1; ring. } rewrite X. match type of IH with ?a = _ => transitivity a; [ring|exact IH] end. }
      destruct (m_cj x) eqn:Hc.
      { destruct last as [y|]; [|discriminate]. apply andb_true_iff in H. destruct H as [H1 H]. apply andb_true_iff in H. destruct H as [H2 H]. apply Nat.eqb_eq in H1. unfold ceqb in H2. apply andb_true_iff in H2. destruct H2 as [H2 H3]. apply r_eqb_spec in H2, H3. specialize (IH None Fp Logic.I H). rewrite !cim_add in *. cbn [cim c0] in IH.
        unfold term_value. rewrite Hc, H1. destruct L as [_ ->]. unfold cmul, cconj in *. cbn [cim cre] in *. rewrite H2, H3. replace (cim (value v p)) with (r0 R); [ring|]. symmetry. match type of IH with ?a = _ => transitivity a; [ring|exact IH] end. }
      destruct last; [discriminate|]. specialize (IH (Some x) Fp (conj Fx Hc) H). rewrite !cim_add in *. cbn [cim c0]. match type of IH with ?a = _ => transitivity a; [ring|exact IH] end.
  Qed.
  Lemma is_hermitian_real t v (p : list mono) : assignment t v -> Forall (in_table t) p -> is_hermitian t p = true -> cim (value v p) = r0 R.
  Proof. intros A F H. pose proof (herm_scan_real t v A p None F Logic.I H) as X. rewrite cim_add in X. cbn [cim c0] in X. match type of X with ?a = _ => transitivity a; [ring|exact X] end. Qed.

  (** the new symbols *)
  Lemma populate_syms t : forall (l : list (list mono)) target, length (t_syms (populate t target l)) = length (t_syms target) + length l /\
    (forall i s, nth_error (t_syms target) i = Some s -> nth_error (t_syms (populate t target l)) i = Some s) /\
    forall k p, nth_error l k = Some p -> exists s, nth_error (t_syms (populate t target l)) (length (t_syms target) + k) = Some s /\ sy_herm s = is_hermitian t p /\ sy_anti s = false.
  Proof.
    induction l as [|p l IH]; intros target; cbn [populate].
    - split; [cbn; lia|]. split; [auto|]. intros [|k] q H; discriminate.
    - set (tg := fst (create target true (negb (is_hermitian t p)))). assert (E : exists s, t_syms tg = t_syms target ++ [s] /\ sy_herm s = is_hermitian t p /\ sy_anti s = false).
      { unfold tg, create. destruct (basis_push target (length (t_syms target)) true (negb (is_hermitian t p))) as [[t1 re] im] eqn:B. eexists. cbn [fst push_symbol t_syms sy_herm sy_anti]. unfold basis_push in B. injection B as <- _ _. cbn [t_syms]. split; [reflexivity|]. cbn. split; [apply negb_involutive|reflexivity]. }
      destruct E as [s [E [E1 E2]]]. destruct (IH tg) as [I1 [I2 I3]]. rewrite E, app_length in I1. cbn [length] in *. split; [lia|]. split.
      + intros i s' H. apply I2. rewrite E. rewrite nth_error_app1 by (apply nth_error_Some; congruence). exact H.
      + intros [|k] q H.
        * injection H as <-. exists s. split; [|now split]. apply I2. rewrite E, Nat.add_0_r, nth_error_app2, Nat.sub_diag by lia. reflexivity.
        * destruct (I3 k q H) as [s' [X Y]]. exists s'. split; [|exact Y]. rewrite E, app_length in X. cbn [length] in X. replace (length (t_syms target) + S k) with (length (t_syms target) + 1 + k) by lia. exact X.
  Qed.
  (** entries of the map *)
  Lemma put_all_spec : forall l (m : list (list mono)), Forall (fun x => fst x < length m) l -> exists m', put_all l m = Some m' /\ length m' = length m /\
    forall id (P : list mono -> Prop), (forall p, In (id, p) l -> P p) -> ((exists p, In (id, p) l) \/ exists p, nth_error m id = Some p /\ P p) -> exists p, nth_error m' id = Some p /\ P p.
  Proof.
    induction l as [|[id p] l IH]; intros m F; cbn [put_all].
    - exists m. split; [reflexivity|]. split; [reflexivity|]. intros i P _ [[q []]|H]. exact H.
    - inversion F as [|? ? F1 F2]; subst. cbn [fst] in F1. unfold put_at. assert (Q : Nat.ltb id (length m) = true) by (now apply Nat.ltb_lt). rewrite Q. destruct (IH (set_at id p m)) as [m' [E [L H]]]; [now rewrite set_at_length|]. exists m'. split; [exact E|]. rewrite set_at_length in L. split; [exact L|].
      intros i P All Some_. apply H; [intros q I; apply All; now right|]. destruct (Nat.eq_dec i id) as [->|N].
      + right. exists p. split; [|apply All; now left]. rewrite set_at_nth, Nat.eqb_refl. destruct (nth_error m id) eqn:X; [reflexivity|apply nth_error_None in X; lia].
      + destruct Some_ as [[q [X|X]]|[q [X Y]]]; [injection X; congruence|left; now exists q|]. right. exists q. split; [|exact Y]. rewrite set_at_nth. destruct (Nat.eqb_spec i id); [contradiction|]. exact X.
  Qed.
  Lemma unzip_spec t : forall idx, (forall i, In i idx -> exists x, map_index t i = Some x) -> exists osg, unzip_indices t idx = Some osg /\ length osg = length idx /\ forall k i, nth_error idx k = Some i -> nth_error osg k = map_index t i.
  Proof.
    induction idx as [|i idx IH]; intros H; cbn [unzip_indices].
    - exists []. repeat split. intros [|k] i E; discriminate.
    - destruct (H i (or_introl eq_refl)) as [x E]. rewrite E. destruct IH as [osg [E1 [E2 E3]]]; [intros; apply H; now right|]. rewrite E1. exists (x :: osg). split; [reflexivity|]. split; [cbn; now rewrite E2|]. intros [|k] j Ek; cbn [nth_error] in *; [injection Ek as <-; now rewrite E|now apply E3].
  Qed.
  Lemma value_single v id (z : cx R) : value v [mk_mono id false z] = cmul z (v id).
  Proof. rewrite value_cons. unfold term_value. cbn [m_f m_cj m_id]. unfold value. cbn [fold_right]. ring. Qed.
  Lemma row_terms_value v o (m : matrix R) k : v 1 = c1 -> value v (row_terms o m k) = cadd (creal o) (lsum (seq 0 (x_cols m)) (fun j => cmul (creal (x_at m k j)) (v (j + 2)))).
  Proof.
    intros V1. unfold row_terms. rewrite value_app. f_equal.
    - destruct (nz o) eqn:Z; [rewrite value_single, V1; ring|]. apply nz_false in Z. now subst.
    - induction (seq 0 (x_cols m)) as [|j l IH]; [reflexivity|]. cbn [flat_map]. rewrite value_app, IH, lsum_cons. f_equal. destruct (nz (x_at m k j)) eqn:Z; [apply value_single|]. apply nz_false in Z. rewrite Z, creal_0. unfold value. cbn [fold_right]. ring.
  Qed.
  Lemma row_terms_in o (m : matrix R) k x : In x (row_terms o m k) -> m_cj x = false /\ 1 <= m_id x /\ m_id x < 2 + x_cols m.
  Proof.
    unfold row_terms. rewrite in_app_iff. intros [I|I].
    - destruct (nz o); [|destruct I]. destruct I as [<-|[]]. cbn. lia.
    - apply in_flat_map in I. destruct I as [j [J I]]. apply in_seq in J. destruct (nz (x_at m k j)); [|destruct I]. destruct I as [<-|[]]. cbn. lia.
  Qed.
  Lemma inv_terms_spec t v osg (m : matrix R) i n : (forall r, r < n -> nth_error osg r = map_index t r /\ exists id cj, map_index t r = Some (id, cj) /\ id < length (t_syms t)) ->
    forall rs col, Forall (fun r => r < n) rs -> exists l, inv_terms osg m i rs col = Some l /\ Forall (in_table t) l /\
      value v l = lsum (seq 0 (length rs)) (fun b => cmul (creal (x_at m i (b + col))) (word_value t v (nth b rs 0))).
  Proof.
    intros Ho. induction rs as [|r rs IH]; intros col F; cbn [inv_terms].
    - exists []. repeat split. constructor.
    - inversion F as [|? ? Fr F2]; subst. destruct (IH (S col) F2) as [l [E [Fl V]]]. rewrite E. destruct (Ho r Fr) as [Er [id [cj [Em Hid]]]].
      assert (Sh : lsum (seq 0 (length (r :: rs))) (fun b => cmul (creal (x_at m i (b + col))) (word_value t v (nth b (r :: rs) 0))) = cadd (cmul (creal (x_at m i col)) (word_value t v r)) (value v l)).
      { cbn [length seq]. rewrite lsum_cons. cbn [nth plus]. f_equal. rewrite V, <- seq_shift. unfold lsum. clear. induction (seq 0 (length rs)) as [|j s IHs]; [reflexivity|]. cbn [map fold_right]. rewrite IHs. do 4 f_equal. cbn [nth]. rewrite Nat.add_succ_r. reflexivity. }
      rewrite Sh. destruct (nz (x_at m i col)) eqn:Z.
      + rewrite Er, Em. eexists. split; [reflexivity|]. split; [constructor; assumption|]. rewrite value_cons. f_equal. unfold word_value, term_value. rewrite Em. cbn [m_f m_cj m_id]. now destruct cj.
      + exists l. split; [reflexivity|]. split; [exact Fl|]. apply nz_false in Z. rewrite Z, creal_0. ring.
  Qed.
  Lemma inv_all_spec t v srt osg (m : matrix R) rs n : (forall s, sorts s id_less srt) -> assignment t v -> (forall r, r < n -> nth_error osg r = map_index t r /\ exists id cj, map_index t r = Some (id, cj) /\ id < length (t_syms t)) -> Forall (fun r => r < n) rs ->
    forall is_, exists q, inv_all srt osg m rs is_ = Some q /\ length q = length is_ /\ Forall (Forall (in_table t)) q /\
      forall k i, nth_error is_ k = Some i -> value v (nth k q []) = lsum (seq 0 (length rs)) (fun b => cmul (creal (x_at m i b)) (word_value t v (nth b rs 0))).
  Proof.
    intros HS A Ho F. induction is_ as [|i is_ IH]; cbn [inv_all].
    - exists []. repeat split; [constructor|]. intros [|k] i E; discriminate.
    - destruct (inv_terms_spec t v osg m i n Ho rs 0 F) as [l [E [Fl V]]]. destruct IH as [q [E2 [L [Fq Vq]]]]. rewrite E, E2. eexists. split; [reflexivity|]. split; [cbn; now rewrite L|]. split.
      + constructor; [|exact Fq]. apply Forall_forall. intros z I. destruct (tidy_in R t id_less srt (HS t) l z Fl I) as [y [J S]]. rewrite Forall_forall in Fl. specialize (Fl y J). unfold same_term in S. apply andb_true_iff in S. destruct S as [S _]. apply Nat.eqb_eq in S. unfold in_table in *. now rewrite S.
      + intros [|k] j Ek; cbn [nth_error nth] in *; [|now apply Vq]. injection Ek as <-. unfold make_plain. rewrite (tidy_value R t id_less srt (HS t) v l (as_zero t v A) Fl), V. apply lsum_ext. intros b _. now rewrite Nat.add_0_r.
  Qed.
  Lemma plain_canonical tg srt (l : list mono) : (forall s, sorts s id_less srt) -> (forall x, In x l -> m_cj x = false /\ m_id x < length (t_syms tg)) -> canonical tg id_less (make_plain srt l).
  Proof.
    intros HS H. assert (F : Forall (in_table tg) l) by (apply Forall_forall; intros x I; apply (H x I)). constructor.
    - apply (tidy_sorted R tg id_less (id_less_order R tg) srt (HS tg) l F).
    - intros x I. destruct (tidy_nonzero R srt l x I) as [N1 N2]. destruct (tidy_in R tg id_less srt (HS tg) l x F I) as [y [J S]]. destruct (H y J) as [H1 H2]. unfold same_term in S. apply andb_true_iff in S. destruct S as [S1 S2]. apply Nat.eqb_eq in S1. apply eqb_prop in S2. rewrite S1 in N2. unfold in_table. rewrite S1, S2. split; [exact H2|]. split; [exact N1|]. split; [exact N2|]. intros _. exact H1.
  Qed.
End Der.
