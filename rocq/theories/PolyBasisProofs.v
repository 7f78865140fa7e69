(** Proofs about polynomials as basis vectors. *)
From Coq Require Import List NArith ZArith Arith Bool Sorted Permutation Lia Ring Field.
From Verif Require Import CoreModel FieldModel FieldProofs SymModel SymSpec PolyModel PolySpec PolyProofs PolyOpsProofs PolyBasisModel.
Import ListNotations.

Section Basis.
  Variable R : rfield.
  Add Field Rf : (r_field R).
  Add Field Cf : (cx_field R).
  Notation mono := (mono R).
  Variable t : table.
  Variable lt : mono -> mono -> bool.
  Hypothesis HO : term_order t lt.
  Hypothesis NB : numbered t.
  Hypothesis IDS : forall i s, nth_error (t_syms t) i = Some s -> sy_id s = i.
  Notation ok := (@in_table R t).
  Notation size := (length (t_syms t)).
  Notation item := (nat * (cx R * cx R))%type.

  (** ** pairs of terms *)
  Lemma paired2 (x y : mono) p : paired (x :: y :: p) =
    if m_cj x then (m_id x, (c0, m_f x)) :: paired (y :: p)
    else if Nat.eqb (m_id y) (m_id x) then (m_id x, (m_f x, m_f y)) :: paired p else (m_id x, (m_f x, c0)) :: paired (y :: p).
  Proof. reflexivity. Qed.
  Definition item_value (v : nat -> cx R) (x : item) : cx R := cadd (cmul (fst (snd x)) (v (fst x))) (cmul (snd (snd x)) (cconj (v (fst x)))).
  Definition items_value (v : nat -> cx R) (l : list item) : cx R := fold_right (fun x s => cadd (item_value v x) s) c0 l.
  Lemma paired_value v : forall p, canonical t lt p -> items_value v (paired p) = value v p.
  Proof.
    apply (two_ind R (fun p => canonical t lt p -> items_value v (paired p) = value v p)).
    - reflexivity.
    - intros x _. rewrite value_cons. cbn [paired value fold_right]. unfold term_value. destruct (m_cj x); unfold items_value, item_value; cbn [fold_right fst snd]; ring.
    - intros x y p I J C. assert (Cy := canonical_tail _ _ _ _ _ C). assert (Cp := canonical_tail _ _ _ _ _ Cy). rewrite paired2, (value_cons R v x).
      destruct (m_cj x) eqn:X; [|destruct (Nat.eqb_spec (m_id y) (m_id x)) as [E|E]].
      + cbn [items_value fold_right]. fold (items_value v (paired (y :: p))). rewrite (J Cy). unfold item_value, term_value. cbn [fst snd]. rewrite X. ring.
      + destruct (pair_facts R t lt HO x y p C (eq_sym E)) as [_ [Y _]]. cbn [items_value fold_right]. fold (items_value v (paired p)).
        rewrite (I Cp), (value_cons R v y). unfold item_value, term_value. cbn [fst snd]. rewrite X, Y, E. ring.
      + cbn [items_value fold_right]. fold (items_value v (paired (y :: p))). rewrite (J Cy). unfold item_value, term_value. cbn [fst snd]. rewrite X. ring.
  Qed.
  Lemma paired_in : forall (p : list mono) z, In z (paired p) -> exists x, In x p /\ fst z = m_id x.
  Proof.
    apply (two_ind R (fun p => forall z, In z (paired p) -> exists x, In x p /\ fst z = m_id x)).
    - intros z [].
    - intros x z H. cbn [paired] in H. destruct (m_cj x); (destruct H as [<-|[]]; exists x; cbn; auto).
    - intros x y p I J z H. rewrite paired2 in H.
      destruct (m_cj x); [|destruct (Nat.eqb (m_id y) (m_id x))]; (destruct H as [<-|H]; [exists x; cbn; auto|]).
      1,3: destruct (J z H) as [w [Hw E]]; exists w; split; [right; exact Hw|exact E].
      destruct (I z H) as [w [Hw E]]. exists w. split; [right; right; exact Hw|exact E].
  Qed.
  Lemma paired_nodup : forall p, canonical t lt p -> NoDup (map fst (paired p)).
  Proof.
    apply (two_ind R (fun p => canonical t lt p -> NoDup (map fst (paired p)))).
    - intros _. constructor.
    - intros x _. cbn [paired]. destruct (m_cj x); (repeat constructor; intros []).
    - intros x y p I J C. assert (Cy := canonical_tail _ _ _ _ _ C). assert (Cp := canonical_tail _ _ _ _ _ Cy). rewrite paired2.
      assert (G : forall z, In z p -> m_id x <> m_id z) by (intros z Hz; apply (canonical_ids R t lt HO x y p z C Hz)).
      assert (K : m_id y <> m_id x -> ~ In (m_id x) (map fst (paired (y :: p)))).
      { intros N H. apply in_map_iff in H. destruct H as [z [E Hz]]. destruct (paired_in _ _ Hz) as [w [Hw E']]. destruct Hw as [<-|Hw]; [congruence|].
        apply (G w Hw). congruence. }
      destruct (m_cj x) eqn:X; [|destruct (Nat.eqb_spec (m_id y) (m_id x)) as [E|E]]; cbn [map fst]; constructor; auto.
      + apply K. intro E. destruct (pair_facts R t lt HO x y p C (eq_sym E)) as [X' _]. congruence.
      + intro H. apply in_map_iff in H. destruct H as [z [E' Hz]]. destruct (paired_in _ _ Hz) as [w [Hw E'']]. apply (G w Hw). congruence.
  Qed.
  Lemma paired_known p : Forall ok p -> known t (paired p) = true.
  Proof.
    intro F. apply forallb_forall. intros z Hz. destruct (paired_in _ _ Hz) as [x [Hx E]]. rewrite E. apply Nat.ltb_lt.
    rewrite Forall_forall in F. apply (F x Hx).
  Qed.
  (** exceptions are thrown exactly for unknown symbols *)
  Lemma paired_ids : forall (p : list mono) x, In x p -> In (m_id x) (map fst (paired p)).
  Proof.
    apply (two_ind R (fun p => forall x, In x p -> In (m_id x) (map fst (paired p)))).
    - intros x [].
    - intros y x [<-|[]]. cbn [paired]. destruct (m_cj y); now left.
    - intros x y p I J z Hz. rewrite paired2.
      destruct (m_cj x); [|destruct (Nat.eqb_spec (m_id y) (m_id x)) as [E|E]]; cbn [map fst].
      1,3: destruct Hz as [<-|Hz]; [now left|right; apply J; exact Hz].
      destruct Hz as [<-|[<-|Hz]]; [now left|left; congruence|right; apply I; exact Hz].
  Qed.
  Lemma known_iff (p : list mono) : known t (paired p) = true <-> Forall ok p.
  Proof.
    split; [|apply paired_known]. intro K. unfold known in K. rewrite forallb_forall in K. apply Forall_forall. intros x Hx.
    pose proof (paired_ids p x Hx) as H. apply in_map_iff in H. destruct H as [z [E Hz]]. specialize (K z Hz). rewrite E in K. now apply Nat.ltb_lt in K.
  Qed.
  Lemma real_vec_throws p : real_vec t p = None <-> ~ Forall ok p.
  Proof. rewrite <- known_iff. unfold real_vec. cbv zeta. destruct (known t (paired p)); split; intro H; try discriminate; auto; exfalso; auto. Qed.
  Lemma imaginary_vec_throws p : imaginary_vec t p = None <-> ~ Forall ok p.
  Proof. rewrite <- known_iff. unfold imaginary_vec. cbv zeta. destruct (known t (paired p)); split; intro H; try discriminate; auto; exfalso; auto. Qed.
  Lemma complex_vec_throws p : complex_vec t p = None <-> ~ Forall ok p.
  Proof. rewrite <- known_iff. unfold complex_vec. cbv zeta. destruct (known t (paired p)); split; intro H; try discriminate; auto; exfalso; auto. Qed.

  (** ** indices of symbols *)
  Lemma re_index_spec id k : id < size -> (re_index t id = Some k <-> nth_error (t_real t) k = Some id).
  Proof.
    intro L. destruct (in_table_sym t id L) as [s S]. unfold re_index, sym_of. rewrite (nth_error_nth _ _ _ S). apply (nb_re t NB id s k S).
  Qed.
  Lemma im_index_spec id k : id < size -> (im_index t id = Some k <-> nth_error (t_imag t) k = Some id).
  Proof.
    intro L. destruct (in_table_sym t id L) as [s S]. unfold im_index, sym_of. rewrite (nth_error_nth _ _ _ S). apply (nb_im t NB id s k S).
  Qed.
  Lemma nth_combine_seq {A} (l : list A) : forall n i x, In (i, x) (combine (seq n (length l)) l) <-> n <= i /\ nth_error l (i - n) = Some x.
  Proof.
    induction l as [|a l IH]; intros n i x; cbn [length seq combine In].
    - split; [tauto|]. intros [_ H]. destruct (i - n); discriminate.
    - rewrite IH. split.
      + intros [H|[H H']]; [injection H; intros; subst; rewrite Nat.sub_diag; auto|]. split; [lia|]. replace (i - n) with (S (i - S n)) by lia. exact H'.
      + intros [H H']. destruct (Nat.eq_dec i n) as [->|N]; [left; rewrite Nat.sub_diag in H'; cbn in H'; congruence|]. right. split; [lia|].
        replace (i - n) with (S (i - S n)) in H' by lia. exact H'.
  Qed.
  Lemma positions_in {A} (f : A -> bool) l i : In i (positions f l) <-> exists x, nth_error l i = Some x /\ f x = true.
  Proof.
    unfold positions. rewrite in_map_iff. split.
    - intros [[j x] [E H]]. cbn in E. subst j. apply filter_In in H. destruct H as [H F]. apply nth_combine_seq in H. destruct H as [_ H].
      rewrite Nat.sub_0_r in H. eauto.
    - intros [x [H F]]. exists (i, x). split; [reflexivity|]. apply filter_In. split; [|exact F]. apply nth_combine_seq. rewrite Nat.sub_0_r. split; [lia|exact H].
  Qed.
  Lemma positions_nodup {A} (f : A -> bool) l : NoDup (positions f l).
  Proof.
    unfold positions. assert (G : forall n, NoDup (map fst (filter (fun x => f (snd x)) (combine (seq n (length l)) l)))).
    { induction l as [|a l IH]; intro n; cbn [length seq combine filter]; [constructor|]. cbn [snd]. destruct (f a); [|apply IH]. cbn [map fst]. constructor; [|apply IH].
      intro H. apply in_map_iff in H. destruct H as [[j x] [E H]]. cbn in E. subst j. apply filter_In in H. destruct H as [H _]. apply nth_combine_seq in H. lia. }
    apply G.
  Qed.
  Lemma real_nodup : NoDup (t_real t). Proof. rewrite (nb_real t NB). apply positions_nodup. Qed.
  Lemma imag_nodup : NoDup (t_imag t). Proof. rewrite (nb_imag t NB). apply positions_nodup. Qed.
  Lemma re_index_none id : id < size -> (re_index t id = None <-> anti t id = true).
  Proof.
    intro L. destruct (in_table_sym t id L) as [s S]. rewrite (anti_sym t id s S). split.
    - intro N. destruct (sy_anti s) eqn:A; [reflexivity|]. exfalso. assert (H : In id (t_real t)).
      { rewrite (nb_real t NB). apply positions_in. exists s. split; [exact S|]. unfold has_re. now rewrite A. }
      apply In_nth_error in H. destruct H as [k H]. apply re_index_spec in H; [congruence|exact L].
    - intro A. destruct (re_index t id) as [k|] eqn:K; [|reflexivity]. apply re_index_spec in K; [|exact L]. apply nth_error_In in K.
      rewrite (nb_real t NB) in K. apply positions_in in K. destruct K as [s' [S' H]]. unfold has_re in H. rewrite S in S'. injection S' as <-. rewrite A in H. discriminate.
  Qed.
  Lemma im_index_none id : id < size -> (im_index t id = None <-> herm t id = true).
  Proof.
    intro L. destruct (in_table_sym t id L) as [s S]. rewrite (herm_sym t id s S). split.
    - intro N. destruct (sy_herm s) eqn:A; [reflexivity|]. exfalso. assert (H : In id (t_imag t)).
      { rewrite (nb_imag t NB). apply positions_in. exists s. split; [exact S|]. unfold has_im. now rewrite A. }
      apply In_nth_error in H. destruct H as [k H]. apply im_index_spec in H; [congruence|exact L].
    - intro A. destruct (im_index t id) as [k|] eqn:K; [|reflexivity]. apply im_index_spec in K; [|exact L]. apply nth_error_In in K.
      rewrite (nb_imag t NB) in K. apply positions_in in K. destruct K as [s' [S' H]]. unfold has_im in H. rewrite S in S'. injection S' as <-. rewrite A in H. discriminate.
  Qed.
  Lemma elem_re v id k : id < size -> re_index t id = Some k -> real_elem t v k = cre (v id : cx R).
  Proof. intros L H. apply re_index_spec in H; [|exact L]. unfold real_elem. now rewrite H. Qed.
  Lemma elem_im v id k : id < size -> im_index t id = Some k -> imag_elem t v k = cim (v id : cx R).
  Proof. intros L H. apply im_index_spec in H; [|exact L]. unfold imag_elem. now rewrite H. Qed.

  (** ** dot products *)
  Lemma rdot_cons (x : nat * R) l a : rdot (x :: l) a = radd R (rmul R (snd x) (a (fst x))) (rdot l a). Proof. reflexivity. Qed.
  Lemma rdot_nil a : rdot [] a = r0 R. Proof. reflexivity. Qed.
  Lemma cdot_cons (x : nat * cx R) l a : cdot (x :: l) a = cadd (cmul (snd x) (creal (a (fst x)))) (cdot l a). Proof. reflexivity. Qed.
  Lemma cdot_nil a : cdot [] a = @c0 R. Proof. reflexivity. Qed.
  Lemma rdot_app (l l' : list (nat * R)) a : rdot (l ++ l') a = radd R (rdot l a) (rdot l' a).
  Proof. induction l as [|x l IH]; cbn [app]; rewrite ?rdot_cons, ?rdot_nil; [ring|]. rewrite IH. ring. Qed.
  Lemma cdot_app (l l' : list (nat * cx R)) a : cdot (l ++ l') a = cadd (cdot l a) (cdot l' a).
  Proof. induction l as [|x l IH]; cbn [app]; rewrite ?cdot_cons, ?cdot_nil; [ring|]. rewrite IH. ring. Qed.
  Lemma rzero_spec (x : R) : rzero x = true <-> x = r0 R. Proof. apply r_eqb_spec. Qed.
  Lemma entry_re v id (w : R) : assignment t v -> id < size -> rdot (entry rzero (re_index t id) w w) (real_elem t v) = rmul R w (cre (v id)).
  Proof.
    intros A L. destruct (re_index t id) as [k|] eqn:K; cbn [entry].
    - destruct (rzero w) eqn:Z; [apply rzero_spec in Z; rewrite Z; cbn; ring|]. cbn. rewrite (elem_re v id k L K). ring.
    - apply re_index_none in K; [|exact L]. destruct (in_table_sym t id L) as [s S]. rewrite (as_anti t v A id s S); [cbn; ring|]. now rewrite <- (anti_sym t id s S).
  Qed.
  Lemma entry_im v id (w : R) : assignment t v -> id < size -> rdot (entry rzero (im_index t id) w w) (imag_elem t v) = rmul R w (cim (v id)).
  Proof.
    intros A L. destruct (im_index t id) as [k|] eqn:K; cbn [entry].
    - destruct (rzero w) eqn:Z; [apply rzero_spec in Z; rewrite Z; cbn; ring|]. cbn. rewrite (elem_im v id k L K). ring.
    - apply im_index_none in K; [|exact L]. destruct (in_table_sym t id L) as [s S]. rewrite (as_herm t v A id s S); [cbn; ring|]. now rewrite <- (herm_sym t id s S).
  Qed.
  Lemma centry_re v id (w : cx R) : assignment t v -> id < size -> cdot (entry is_zero (re_index t id) w w) (real_elem t v) = cmul w (creal (cre (v id))).
  Proof.
    intros A L. destruct (re_index t id) as [k|] eqn:K; cbn [entry].
    - destruct (is_zero w) eqn:Z; [apply is_zero_true in Z; rewrite Z; cbn [cdot fold_right]; ring|]. cbn [cdot fold_right fst snd]. rewrite (elem_re v id k L K). ring.
    - apply re_index_none in K; [|exact L]. destruct (in_table_sym t id L) as [s S]. rewrite (as_anti t v A id s S); [|now rewrite <- (anti_sym t id s S)].
      cbn [cdot fold_right]. apply cx_ext; cbn; ring.
  Qed.
  Lemma centry_im v id (w : cx R) : assignment t v -> id < size -> cdot (entry is_zero (im_index t id) w w) (imag_elem t v) = cmul w (creal (cim (v id))).
  Proof.
    intros A L. destruct (im_index t id) as [k|] eqn:K; cbn [entry].
    - destruct (is_zero w) eqn:Z; [apply is_zero_true in Z; rewrite Z; cbn [cdot fold_right]; ring|]. cbn [cdot fold_right fst snd]. rewrite (elem_im v id k L K). ring.
    - apply im_index_none in K; [|exact L]. destruct (in_table_sym t id L) as [s S]. rewrite (as_herm t v A id s S); [|now rewrite <- (herm_sym t id s S)].
      cbn [cdot fold_right]. apply cx_ext; cbn; ring.
  Qed.
  Lemma spread_cons {A} (f : nat -> cx R -> cx R -> list A) (x : item) l : spread f (x :: l) = f (fst x) (fst (snd x)) (snd (snd x)) ++ spread f l.
  Proof. reflexivity. Qed.
  Definition items_ok (l : list item) : Prop := Forall (fun x => fst x < size) l.
  Lemma paired_ok p : canonical t lt p -> items_ok (paired p).
  Proof.
    intro C. apply Forall_forall. intros z Hz. destruct (paired_in _ _ Hz) as [x [Hx E]]. rewrite E. apply (cp_terms t lt p C x Hx).
  Qed.

  (** ** exports *)
  Lemma real_items v l : assignment t v -> items_ok l ->
    radd R (rdot (spread (fun id f c => entry rzero (re_index t id) (az_ax f c) (az_ax f c)) l) (real_elem t v))
           (rdot (spread (fun id f c => entry rzero (im_index t id) (az_bx f c) (az_bx f c)) l) (imag_elem t v)) = cre (items_value v l).
  Proof.
    intros A. induction 1 as [|x l L F IH]; [cbn; ring|]. rewrite !spread_cons, !rdot_app, (entry_re v _ _ A L), (entry_im v _ _ A L).
    cbn [items_value fold_right cadd cre]. fold (items_value v l). rewrite <- IH. destruct x as [id [f c]]. unfold item_value, az_ax, az_bx. cbn. ring.
  Qed.
  Lemma imag_items v l : assignment t v -> items_ok l ->
    radd R (rdot (spread (fun id f c => entry rzero (re_index t id) (bz_ax f c) (bz_ax f c)) l) (real_elem t v))
           (rdot (spread (fun id f c => entry rzero (im_index t id) (bz_bx f c) (bz_bx f c)) l) (imag_elem t v)) = cim (items_value v l).
  Proof.
    intros A. induction 1 as [|x l L F IH]; [cbn; ring|]. rewrite !spread_cons, !rdot_app, (entry_re v _ _ A L), (entry_im v _ _ A L).
    cbn [items_value fold_right cadd cim]. fold (items_value v l). rewrite <- IH. destruct x as [id [f c]]. unfold item_value, bz_ax, bz_bx. cbn. ring.
  Qed.
  Lemma complex_items v l : assignment t v -> items_ok l ->
    cadd (cdot (spread (fun id f c => entry is_zero (re_index t id) (z_ax f c) (z_ax f c)) l) (real_elem t v))
         (cdot (spread (fun id f c => entry is_zero (im_index t id) (z_bx f c) (z_bx f c)) l) (imag_elem t v)) = items_value v l.
  Proof.
    intros A. induction 1 as [|x l L F IH]; [cbn [spread flat_map cdot items_value fold_right]; ring|].
    rewrite !spread_cons, !cdot_app, (centry_re v _ _ A L), (centry_im v _ _ A L).
    cbn [items_value fold_right]. fold (items_value v l). rewrite <- IH. destruct x as [id [f c]]. unfold item_value, z_ax, z_bx, az_ax, az_bx, bz_ax, bz_bx. cbn [fst snd].
    match goal with |- cadd (cadd ?a ?x) (cadd ?b ?y) = cadd ?c (cadd ?x ?y) => assert (G : cadd a b = c); [|rewrite <- G; ring] end.
    apply cx_ext; cbn; ring.
  Qed.
  Lemma entry_in {A} zero idx (te w : A) k u : In (k, u) (entry zero idx te w) <-> idx = Some k /\ zero te = false /\ u = w.
  Proof.
    unfold entry. destruct idx as [j|]; [|cbn; split; [tauto|intros [? _]; discriminate]]. destruct (zero te); cbn; split.
    - tauto.
    - intros [_ [? _]]. discriminate.
    - intros [H|[]]. injection H as -> ->. auto.
    - intros [H [_ ->]]. injection H as ->. auto.
  Qed.
  Lemma spread_in {A} (f : nat -> cx R -> cx R -> list A) l z : In z (spread f l) <-> exists id a b, In (id, (a, b)) l /\ In z (f id a b).
  Proof.
    unfold spread. rewrite in_flat_map. split.
    - intros [[id [a b]] [H H']]. exists id, a, b. auto.
    - intros [id [a [b [H H']]]]. exists (id, (a, b)). auto.
  Qed.
  (** stored once each, in range, nothing zero *)
  Lemma spread_sparse {A} (zv : A) zero (idx : nat -> option nat) (base : list nat) (te : cx R -> cx R -> A) l :
    (forall x, zero x = true <-> x = zv) -> (forall id k, id < size -> (idx id = Some k <-> nth_error base k = Some id)) -> items_ok l -> NoDup (map fst l) ->
    sparse zv (length base) (spread (fun id f c => entry zero (idx id) (te f c) (te f c)) l).
  Proof.
    intros Z I F N. unfold items_ok in F. split.
    - induction F as [|x l L F IH]; [constructor|]. inversion N as [|? ? N1 N2]. subst. rewrite spread_cons. destruct x as [id [f c]]. cbn [fst snd] in *.
      unfold entry at 1. destruct (idx id) as [k|] eqn:K; [|apply IH, N2]. destruct (zero (te f c)); [apply IH, N2|]. cbn [app map fst]. constructor; [|apply IH, N2].
      intro H. apply in_map_iff in H. destruct H as [[k' w] [E H]]. cbn in E. subst k'. apply spread_in in H. destruct H as [id' [f' [c' [H H']]]]. apply entry_in in H'.
      destruct H' as [K' _]. rewrite Forall_forall in F. pose proof (F _ H) as L'. cbn in L'. apply I in K; [|exact L]. apply I in K'; [|exact L'].
      apply N1. apply in_map_iff. exists (id', (f', c')). split; [cbn; congruence|exact H].
    - intros k w H. apply spread_in in H. destruct H as [id [f [c [H H']]]]. apply entry_in in H'. destruct H' as [K [Q ->]].
      rewrite Forall_forall in F. pose proof (F _ H) as L. cbn in L. apply I in K; [|exact L]. split; [apply nth_error_Some; congruence|].
      intro E. apply Z in E. congruence.
  Qed.
  Lemma is_zero_iff (x : cx R) : is_zero x = true <-> x = c0. Proof. apply is_zero_true. Qed.
  Lemma real_vec_spec p : canonical t lt p -> exists w, real_vec t p = Some w /\
    sparse (r0 R) (length (t_real t)) (bv_real w) /\ sparse (r0 R) (length (t_imag t)) (bv_imag w) /\
    forall v, assignment t v -> radd R (rdot (bv_real w) (real_elem t v)) (rdot (bv_imag w) (imag_elem t v)) = cre (value v p).
  Proof.
    intro C. unfold real_vec. cbv zeta. rewrite (paired_known p (canonical_ok R t lt p C)). eexists. split; [reflexivity|]. cbn [bv_real bv_imag]. split; [|split].
    - apply spread_sparse; [apply rzero_spec|apply re_index_spec|now apply paired_ok|now apply paired_nodup].
    - apply spread_sparse; [apply rzero_spec|apply im_index_spec|now apply paired_ok|now apply paired_nodup].
    - intros v A. rewrite <- (paired_value v p C). apply real_items; [exact A|now apply paired_ok].
  Qed.
  Lemma complex_vec_spec p : canonical t lt p -> exists w, complex_vec t p = Some w /\
    sparse c0 (length (t_real t)) (bv_real w) /\ sparse c0 (length (t_imag t)) (bv_imag w) /\
    forall v, assignment t v -> cadd (cdot (bv_real w) (real_elem t v)) (cdot (bv_imag w) (imag_elem t v)) = value v p.
  Proof.
    intro C. unfold complex_vec. cbv zeta. rewrite (paired_known p (canonical_ok R t lt p C)). eexists. split; [reflexivity|]. cbn [bv_real bv_imag]. split; [|split].
    - apply spread_sparse; [apply is_zero_iff|apply re_index_spec|now apply paired_ok|now apply paired_nodup].
    - apply spread_sparse; [apply is_zero_iff|apply im_index_spec|now apply paired_ok|now apply paired_nodup].
    - intros v A. rewrite <- (paired_value v p C). apply complex_items; [exact A|now apply paired_ok].
  Qed.
  (** the imaginary part, as long as no element of the real basis has a coefficient with an imaginary part *)
  Lemma paired_real_coefs : forall p : list mono, real_coefs p -> forall id f c, In (id, (f, c)) (paired p) -> cim f = r0 R /\ cim c = r0 R.
  Proof.
    apply (two_ind R (fun p => real_coefs p -> forall id f c, In (id, (f, c)) (paired p) -> cim f = r0 R /\ cim c = r0 R)).
    - intros _ id f c [].
    - intros x H id f c Hi. cbn [paired] in Hi. pose proof (H x (or_introl eq_refl)).
      destruct (m_cj x); (destruct Hi as [Hi|[]]; injection Hi as <- <- <-; auto).
    - intros x y p I J H id f c Hi. rewrite paired2 in Hi. pose proof (H x (or_introl eq_refl)) as Hx. pose proof (H y (or_intror (or_introl eq_refl))) as Hy.
      assert (Hr : real_coefs (y :: p)) by (intros z Hz; apply H; right; exact Hz). assert (Hr' : real_coefs p) by (intros z Hz; apply H; right; right; exact Hz).
      destruct (m_cj x); [|destruct (Nat.eqb (m_id y) (m_id x))]; (destruct Hi as [Hi|Hi]; [injection Hi as <- <- <-; auto|]); eauto.
  Qed.
  Lemma imaginary_vec_spec p : canonical t lt p -> real_coefs p -> exists w, imaginary_vec t p = Some w /\ bv_real w = [] /\
    sparse (r0 R) (length (t_imag t)) (bv_imag w) /\
    forall v, assignment t v -> rdot (bv_imag w) (imag_elem t v) = cim (value v p).
  Proof.
    intros C RC. unfold imaginary_vec. cbv zeta. rewrite (paired_known p (canonical_ok R t lt p C)). eexists. split; [reflexivity|]. cbn [bv_real bv_imag].
    assert (Z : forall te, spread (fun id f c => entry rzero (re_index t id) (bz_ax f c) (te f c)) (paired p) = ([] : list (nat * R))).
    { intro te. pose proof (paired_real_coefs p RC) as Q. unfold spread. induction (paired p) as [|[id [f c]] l IH]; [reflexivity|]. cbn [flat_map fst snd].
      rewrite IH; [|intros; apply (Q id0); right; assumption]. destruct (Q id f c (or_introl eq_refl)) as [A B]. unfold bz_ax. rewrite A, B.
      replace (radd R (r0 R) (r0 R)) with (r0 R) by ring. unfold entry. destruct (re_index t id); [|reflexivity].
      assert (E : rzero (r0 R) = true) by now apply rzero_spec. rewrite E. reflexivity. }
    split; [apply Z|]. split.
    - apply spread_sparse; [apply rzero_spec|apply im_index_spec|now apply paired_ok|now apply paired_nodup].
    - intros v A. rewrite <- (paired_value v p C), <- (imag_items v (paired p) A (paired_ok p C)). rewrite (Z bz_ax). cbn [rdot fold_right]. unfold rdot. ring.
  Qed.

  (** ** one column per polynomial *)
  Lemma column_app {A} col (l l' : list (nat * nat * A)) : column col (l ++ l') = column col l ++ column col l'.
  Proof. unfold column. now rewrite filter_app, map_app. Qed.
  Lemma column_same col (l : list (nat * cx R)) : column col (map (fun x => (fst x, col, snd x)) l) = l.
  Proof. unfold column. induction l as [|[k w] l IH]; [reflexivity|]. cbn [map filter fst snd]. rewrite Nat.eqb_refl. cbn [map fst snd]. now rewrite IH. Qed.
  Lemma column_other col col' (l : list (nat * cx R)) : col <> col' -> column col (map (fun x => (fst x, col', snd x)) l) = [].
  Proof. intro N. unfold column. induction l as [|[k w] l IH]; [reflexivity|]. cbn [map filter fst snd]. destruct (Nat.eqb_spec col' col); [congruence|exact IH]. Qed.
  Lemma column_perm {A} col (l l' : list (nat * nat * A)) : Permutation l l' -> Permutation (column col l) (column col l').
  Proof.
    intro P. unfold column. apply Permutation_map. induction P as [|x l l' P IH|x y l|l l' l'' P IH P' IH']; cbn; auto.
    - destruct (Nat.eqb (snd (fst x)) col); auto.
    - destruct (Nat.eqb (snd (fst y)) col), (Nat.eqb (snd (fst x)) col); auto. apply perm_swap.
    - etransitivity; eassumption.
  Qed.
  Lemma column_nil_perm {A} col (l l' : list (nat * nat * A)) : Permutation l l' -> column col l = [] -> column col l' = [].
  Proof. intros P E. pose proof (column_perm col _ _ P) as Q. rewrite E in Q. now apply Permutation_nil. Qed.
  Lemma monolith_spec srt : (forall l, Permutation l (srt l)) -> forall (ps : list (list mono)) col a b, monolith t srt col ps = Some (a, b) ->
    (forall j, j < col -> column j a = [] /\ column j b = []) /\
    forall j p, nth_error ps j = Some p -> exists w, complex_vec t p = Some w /\ Permutation (bv_real w) (column (col + j) a) /\ Permutation (bv_imag w) (column (col + j) b).
  Proof.
    intro SP. induction ps as [|p ps IH]; intros col a b M.
    - cbn in M. injection M as <- <-. split; [auto|]. intros [|j] p H; discriminate.
    - cbn [monolith] in M. destruct (complex_vec t p) as [w|] eqn:W; [|discriminate]. destruct (monolith t srt (S col) ps) as [[a' b']|] eqn:M'; [|discriminate].
      injection M as <- <-. destruct (IH _ _ _ M') as [I1 I2]. split.
      + intros j L. destruct (I1 j ltac:(lia)) as [A B]. rewrite !column_app, A, B, !app_nil_r.
        split; (eapply column_nil_perm; [apply SP|]; apply column_other; lia).
      + intros [|j] q Q.
        * cbn in Q. injection Q as <-. exists w. split; [exact W|]. rewrite Nat.add_0_r. destruct (I1 col ltac:(lia)) as [A B]. rewrite !column_app, A, B, !app_nil_r. split.
          -- rewrite <- (column_same col (bv_real w)) at 1. apply column_perm, SP.
          -- rewrite <- (column_same col (bv_imag w)) at 1. apply column_perm, SP.
        * cbn in Q. destruct (I2 j q Q) as [w' [W' [A B]]]. exists w'. split; [exact W'|]. replace (col + S j) with (S col + j) by lia. rewrite !column_app.
          assert (O : forall l, column (S col + j) (srt (map (fun x => (fst x, col, snd x)) l)) = []).
          { intro l. eapply column_nil_perm; [apply SP|]. apply column_other. lia. }
          now rewrite !O.
  Qed.
  Lemma cdot_perm (l l' : list (nat * cx R)) a : Permutation l l' -> cdot l a = cdot l' a.
  Proof. induction 1; unfold cdot in *; cbn [fold_right]; try rewrite IHPermutation; try ring. congruence. Qed.

  (** ** rows of coefficients *)
  Lemma row_dot_app (l l' : list (nat * nat * R)) r a : row_dot (l ++ l') r a = radd R (row_dot l r a) (row_dot l' r a).
  Proof.
    induction l as [|x l IH]; cbn [app]; [change (row_dot [] r a) with (r0 R); ring|].
    change (row_dot (x :: l ++ l') r a) with (radd R (if Nat.eqb (fst (fst x)) r then rmul R (snd x) (a (snd (fst x))) else r0 R) (row_dot (l ++ l') r a)).
    change (row_dot (x :: l) r a) with (radd R (if Nat.eqb (fst (fst x)) r then rmul R (snd x) (a (snd (fst x))) else r0 R) (row_dot l r a)). rewrite IH. ring.
  Qed.
  Lemma real_bound k id : nth_error (t_real t) k = Some id -> k < length (t_real t). Proof. intro H. apply nth_error_Some. congruence. Qed.
  Lemma row_re v id (w : R) r off : assignment t v -> id < size -> row_dot (row_entry (Some r) off (re_index t id) 0 w) (r + off) (both_elem t v) = rmul R w (cre (v id)).
  Proof.
    intros A L. rewrite <- (entry_re v id w A L). unfold row_entry, entry. destruct (re_index t id) as [k|] eqn:K; [|reflexivity]. destruct (rzero w); [reflexivity|].
    cbn. rewrite Nat.eqb_refl. unfold both_elem. rewrite Nat.add_0_r. apply re_index_spec in K; [|exact L]. apply real_bound in K. apply Nat.ltb_lt in K. now rewrite K.
  Qed.
  Lemma row_im v id (w : R) r off : assignment t v -> id < size -> row_dot (row_entry (Some r) off (im_index t id) (length (t_real t)) w) (r + off) (both_elem t v) = rmul R w (cim (v id)).
  Proof.
    intros A L. rewrite <- (entry_im v id w A L). unfold row_entry, entry. destruct (im_index t id) as [k|] eqn:K; [|reflexivity]. destruct (rzero w); [reflexivity|].
    cbn. rewrite Nat.eqb_refl. unfold both_elem. assert (G : Nat.ltb (k + length (t_real t)) (length (t_real t)) = false) by (apply Nat.ltb_ge; lia). rewrite G.
    now replace (k + length (t_real t) - length (t_real t)) with k by lia.
  Qed.
  Lemma triplets_spec merge zre zim p : canonical t lt p -> exists re im, triplets t merge zre zim p = Some (re, im) /\ forall v, assignment t v ->
    (forall r, zre = Some r -> row_dot re r (both_elem t v) = cre (value v p)) /\
    (forall r, zim = Some r -> row_dot im (r + if merge then length (t_real t) else 0) (both_elem t v) = cim (value v p)).
  Proof.
    intro C. unfold triplets. cbv zeta. rewrite (paired_known p (canonical_ok R t lt p C)). eexists. eexists. split; [reflexivity|]. intros v A.
    rewrite <- (paired_value v p C). pose proof (paired_ok p C) as F. split; intros r ->.
    - induction F as [|x l L F IH]; [reflexivity|]. rewrite spread_cons, !row_dot_app. pose proof (fun w => row_re v (fst x) w r 0 A L) as P1. pose proof (fun w => row_im v (fst x) w r 0 A L) as P2.
      rewrite Nat.add_0_r in P1, P2. rewrite P1, P2, IH.
      cbn [items_value fold_right cadd cre]. fold (items_value v l). destruct x as [id [f c]]. unfold item_value, az_ax, az_bx. cbn. ring.
    - induction F as [|x l L F IH]; [reflexivity|]. rewrite spread_cons, !row_dot_app. rewrite (row_re v _ _ _ _ A L), (row_im v _ _ _ _ A L), IH.
      cbn [items_value fold_right cadd cim]. fold (items_value v l). destruct x as [id [f c]]. unfold item_value, bz_ax, bz_bx. cbn. ring.
  Qed.
  Lemma triplets_rows merge zre zim (p : list mono) re im : triplets t merge zre zim p = Some (re, im) ->
    (forall x, In x re -> zre = Some (fst (fst x))) /\ (forall x, In x im -> exists r, zim = Some r /\ fst (fst x) = r + if merge then length (t_real t) else 0).
  Proof.
    unfold triplets. cbv zeta. destruct (known t (paired p)); [|discriminate]. intro E. injection E as <- <-.
    assert (G : forall row off col co (w : R) x, In x (row_entry row off col co w) -> exists r, row = Some r /\ fst (fst x) = r + off).
    { intros row off col co w x H. unfold row_entry in H. destruct row as [r|]; [|destruct H]. destruct col; [|destruct H]. destruct (rzero w); [destruct H|].
      destruct H as [<-|[]]. exists r. auto. }
    split; intros x H; apply spread_in in H; destruct H as [id [f [c [_ H]]]]; apply in_app_iff in H.
    - assert (H' : exists r, zre = Some r /\ fst (fst x) = r + 0) by (destruct H as [H|H]; apply G in H; exact H). destruct H' as [r [-> E]]. rewrite E. f_equal. lia.
    - destruct H as [H|H]; apply G in H; exact H.
  Qed.

  (** ** import *)
  Lemma sym_id i : i < size -> sy_id (sym_of t i) = i.
  Proof. intro L. destruct (in_table_sym t i L) as [s S]. unfold sym_of. rewrite (nth_error_nth _ _ _ S). now apply IDS. Qed.
  Lemma real_in_table k i : nth_error (t_real t) k = Some i -> i < size /\ anti t i = false.
  Proof.
    intro H. pose proof (nth_error_In _ _ H) as I. rewrite (nb_real t NB) in I. apply positions_in in I. destruct I as [s [S A]].
    split; [apply nth_error_Some; congruence|]. rewrite (anti_sym t i s S). unfold has_re in A. now destruct (sy_anti s).
  Qed.
  Lemma imag_in_table k i : nth_error (t_imag t) k = Some i -> i < size /\ herm t i = false.
  Proof.
    intro H. pose proof (nth_error_In _ _ H) as I. rewrite (nb_imag t NB) in I. apply positions_in in I. destruct I as [s [S A]].
    split; [apply nth_error_Some; congruence|]. rewrite (herm_sym t i s S). unfold has_im in A. now destruct (sy_herm s).
  Qed.
  Definition zvalue (v : nat -> cx R) (z : list item) : cx R :=
    fold_right (fun x s => cadd (cadd (cmul (fst (snd x)) (creal (cre (v (fst x))))) (cmul ci (cmul (snd (snd x)) (creal (cim (v (fst x))))))) s) c0 z.
  Lemma zvalue_cons v x z : zvalue v (x :: z) = cadd (cadd (cmul (fst (snd x)) (creal (cre (v (fst x))))) (cmul ci (cmul (snd (snd x)) (creal (cim (v (fst x))))))) (zvalue v z).
  Proof. reflexivity. Qed.
  Lemma zvalue_nil v : zvalue v [] = c0. Proof. reflexivity. Qed.
  Lemma zvalue_app v z z' : zvalue v (z ++ z') = cadd (zvalue v z) (zvalue v z').
  Proof. induction z as [|x z IH]; cbn [app]; rewrite ?zvalue_cons, ?zvalue_nil; [ring|]. rewrite IH. ring. Qed.
  Lemma zfind_none id (z : list item) : zfind id z = None <-> ~ In id (map fst z).
  Proof.
    induction z as [|[k w] z IH]; cbn; [tauto|]. destruct (Nat.eqb_spec k id) as [E|E]; [split; [discriminate|tauto]|]. rewrite IH. tauto.
  Qed.
  Lemma zset_fst id w (z : list item) : map fst (zset_im id w z) = map fst z.
  Proof. induction z as [|[k [a b]] z IH]; cbn; [reflexivity|]. destruct (Nat.eqb k id); cbn; congruence. Qed.
  Lemma zset_in id w (z : list item) k a b : In (k, (a, b)) (zset_im id w z) -> In (k, (a, b)) z \/ (k = id /\ b = w /\ exists b', In (k, (a, b')) z).
  Proof.
    induction z as [|[k' [a' b']] z IH]; cbn; [tauto|]. destruct (Nat.eqb_spec k' id) as [->|N]; cbn.
    - intros [E|H]; [injection E as <- <- <-; right; split; [reflexivity|]; split; [reflexivity|]; exists b'; now left|auto].
    - intros [E|H]; [auto|]. destruct (IH H) as [H'|[? [? [b'' H']]]]; [auto|]. right. eauto.
  Qed.
  Lemma zset_value v id w (z : list item) : NoDup (map fst z) -> In id (map fst z) -> (forall a b, In (id, (a, b)) z -> b = c0) ->
    zvalue v (zset_im id w z) = cadd (zvalue v z) (cmul ci (cmul w (creal (cim (v id))))).
  Proof.
    induction z as [|[k [a b]] z IH]; cbn [map fst In]; [tauto|]. intros N H Z. inversion N as [|? ? N1 N2]. subst. cbn [zset_im]. destruct (Nat.eqb_spec k id) as [->|E].
    - cbn [zvalue fold_right fst snd]. fold (zvalue v z). rewrite (Z a b (or_introl eq_refl)). ring.
    - destruct H as [H|H]; [contradiction|]. cbn [zvalue fold_right fst snd]. fold (zvalue v z) (zvalue v (zset_im id w z)).
      rewrite IH; [ring|exact N2|exact H|]. intros a' b' H'. apply (Z a' b'). now right.
  Qed.
  Definition zok (z : list item) : Prop := NoDup (map fst z) /\ forall id a b, In (id, (a, b)) z -> id < size /\ (anti t id = true -> a = c0) /\ (herm t id = true -> b = c0).
  Lemma zip_real_spec v : forall l z z', NoDup (map fst l) -> zok z -> (forall id a b, In (id, (a, b)) z -> b = c0) ->
    (forall k w id, In (k, w) l -> nth_error (t_real t) k = Some id -> ~ In id (map fst z)) ->
    zip_real t l z = Some z' -> zok z' /\ (forall id a b, In (id, (a, b)) z' -> b = c0) /\ zvalue v z' = cadd (zvalue v z) (cdot l (real_elem t v)).
  Proof.
    induction l as [|[k w] l IH]; intros z z' N Z Y D H; cbn [zip_real] in H.
    - injection H as <-. split; [exact Z|]. split; [exact Y|]. cbn [cdot fold_right]. ring.
    - destruct (nth_error (t_real t) k) as [i|] eqn:K; [|discriminate]. destruct (real_in_table k i K) as [L A]. rewrite (sym_id i L) in H.
      assert (F : zfind i z = None) by (apply zfind_none; apply (D k w i); [now left|exact K]). rewrite F in H. inversion N as [|? ? N1 N2]. subst.
      apply IH in H; [|exact N2| | |].
      + destruct H as [Z' [Y' V]]. split; [exact Z'|]. split; [exact Y'|]. rewrite V, zvalue_app. cbn [zvalue cdot fold_right fst snd]. fold (cdot l (real_elem t v)) (zvalue v z).
        unfold real_elem at 2. rewrite K. ring.
      + split.
        * rewrite map_app. cbn [map fst]. apply (Permutation_NoDup (Permutation_cons_append (map fst z) i)). constructor; [now apply zfind_none|apply Z].
        * intros id a b H'. apply in_app_iff in H'. destruct H' as [H'|[E|[]]]; [now apply (proj2 Z) in H'|]. injection E as <- <- <-. split; [exact L|]. split; [congruence|reflexivity].
      + intros id a b H'. apply in_app_iff in H'. destruct H' as [H'|[E|[]]]; [now apply Y in H'|]. now injection E as <- <- <-.
      + intros k' w' id Hl K' Hin. rewrite map_app in Hin. apply in_app_iff in Hin. destruct Hin as [Hin|[E|[]]]; [apply (D k' w' id); auto; now right|].
        cbn in E. subst id. apply N1. apply in_map_iff. exists (k', w'). split; [|exact Hl]. cbn. symmetry.
        apply (proj1 (NoDup_nth_error (t_real t)) real_nodup); [now apply real_bound in K|congruence].
  Qed.
  Lemma zip_imag_spec v : forall l z z', NoDup (map fst l) -> zok z -> (forall k w id a b, In (k, w) l -> nth_error (t_imag t) k = Some id -> In (id, (a, b)) z -> b = c0) ->
    zip_imag t l z = Some z' -> zok z' /\ zvalue v z' = cadd (zvalue v z) (cmul ci (cdot l (imag_elem t v))).
  Proof.
    induction l as [|[k w] l IH]; intros z z' N Z D H; cbn [zip_imag] in H.
    - injection H as <-. split; [exact Z|]. cbn [cdot fold_right]. ring.
    - destruct (nth_error (t_imag t) k) as [i|] eqn:K; [|discriminate]. destruct (imag_in_table k i K) as [L A]. rewrite (sym_id i L) in H.
      inversion N as [|? ? N1 N2]. subst.
      assert (W : forall k' w', In (k', w') l -> nth_error (t_imag t) k' <> Some i).
      { intros k' w' Hl E. apply N1. apply in_map_iff. exists (k', w'). split; [|exact Hl]. cbn. symmetry.
        apply (proj1 (NoDup_nth_error (t_imag t)) imag_nodup); [apply nth_error_Some; congruence|congruence]. }
      destruct (zfind i z) as [u|] eqn:F.
      + assert (Hin : In i (map fst z)). { destruct (in_dec Nat.eq_dec i (map fst z)) as [y|n]; [exact y|]. apply zfind_none in n. congruence. }
        apply IH in H; [|exact N2| |].
        * destruct H as [Z' V]. split; [exact Z'|]. rewrite V. rewrite (zset_value v i w z (proj1 Z) Hin).
          -- cbn [cdot fold_right fst snd]. fold (cdot l (imag_elem t v)). unfold imag_elem at 2. rewrite K. ring.
          -- intros a b Hz. apply (D k w i a b); [now left|exact K|exact Hz].
        * split; [rewrite zset_fst; apply Z|]. intros id a b Hz. apply zset_in in Hz. destruct Hz as [Hz|[-> [-> [b' Hz]]]]; [now apply (proj2 Z) in Hz|].
          destruct (proj2 Z _ _ _ Hz) as [? [? ?]]. split; [assumption|]. split; [assumption|congruence].
        * intros k' w' id a b Hl K' Hz. apply zset_in in Hz. destruct Hz as [Hz|[-> _]]; [apply (D k' w' id a b); auto; now right|]. exfalso. now apply (W k' w' Hl).
      + apply IH in H; [|exact N2| |].
        * destruct H as [Z' V]. split; [exact Z'|]. rewrite V, zvalue_app. cbn [zvalue cdot fold_right fst snd]. fold (cdot l (imag_elem t v)) (zvalue v z).
          unfold imag_elem at 2. rewrite K. ring.
        * split.
          -- rewrite map_app. cbn [map fst]. apply (Permutation_NoDup (Permutation_cons_append (map fst z) i)). constructor; [now apply zfind_none|apply Z].
          -- intros id a b Hz. apply in_app_iff in Hz. destruct Hz as [Hz|[E|[]]]; [now apply (proj2 Z) in Hz|]. injection E as <- <- <-. split; [exact L|]. split; [reflexivity|congruence].
        * intros k' w' id a b Hl K' Hz. apply in_app_iff in Hz. destruct Hz as [Hz|[E|[]]]; [apply (D k' w' id a b); auto; now right|]. injection E as <- <- <-. exfalso. now apply (W k' w' Hl).
  Qed.
  Lemma unzip_value v (x : item) : assignment t v -> fst x < size -> (anti t (fst x) = true -> fst (snd x) = c0) -> (herm t (fst x) = true -> snd (snd x) = c0) ->
    value v (unzip t x) = cadd (cmul (fst (snd x)) (creal (cre (v (fst x))))) (cmul ci (cmul (snd (snd x)) (creal (cim (v (fst x)))))).
  Proof.
    intros A L Ha Hh. destruct x as [id [a b]]. cbn [fst snd] in *. unfold unzip. cbn [fst snd]. destruct (in_table_sym t id L) as [s S].
    destruct (herm t id) eqn:H; [|destruct (anti t id) eqn:N].
    - rewrite (Hh eq_refl). cbn [value fold_right]. unfold term_value. cbn [m_f m_cj m_id]. rewrite (herm_sym t id s S) in H. pose proof (as_herm t v A id s S H) as E.
      apply cx_ext; cbn; rewrite E; ring.
    - rewrite (Ha eq_refl). cbn [value fold_right]. unfold term_value. cbn [m_f m_cj m_id]. rewrite (anti_sym t id s S) in N. pose proof (as_anti t v A id s S N) as E.
      apply cx_ext; cbn; rewrite E; ring.
    - rewrite value_app, !put_value, !tv.
      assert (H2 : forall x : cx R, x = cmul (cadd half half) x) by (intro x; rewrite half_half; ring).
      assert (G : forall z : cx R, cadd z (cconj z) = cadd (creal (cre z)) (creal (cre z))) by (intro z; apply cx_ext; cbn; ring).
      assert (G' : forall z : cx R, csub z (cconj z) = cmul ci (cadd (creal (cim z)) (creal (cim z)))) by (intro z; apply cx_ext; cbn; ring).
      transitivity (cmul half (cadd (cmul a (cadd (v id) (cconj (v id)))) (cmul b (csub (v id) (cconj (v id)))))); [ring|]. rewrite G, G'.
      rewrite (H2 (cadd (cmul a (creal (cre (v id)))) _)). ring.
  Qed.
  Lemma unzip_ok (x : item) : fst x < size -> Forall ok (unzip t x).
  Proof.
    intro L. destruct x as [id [a b]]. cbn [fst] in L. unfold unzip. destruct (herm t id); [repeat constructor; exact L|]. destruct (anti t id); [repeat constructor; exact L|].
    apply Forall_app. split; now apply put_ok.
  Qed.
  Lemma unzips_ok z : zok z -> Forall ok (flat_map (unzip t) z).
  Proof.
    intros [_ Z]. induction z as [|[id [a b]] z IH]; [constructor|]. cbn [flat_map]. apply Forall_app. split; [|apply IH; intros; apply (Z id0 a0 b0); now right].
    apply unzip_ok. apply (Z id a b). now left.
  Qed.
  Lemma unzips_value v z : assignment t v -> zok z -> Forall ok (flat_map (unzip t) z) /\ value v (flat_map (unzip t) z) = zvalue v z.
  Proof.
    intros A Z. destruct Z as [_ Z]. induction z as [|[id [a b]] z IH]; [split; [constructor|reflexivity]|]. cbn [flat_map].
    destruct (Z id a b (or_introl eq_refl)) as [L [Z1 Z2]]. destruct IH as [F V]; [intros; apply (Z id0 a0 b0); now right|]. split.
    - apply Forall_app. split; [now apply unzip_ok|exact F].
    - rewrite value_app, V, (unzip_value v (id, (a, b)) A L Z1 Z2). reflexivity.
  Qed.
  Variable srt : list mono -> list mono.
  Hypothesis HS : sorts t lt srt.
  Lemma zok_nil : zok []. Proof. split; [constructor|]. intros id a b []. Qed.
  Lemma import_spec re im p : NoDup (map fst re) -> NoDup (map fst im) -> basis_to_poly t srt re im = Some p ->
    canonical t lt p /\ forall v, assignment t v -> value v p = cadd (cdot re (real_elem t v)) (cmul ci (cdot im (imag_elem t v))).
  Proof.
    intros N1 N2 H. unfold basis_to_poly in H. destruct (zip_real t re []) as [z|] eqn:Z; [|discriminate]. destruct (zip_imag t im z) as [z'|] eqn:Z'; [|discriminate].
    injection H as <-.
    assert (G : forall v, zok z' /\ zvalue v z' = cadd (cdot re (real_elem t v)) (cmul ci (cdot im (imag_elem t v)))).
    { intro v. destruct (zip_real_spec v re [] z N1 zok_nil) as [Zk [Zb Zv]]; [intros id a b []|intros; auto|exact Z|].
      destruct (zip_imag_spec v im z z' N2 Zk) as [Zk' Zv']; [intros k w id a b _ _ Hz; now apply Zb in Hz|exact Z'|].
      split; [exact Zk'|]. rewrite Zv', Zv. cbn [zvalue fold_right]. ring. }
    split.
    - destruct (G (fun _ => c0)) as [Zk _]. apply (make_poly_canonical R t lt HO srt HS). now apply unzips_ok.
    - intros v A. destruct (G v) as [Zk E]. destruct (unzips_value v z' A Zk) as [F V]. rewrite (make_poly_value R t lt srt HS _ v F A), V. exact E.
  Qed.
  Lemma zip_real_throws : forall (l : list (nat * cx R)) z, zip_real t l z = None <-> exists k w, In (k, w) l /\ length (t_real t) <= k.
  Proof.
    induction l as [|[k w] l IH]; intro z; cbn [zip_real].
    - split; [discriminate|]. intros [k [w [[] _]]].
    - destruct (nth_error (t_real t) k) as [i|] eqn:K.
      + rewrite IH. pose proof (real_bound k i K). split; intros [k' [w' [H' L]]]; exists k', w'; (split; [|exact L]); [now right|].
        destruct H' as [E|H']; [injection E as <- <-; lia|exact H'].
      + split; [|reflexivity]. intros _. exists k, w. split; [now left|now apply nth_error_None].
  Qed.
  Lemma zip_imag_throws : forall (l : list (nat * cx R)) z, zip_imag t l z = None <-> exists k w, In (k, w) l /\ length (t_imag t) <= k.
  Proof.
    induction l as [|[k w] l IH]; intro z; cbn [zip_imag].
    - split; [discriminate|]. intros [k [w [[] _]]].
    - destruct (nth_error (t_imag t) k) as [i|] eqn:K.
      + rewrite IH. assert (k < length (t_imag t)) by (apply nth_error_Some; congruence). split; intros [k' [w' [H' L]]]; exists k', w'; (split; [|exact L]); [now right|].
        destruct H' as [E|H']; [injection E as <- <-; lia|exact H'].
      + split; [|reflexivity]. intros _. exists k, w. split; [now left|now apply nth_error_None].
  Qed.
  Lemma import_throws re im : basis_to_poly t srt re im = None <-> (exists k w, In (k, w) re /\ length (t_real t) <= k) \/ (exists k w, In (k, w) im /\ length (t_imag t) <= k).
  Proof.
    unfold basis_to_poly. destruct (zip_real t re []) as [z|] eqn:Z.
    - destruct (zip_imag t im z) as [z'|] eqn:Z'.
      + split; [discriminate|]. intros [H|H]; [apply (zip_real_throws re []) in H|apply (zip_imag_throws im z) in H]; congruence.
      + split; [|reflexivity]. intros _. right. now apply (zip_imag_throws im z).
    - split; [|reflexivity]. intros _. left. now apply (zip_real_throws re []).
  Qed.
  (** there and back *)
  Lemma cdot_real (l : list (nat * R)) a : cdot (real_vector l) a = creal (rdot l a).
  Proof.
    induction l as [|x l IH]; [reflexivity|]. cbn [real_vector map]. fold (real_vector l). rewrite cdot_cons, rdot_cons, IH. cbn [fst snd]. generalize (rdot l a). intro s.
    apply cx_ext; cbn; ring.
  Qed.
  Lemma real_vector_fst (l : list (nat * R)) : map fst (real_vector l) = map fst l.
  Proof. unfold real_vector. rewrite map_map. reflexivity. Qed.
  Lemma one_assignment : starts t -> exists v : nat -> cx R, assignment t v.
  Proof.
    intro ST. exists (fun i => if Nat.eqb i 1 then c1 else c0). destruct ST as [s0 [s1 [l [E [H A]]]]]. constructor; try reflexivity.
    - intros id s _ _. destruct (Nat.eqb id 1); reflexivity.
    - intros id s S Q. destruct (Nat.eqb_spec id 1) as [->|]; [|reflexivity]. rewrite E in S. cbn in S. injection S as <-. congruence.
  Qed.
  Lemma sparse_bound {A} (zv : A) n l : sparse zv n l -> forall k w, In (k, w) l -> k < n. Proof. intros [_ H] k w Hi. now apply H in Hi. Qed.
  Lemma real_vec_no_imag p re : canonical t lt p -> real_coefs p -> real_vec t p = Some re -> bv_imag re = [].
  Proof.
    intros C RC E1. unfold real_vec in E1. cbv zeta in E1. rewrite (paired_known p (canonical_ok R t lt p C)) in E1.
    injection E1 as <-. cbn [bv_imag]. pose proof (paired_real_coefs p RC) as K. unfold spread. induction (paired p) as [|[id [f c]] l IH]; [reflexivity|]. cbn [flat_map fst snd].
    rewrite IH; [|intros i0 f0 g0 Hi; apply (K i0 f0 g0); right; exact Hi]. destruct (K id f c (or_introl eq_refl)) as [X Y]. unfold az_bx. rewrite X, Y.
    replace (radd R (ropp R (r0 R)) (r0 R)) with (r0 R) by ring. unfold entry. destruct (im_index t id); [|reflexivity].
    assert (E : rzero (r0 R) = true) by now apply rzero_spec. rewrite E. reflexivity.
  Qed.
  Lemma round_trip p : starts t -> no_null t -> canonical t lt p -> real_coefs p ->
    exists re im, real_vec t p = Some re /\ imaginary_vec t p = Some im /\ basis_to_poly t srt (real_vector (bv_real re)) (real_vector (bv_imag im)) = Some p.
  Proof.
    intros ST NN C RC. destruct (real_vec_spec p C) as [re [E1 [S1 [S1' V1]]]]. destruct (imaginary_vec_spec p C RC) as [im [E2 [B0 [S2 V2]]]].
    exists re, im. split; [exact E1|]. split; [exact E2|].
    destruct (basis_to_poly t srt (real_vector (bv_real re)) (real_vector (bv_imag im))) as [q|] eqn:Q.
    - f_equal. apply import_spec in Q; [|rewrite real_vector_fst; apply S1|rewrite real_vector_fst; apply S2]. destruct Q as [CQ VQ].
      apply (canonical_unique R t lt HO q p ST NN CQ C). intros v A. rewrite (VQ v A), !cdot_real, (V2 v A).
      assert (Z : rdot (bv_imag re) (imag_elem t v) = r0 R) by (rewrite (real_vec_no_imag p re C RC E1); reflexivity).
      pose proof (V1 v A) as W. rewrite Z in W. apply cx_ext; cbn; [rewrite <- W; ring|ring].
    - exfalso. apply import_throws in Q. destruct Q as [[k [w [Hk L]]]|[k [w [Hk L]]]].
      + apply in_map_iff in Hk. destruct Hk as [[k' w'] [E Hk]]. injection E as <- _. apply (sparse_bound _ _ _ S1) in Hk. cbn in L. lia.
      + apply in_map_iff in Hk. destruct Hk as [[k' w'] [E Hk]]. injection E as <- _. apply (sparse_bound _ _ _ S2) in Hk. cbn in L. lia.
  Qed.

  (** ** masks *)
  Variable nonneg : R -> bool.
  Hypothesis NN1 : nonneg (r1 R) = true.
  Hypothesis NN2 : nonneg (ropp R (r1 R)) = false.
  Lemma mask2 (x y : mono) p : mask t nonneg (x :: y :: p) =
    match re_index t (m_id x), im_index t (m_id x) with
    | None, None => mask t nonneg (y :: p)
    | None, Some k => (fst (mask t nonneg (y :: p)), k :: snd (mask t nonneg (y :: p)))
    | Some k, None => (k :: fst (mask t nonneg (y :: p)), snd (mask t nonneg (y :: p)))
    | Some kr, Some ki =>
        if Nat.eqb (m_id y) (m_id x) then
          if r_eqb R (cnorm (m_f y)) (cnorm (m_f x)) then
            if is_zero (m_f y) then mask t nonneg p
            else let ratio := cmul (m_f x) (cinv (m_f y)) in
                 if negb (is_real ratio) then (kr :: fst (mask t nonneg p), ki :: snd (mask t nonneg p))
                 else if nonneg (cre ratio) then (kr :: fst (mask t nonneg p), snd (mask t nonneg p)) else (fst (mask t nonneg p), ki :: snd (mask t nonneg p))
          else (kr :: fst (mask t nonneg p), ki :: snd (mask t nonneg p))
        else (kr :: fst (mask t nonneg (y :: p)), ki :: snd (mask t nonneg (y :: p)))
    end.
  Proof. reflexivity. Qed.
  Lemma z_ax_c (f : cx R) : z_ax f c0 = f. Proof. unfold z_ax, az_ax, bz_ax. apply cx_ext; cbn; ring. Qed.
  Lemma z_ax_d (f : cx R) : z_ax c0 f = f. Proof. unfold z_ax, az_ax, bz_ax. apply cx_ext; cbn; ring. Qed.
  Lemma z_bx_eq (f c : cx R) : z_bx f c = cmul ci (csub f c). Proof. unfold z_bx, az_bx, bz_bx. apply cx_ext; cbn; ring. Qed.
  Lemma z_ax_eq (f c : cx R) : z_ax f c = cadd f c. Proof. reflexivity. Qed.
  Lemma ci_zero (x : cx R) : cmul ci x = c0 <-> x = c0.
  Proof.
    split; [|intros ->; ring]. intro E. assert (H : cmul ci (cmul ci x) = c0) by (rewrite E; ring). assert (G : cmul ci (cmul ci x) = copp x) by (apply cx_ext; cbn; ring).
    rewrite G in H. replace x with (copp (copp x)) by ring. rewrite H. ring.
  Qed.
  Lemma z_bx_zero (f c : cx R) : is_zero (z_bx f c) = true <-> f = c.
  Proof. rewrite is_zero_true, z_bx_eq, ci_zero. split; [|intros ->; ring]. intro E. replace f with (cadd (csub f c) c) by ring. rewrite E. ring. Qed.
  Lemma z_ax_zero (f c : cx R) : is_zero (z_ax f c) = true <-> f = copp c.
  Proof. rewrite is_zero_true, z_ax_eq. split; [|intros ->; ring]. intro E. replace f with (csub (cadd f c) c) by ring. rewrite E. ring. Qed.
  Lemma cnorm_opp (c : cx R) : cnorm (copp c) = cnorm c. Proof. unfold cnorm. cbn. ring. Qed.
  Lemma cnorm_mul (x y : cx R) : cnorm (cmul x y) = rmul R (cnorm x) (cnorm y). Proof. unfold cnorm. cbn. ring. Qed.
  Lemma cinv_mul (x : cx R) : x <> c0 -> cmul x (cinv x) = c1.
  Proof. intro N. pose proof (Field_theory.Finv_l (cx_field R) x N) as H. rewrite <- H. ring. Qed.
  Lemma cnorm_zero (x : cx R) : cnorm x = r0 R <-> x = c0.
  Proof.
    split; [|intros ->; unfold cnorm; cbn; ring]. intro E. unfold cnorm in E. apply cx_ext; cbn; [now apply (r_real R _ (cim x))|].
    apply (r_real R _ (cre x)). rewrite <- E. ring.
  Qed.
  Lemma sq_one (x : R) : rmul R x x = r1 R -> x = r1 R \/ x = ropp R (r1 R).
  Proof.
    intro E. destruct (r_eqb R x (r1 R)) eqn:Q; [left; now apply r_eqb_spec|]. right.
    assert (N : rsub R x (r1 R) <> r0 R).
    { intro Z. assert (x = r1 R) as X by (replace x with (radd R (rsub R x (r1 R)) (r1 R)) by ring; rewrite Z; ring). apply r_eqb_spec in X. congruence. }
    assert (Z : rmul R (rsub R x (r1 R)) (radd R x (r1 R)) = r0 R) by (transitivity (rsub R (rmul R x x) (r1 R)); [ring|rewrite E; ring]).
    assert (Y : radd R x (r1 R) = r0 R).
    { replace (radd R x (r1 R)) with (rmul R (rinv R (rsub R x (r1 R))) (rmul R (rsub R x (r1 R)) (radd R x (r1 R)))); [rewrite Z; ring|]. field. exact N. }
    replace x with (rsub R (radd R x (r1 R)) (r1 R)) by ring. rewrite Y. ring.
  Qed.
  (** the test on two coefficients of equal modulus *)
  Lemma ratio_test (f c : cx R) : c <> c0 -> cnorm c = cnorm f -> let r := cmul f (cinv c) in
    (is_real r = true /\ nonneg (cre r) = true /\ f = c) \/ (is_real r = true /\ nonneg (cre r) = false /\ f = copp c) \/ (is_real r = false /\ f <> c /\ f <> copp c).
  Proof.
    intros N E r. assert (F : f = cmul r c) by (unfold r; transitivity (cmul f (cmul c (cinv c))); [rewrite (cinv_mul c N); ring|ring]).
    assert (RD : r = cmul f (cinv c)) by reflexivity. clearbody r. destruct (is_real r) eqn:Q.
    - apply is_real_spec in Q. apply creal_part in Q. assert (NR : cnorm r = r1 R).
      { assert (NZ : cnorm c <> r0 R) by (rewrite cnorm_zero; exact N). rewrite F, cnorm_mul in E.
        replace (cnorm r) with (rmul R (rmul R (cnorm r) (cnorm c)) (rinv R (cnorm c))) by (field; exact NZ). rewrite <- E. field. exact NZ. }
      unfold cnorm in NR. rewrite Q in NR. destruct (sq_one (cre r)) as [X|X]; [rewrite <- NR; ring| |]; rewrite X.
      + left. split; [reflexivity|]. split; [exact NN1|]. rewrite F. apply cx_ext; cbn; rewrite Q, X; ring.
      + right. left. split; [reflexivity|]. split; [exact NN2|]. rewrite F. apply cx_ext; cbn; rewrite Q, X; ring.
    - right. right. split; [reflexivity|]. split; intro X.
      + assert (r = c1) as Y by (rewrite RD, X; apply cinv_mul, N). rewrite Y in Q. assert (is_real (@c1 R) = true) by (apply is_real_spec, cconj_1). congruence.
      + assert (r = copp c1) as Y by (rewrite RD, X; transitivity (copp (cmul c (cinv c))); [ring|now rewrite (cinv_mul c N)]). rewrite Y in Q.
        assert (is_real (copp (@c1 R)) = true) by (apply is_real_spec; rewrite cconj_opp, cconj_1; reflexivity). congruence.
  Qed.
  Notation res := (fun l => spread (fun id f c => entry is_zero (re_index t id) (z_ax f c) (z_ax f c)) l).
  Notation ims := (fun l => spread (fun id f c => entry is_zero (im_index t id) (z_bx f c) (z_bx f c)) l).
  Lemma entry_some {A} zero k (te w : A) : map fst (entry zero (Some k) te w) = if zero te then [] else [k]. Proof. unfold entry. now destruct (zero te). Qed.
  Lemma opp_zero (f : cx R) : f <> c0 -> is_zero (copp f) = false. Proof. intro N. apply is_zero_false. intro E. apply N. replace f with (copp (copp f)) by ring. rewrite E. ring. Qed.
  Lemma single_re (f : cx R) : f <> c0 -> is_zero (z_ax f c0) = false /\ is_zero (z_ax c0 f) = false.
  Proof. intro N. rewrite z_ax_c, z_ax_d. split; now apply is_zero_false. Qed.
  Lemma single_im (f : cx R) : f <> c0 -> is_zero (z_bx f c0) = false /\ is_zero (z_bx c0 f) = false.
  Proof.
    intro N. split; [destruct (is_zero (z_bx f c0)) eqn:E|destruct (is_zero (z_bx c0 f)) eqn:E]; auto; apply z_bx_zero in E; congruence.
  Qed.
  Lemma mask_items : forall p, canonical t lt p -> mask t nonneg p = (map fst (res (paired p)), map fst (ims (paired p))).
  Proof.
    apply (two_ind R (fun p => canonical t lt p -> mask t nonneg p = (map fst (res (paired p)), map fst (ims (paired p))))).
    - reflexivity.
    - intros x C. destruct (cp_terms t lt _ C x (or_introl eq_refl)) as [_ [NZ _]]. destruct (single_re _ NZ) as [A1 A2]. destruct (single_im _ NZ) as [B1 B2].
      cbn [mask paired]. destruct (m_cj x); rewrite !spread_cons; cbn [fst snd spread flat_map]; rewrite !app_nil_r;
        destruct (re_index t (m_id x)), (im_index t (m_id x)); rewrite ?entry_some, ?A1, ?A2, ?B1, ?B2; reflexivity.
    - intros x y p I J C. assert (Cy := canonical_tail _ _ _ _ _ C). assert (Cp := canonical_tail _ _ _ _ _ Cy). rewrite mask2, paired2.
      destruct (cp_terms t lt _ C x (or_introl eq_refl)) as [L [NZ _]]. destruct (cp_terms t lt _ Cy y (or_introl eq_refl)) as [_ [NZy _]].
      destruct (single_re _ NZ) as [A1 A2]. destruct (single_im _ NZ) as [B1 B2].
      destruct (Nat.eqb_spec (m_id y) (m_id x)) as [E|E].
      + destruct (pair_facts R t lt HO x y p C (eq_sym E)) as [X [Y [H A]]]. rewrite X.
        destruct (re_index t (m_id x)) as [kr|] eqn:K1; [|apply re_index_none in K1; [congruence|exact L]].
        destruct (im_index t (m_id x)) as [ki|] eqn:K2; [|apply im_index_none in K2; [congruence|exact L]].
        rewrite (I Cp). rewrite !spread_cons. cbn [fst snd]. rewrite K1, K2, !map_app, !entry_some.
        destruct (r_eqb R (cnorm (m_f y)) (cnorm (m_f x))) eqn:Q.
        * apply r_eqb_spec in Q. assert (Zy : is_zero (m_f y) = false) by now apply is_zero_false. rewrite Zy. cbv zeta.
          assert (S1 : m_f x = m_f y -> is_zero (z_ax (m_f x) (m_f y)) = false).
          { intro F. destruct (is_zero (z_ax (m_f x) (m_f y))) eqn:W; [|reflexivity]. exfalso. apply z_ax_zero in W. apply NZy. rewrite F in W.
            apply cx_ext; apply double_zero; [pose proof (f_equal (@cre R) W) as W'|pose proof (f_equal (@cim R) W) as W']; cbn in W' |- *; rewrite W' at 1; ring. }
          destruct (ratio_test _ _ NZy Q) as [[R1 [R2 F]]|[[R1 [R2 F]]|[R1 [F F']]]]; rewrite R1; cbn [negb]; rewrite ?R2.
          -- rewrite (S1 F). assert (W : is_zero (z_bx (m_f x) (m_f y)) = true) by now apply z_bx_zero. rewrite W. reflexivity.
          -- assert (W : is_zero (z_ax (m_f x) (m_f y)) = true) by now apply z_ax_zero. rewrite W.
             destruct (is_zero (z_bx (m_f x) (m_f y))) eqn:W'; [|reflexivity]. apply z_bx_zero in W'. rewrite (S1 W') in W. discriminate.
          -- destruct (is_zero (z_ax (m_f x) (m_f y))) eqn:W; [apply z_ax_zero in W; contradiction|].
             destruct (is_zero (z_bx (m_f x) (m_f y))) eqn:W'; [apply z_bx_zero in W'; contradiction|]. reflexivity.
        * assert (Q' : cnorm (m_f y) <> cnorm (m_f x)) by (intro F; apply r_eqb_spec in F; congruence).
          destruct (is_zero (z_ax (m_f x) (m_f y))) eqn:W; [apply z_ax_zero in W; rewrite W, cnorm_opp in Q'; congruence|].
          destruct (is_zero (z_bx (m_f x) (m_f y))) eqn:W'; [apply z_bx_zero in W'; congruence|]. reflexivity.
      + rewrite (J Cy). destruct (m_cj x); rewrite !(spread_cons _ (m_id x, _)), !map_app; cbn [fst snd];
          destruct (re_index t (m_id x)), (im_index t (m_id x)); rewrite ?entry_some, ?A1, ?A2, ?B1, ?B2; reflexivity.
  Qed.
  Lemma mask_spec p : canonical t lt p -> exists w, complex_vec t p = Some w /\ mask t nonneg p = (map fst (bv_real w), map fst (bv_imag w)).
  Proof.
    intro C. unfold complex_vec. cbv zeta. rewrite (paired_known p (canonical_ok R t lt p C)). eexists. split; [reflexivity|]. cbn [bv_real bv_imag]. now apply mask_items.
  Qed.
  (** one monomial: right, except that index 0 is left out *)
  Lemma mask_mono_spec x : canonical t lt [x] -> mask_mono t x = (filter (Nat.ltb 0) (fst (mask t nonneg [x])), filter (Nat.ltb 0) (snd (mask t nonneg [x]))).
  Proof.
    intro C. destruct (cp_terms t lt _ C x (or_introl eq_refl)) as [_ [NZ [NI _]]]. unfold mask_mono. destruct (Nat.eqb_spec (m_id x) 0) as [?|_]; [contradiction|].
    assert (Z : is_zero (m_f x) = false) by now apply is_zero_false. rewrite Z. cbn [orb mask].
    destruct (re_index t (m_id x)) as [kr|], (im_index t (m_id x)) as [ki|]; cbn [fst snd filter app]; reflexivity.
  Qed.
End Basis.
