(** Proofs about polynomials. *)
From Coq Require Import List NArith ZArith Arith Bool Sorted Permutation Lia Ring Field.
From Verif Require Import CoreModel FieldModel FieldProofs SymModel SymSpec PolyModel PolySpec.
Import ListNotations.

Section Base.
  Variable R : rfield.
  Add Field Rf : (r_field R).
  Add Field Cf : (cx_field R).
  Notation mono := (mono R).

  Lemma is_zero_true (f : cx R) : is_zero f = true <-> f = c0. Proof. apply ceqb_spec. Qed.
  Lemma is_zero_false (f : cx R) : is_zero f = false <-> f <> c0. Proof. apply ceqb_false. Qed.
  Lemma same_term_spec (a b : mono) : same_term a b = true <-> m_id a = m_id b /\ m_cj a = m_cj b.
  Proof. unfold same_term. now rewrite andb_true_iff, Nat.eqb_eq, eqb_true_iff. Qed.

  (** ** values *)
  Lemma value_cons v (x : mono) l : value v (x :: l) = cadd (term_value v x) (value v l). Proof. reflexivity. Qed.
  Lemma value_app v (l l' : list mono) : value v (l ++ l') = cadd (value v l) (value v l').
  Proof. induction l as [|x l IH]; cbn [app]; [cbn; ring|]. rewrite !value_cons, IH. ring. Qed.
  Lemma value_perm v (l l' : list mono) : Permutation l l' -> value v l = value v l'.
  Proof. induction 1; rewrite ?value_cons; try congruence; ring. Qed.
  Lemma value_dedup v : forall (l : list mono) lag, value v (dedup_from lag l) = value v (lag :: l).
  Proof.
    induction l as [|x l IH]; intro lag; [reflexivity|]. cbn [dedup_from]. destruct (same_term lag x) eqn:E.
    - rewrite IH, !value_cons. apply same_term_spec in E as [E1 E2]. unfold term_value. cbn [set_f m_id m_cj m_f]. rewrite E1, E2. ring.
    - rewrite !value_cons, IH. rewrite value_cons. ring.
  Qed.
  Lemma value_duplicates v (l : list mono) : value v (remove_duplicates l) = value v l.
  Proof. destruct l; [reflexivity|]. apply value_dedup. Qed.
  Lemma value_zeros v (l : list mono) : v 0 = c0 -> value v (remove_zeros l) = value v l.
  Proof.
    intro H. induction l as [|x l IH]; [reflexivity|]. unfold remove_zeros in *. cbn [filter].
    destruct (is_zero (m_f x) || (m_id x =? 0)) eqn:E; cbn [negb]; rewrite ?value_cons, IH; [|reflexivity].
    unfold term_value. apply orb_true_iff in E as [E|E].
    - apply is_zero_true in E. rewrite E. ring.
    - apply Nat.eqb_eq in E. rewrite E, H. replace (if m_cj x then cconj c0 else c0) with (@c0 R) by (destruct (m_cj x); now rewrite ?cconj_0). ring.
  Qed.

  Lemma herm_sym t id s : nth_error (t_syms t) id = Some s -> herm t id = sy_herm s.
  Proof. intro H. unfold herm, sym_of. now rewrite (nth_error_nth _ _ _ H). Qed.
  Lemma anti_sym t id s : nth_error (t_syms t) id = Some s -> anti t id = sy_anti s.
  Proof. intro H. unfold anti, sym_of. now rewrite (nth_error_nth _ _ _ H). Qed.
  Lemma in_table_sym t id : id < length (t_syms t) -> exists s, nth_error (t_syms t) id = Some s.
  Proof. intro H. destruct (nth_error (t_syms t) id) eqn:E; [eauto|]. apply nth_error_None in E. lia. Qed.
  Lemma as_herm' t (v : nat -> cx R) id : assignment t v -> id < length (t_syms t) -> herm t id = true -> cconj (v id) = v id.
  Proof.
    intros A L H. destruct (in_table_sym t id L) as [s E]. apply creal_part. apply (as_herm t v A id s E). now rewrite <- (herm_sym t id s E).
  Qed.
  Lemma as_anti' t (v : nat -> cx R) id : assignment t v -> id < length (t_syms t) -> anti t id = true -> cconj (v id) = copp (v id).
  Proof.
    intros A L H. destruct (in_table_sym t id L) as [s E]. apply cimag_part. apply (as_anti t v A id s E). now rewrite <- (anti_sym t id s E).
  Qed.
  Lemma fix_term_value t v (x : mono) : assignment t v -> in_table t x -> term_value v (fix_term t x) = term_value v x.
  Proof.
    intros A L. unfold fix_term, term_value. destruct x as [id cj f]. cbn [m_id m_cj m_f]. unfold in_table in L. cbn in L.
    destruct (herm t id) eqn:H; cbn [m_id m_cj m_f].
    - rewrite andb_false_r. cbn. destruct cj; [|reflexivity]. now rewrite (as_herm' t v id A L H).
    - destruct (anti t id) eqn:H'; cbn [andb]; [|reflexivity]. destruct cj; cbn; [|reflexivity].
      rewrite (as_anti' t v id A L H'). ring.
  Qed.
  Lemma fix_value t v (l : list mono) : assignment t v -> Forall (in_table t) l -> value v (map (fix_term t) l) = value v l.
  Proof.
    intros A. induction 1 as [|x l H F IH]; [reflexivity|]. cbn [map]. rewrite !value_cons, IH. now rewrite fix_term_value.
  Qed.
  Lemma fix_term_id t (x : mono) : m_id (fix_term t x) = m_id x.
  Proof. unfold fix_term. destruct (herm t (m_id x)); cbn [m_id m_cj]; [now rewrite andb_false_r|]. destruct (_ && _); reflexivity. Qed.
  Lemma fix_term_cj t (x : mono) : herm t (m_id x) = true \/ anti t (m_id x) = true -> m_cj (fix_term t x) = false.
  Proof.
    intro H. unfold fix_term. destruct (herm t (m_id x)); cbn [m_id m_cj]; [now rewrite andb_false_r|].
    destruct H as [H|H]; [discriminate|]. rewrite H. cbn. destruct (m_cj x) eqn:E; [reflexivity|exact E].
  Qed.
  Lemma fix_term_generic t (x : mono) : herm t (m_id x) = false -> anti t (m_id x) = false -> fix_term t x = x.
  Proof. intros H H'. unfold fix_term. now rewrite H, H'. Qed.
  Lemma fix_term_done t (x : mono) : (herm t (m_id x) = true \/ anti t (m_id x) = true -> m_cj x = false) -> fix_term t x = x.
  Proof.
    intro H. unfold fix_term. destruct x as [id cj f]. cbn [m_id m_cj m_f] in *. destruct (herm t id) eqn:E; cbn [m_id m_cj].
    - rewrite andb_false_r, (H (or_introl eq_refl)). reflexivity.
    - destruct (anti t id) eqn:E'; [|reflexivity]. rewrite (H (or_intror eq_refl)). reflexivity.
  Qed.
  Lemma in_table_map t (f : mono -> mono) (l : list mono) : (forall x, m_id (f x) = m_id x) -> Forall (in_table t) l -> Forall (@in_table R t) (map f l).
  Proof. intros H. induction 1 as [|x l A F IH]; cbn; constructor; [|exact IH]. unfold in_table in *. now rewrite H. Qed.
End Base.

(** ** the order of terms *)
Section Order.
  Variable R : rfield.
  Add Field Rf2 : (r_field R).
  Add Field Cf2 : (cx_field R).
  Notation mono := (mono R).
  Variable t : table.
  Variable lt : mono -> mono -> bool.
  Hypothesis HO : term_order t lt.
  Notation ok := (@in_table R t).

  Lemma lt_irr (x : mono) : ok x -> lt x x = false.
  Proof.
    destruct HO as [rk [I E]]. intro H. destruct (lt x x) eqn:L; [|reflexivity]. apply E in L; auto. destruct L as [L|[_ [A B]]]; [lia|congruence].
  Qed.
  Lemma lt_trans x y z : ok x -> ok y -> ok z -> lt x y = true -> lt y z = true -> lt x z = true.
  Proof.
    destruct HO as [rk [I E]]. intros Hx Hy Hz A B. apply E in A; auto. apply E in B; auto. apply E; auto.
    destruct A as [A|[A1 [A2 A3]]], B as [B|[B1 [B2 B3]]].
    - left. lia.
    - left. now rewrite <- B1.
    - left. now rewrite A1.
    - congruence.
  Qed.
  Lemma lt_asym x y : ok x -> ok y -> lt x y = true -> lt y x = false.
  Proof.
    intros Hx Hy A. destruct (lt y x) eqn:B; [|reflexivity]. pose proof (lt_trans x y x Hx Hy Hx A B) as C. rewrite (lt_irr x Hx) in C. discriminate.
  Qed.
  Lemma lt_total x y : ok x -> ok y -> lt x y = false -> lt y x = false -> same_term x y = true.
  Proof.
    destruct HO as [rk [I E]]. intros Hx Hy A B. apply same_term_spec.
    assert (A' : ~ ((rk (m_id x) < rk (m_id y))%N \/ (m_id x = m_id y /\ m_cj x = false /\ m_cj y = true))) by (rewrite <- E by auto; congruence).
    assert (B' : ~ ((rk (m_id y) < rk (m_id x))%N \/ (m_id y = m_id x /\ m_cj y = false /\ m_cj x = true))) by (rewrite <- E by auto; congruence).
    assert (Q : m_id x = m_id y) by (apply I; auto; lia). split; [exact Q|].
    destruct (m_cj x) eqn:C, (m_cj y) eqn:D; auto; exfalso; [apply B'|apply A']; right; auto.
  Qed.
  Lemma lt_same x x' y y' : ok x -> ok y -> same_term x x' = true -> same_term y y' = true -> lt x y = lt x' y'.
  Proof.
    destruct HO as [rk [I E]]. intros Hx Hy A B. apply same_term_spec in A as [A1 A2]. apply same_term_spec in B as [B1 B2].
    assert (Hx' : ok x') by (unfold in_table in *; congruence). assert (Hy' : ok y') by (unfold in_table in *; congruence).
    destruct (lt x y) eqn:L, (lt x' y') eqn:L'; auto; exfalso.
    - apply E in L; auto. rewrite A1, A2, B1, B2 in L. apply E in L; auto. congruence.
    - apply E in L'; auto. rewrite <- A1, <- A2, <- B1, <- B2 in L'. apply E in L'; auto. congruence.
  Qed.
  Lemma lt_not_same x y : ok x -> ok y -> lt x y = true -> same_term x y = false.
  Proof.
    intros Hx Hy L. destruct (same_term x y) eqn:S; [|reflexivity]. exfalso.
    rewrite (lt_same x y y y Hx Hy S) in L; [|apply same_term_spec; auto]. rewrite (lt_irr y Hy) in L. discriminate.
  Qed.
  Lemma lt_le x y z : ok x -> ok y -> ok z -> lt x y = true -> lt z y = false -> lt x z = true.
  Proof.
    intros Hx Hy Hz A B. destruct (lt y z) eqn:C; [now apply (lt_trans x y z)|].
    pose proof (lt_total y z Hy Hz C B) as S. rewrite <- (lt_same x x y z Hx Hy); auto. apply same_term_spec; auto.
  Qed.
  Lemma le_lt x y z : ok x -> ok y -> ok z -> lt y x = false -> lt y z = true -> lt x z = true.
  Proof.
    intros Hx Hy Hz A B. destruct (lt x y) eqn:C; [now apply (lt_trans x y z)|].
    pose proof (lt_total x y Hx Hy C A) as S. rewrite (lt_same x y z z Hx Hz S); auto. apply same_term_spec; auto.
  Qed.

  Notation weak := (fun x y => lt y x = false).
  Notation strict := (fun x y => lt x y = true).
  Lemma same_refl (x : mono) : same_term x x = true. Proof. apply same_term_spec. auto. Qed.
  Lemma dedup_in : forall (l : list mono) lag z, In z (dedup_from lag l) -> exists y, In y (lag :: l) /\ same_term z y = true.
  Proof.
    induction l as [|x l IH]; intros lag z H.
    - exists z. split; [exact H|apply same_refl].
    - cbn [dedup_from] in H. destruct (same_term lag x) eqn:E.
      + apply IH in H as [y [Hy S]]. destruct Hy as [<-|Hy].
        * exists lag. split; [now left|]. exact S.
        * exists y. split; [now right; right|exact S].
      + destruct H as [<-|H]; [exists lag; split; [now left|apply same_refl]|].
        apply IH in H as [y [Hy S]]. exists y. split; [now right|exact S].
  Qed.
  Lemma dedup_sorted : forall (l : list mono) lag, Forall ok (lag :: l) -> StronglySorted weak (lag :: l) ->
    StronglySorted strict (dedup_from lag l).
  Proof.
    induction l as [|x l IH]; intros lag F S.
    - cbn. constructor; constructor.
    - inversion F as [|? ? K F']. inversion F' as [|? ? K' F'']. subst. inversion S as [|? ? S' A]. subst. inversion S' as [|? ? S'' A']. subst.
      inversion A as [|? ? A1 A2]. subst. cbn [dedup_from]. destruct (same_term lag x) eqn:E.
      + apply IH.
        * constructor; [exact K|exact F''].
        * constructor; [exact S''|]. apply Forall_forall. intros y Hy. rewrite Forall_forall in A2, F''.
          rewrite (lt_same y y _ lag); auto; [apply same_refl|]. apply same_term_spec. split; reflexivity.
      + constructor.
        * now apply IH.
        * apply Forall_forall. intros z Hz. apply dedup_in in Hz as [y [Hy Sy]].
          assert (Ky : ok y) by (rewrite Forall_forall in F'; now apply F').
          assert (L : lt lag x = true).
          { destruct (lt lag x) eqn:Q; [reflexivity|]. rewrite (lt_total lag x K K' Q A1) in E. discriminate. }
          assert (Ly : lt lag y = true).
          { destruct Hy as [<-|Hy]; [exact L|]. rewrite Forall_forall in A'. apply (lt_le lag x y K K' Ky L). now apply A'. }
          rewrite (lt_same lag lag z y); auto; [unfold in_table in *; apply same_term_spec in Sy as [-> _]; exact Ky|apply same_refl].
  Qed.
  Lemma filter_sorted {A} (r : A -> A -> Prop) p l : StronglySorted r l -> StronglySorted r (filter p l).
  Proof.
    induction 1 as [|x l S IH F]; cbn; [constructor|]. destruct (p x); [|exact IH]. constructor; [exact IH|].
    apply Forall_forall. intros y Hy. apply filter_In in Hy as [Hy _]. rewrite Forall_forall in F. auto.
  Qed.

  Variable srt : list mono -> list mono.
  Hypothesis HS : sorts t lt srt.
  Lemma tidy_value v l : v 0 = c0 -> Forall ok l -> value v (tidy srt l) = value v l.
  Proof.
    intros H F. unfold tidy. rewrite (value_zeros R v _ H). destruct (1 <? length l); [|reflexivity].
    rewrite value_duplicates. symmetry. apply value_perm. now apply HS.
  Qed.
  Lemma tidy_in l z : Forall ok l -> In z (tidy srt l) -> exists y, In y l /\ same_term z y = true.
  Proof.
    intros F H. unfold tidy, remove_zeros in H. apply filter_In in H as [H _]. destruct (1 <? length l).
    - destruct (HS l F) as [P _]. unfold remove_duplicates in H. destruct (srt l) as [|x l'] eqn:E; [easy|].
      apply dedup_in in H as [y [Hy S]]. exists y. split; [|exact S]. eapply Permutation_in; [apply Permutation_sym; exact P|exact Hy].
    - exists z. split; [exact H|apply same_refl].
  Qed.
  Lemma tidy_sorted l : Forall ok l -> StronglySorted strict (tidy srt l).
  Proof.
    intro F. unfold tidy, remove_zeros. apply filter_sorted. destruct (1 <? length l) eqn:E.
    - destruct (HS l F) as [P S]. unfold remove_duplicates. destruct (srt l) as [|x l'] eqn:Q; [constructor|].
      apply dedup_sorted; [|exact S]. rewrite Forall_forall in F |- *. intros y Hy. apply F. eapply Permutation_in; [apply Permutation_sym; exact P|exact Hy].
    - destruct l as [|x [|y l]]; [constructor|repeat constructor|discriminate].
  Qed.
  Lemma tidy_nonzero l z : In z (tidy srt l) -> m_f z <> c0 /\ m_id z <> 0.
  Proof.
    intro H. unfold tidy, remove_zeros in H. apply filter_In in H as [_ H]. apply negb_true_iff, orb_false_iff in H as [A B].
    apply is_zero_false in A. apply Nat.eqb_neq in B. auto.
  Qed.
  Lemma make_poly_canonical l : Forall ok l -> canonical t lt (make_poly t srt l).
  Proof.
    intro F. unfold make_poly, fix_cc_in_place. cbn [fst andb]. 
    assert (F' : Forall ok (map (fix_term t) l)) by (apply in_table_map; [apply fix_term_id|exact F]).
    constructor; [now apply tidy_sorted|]. intros x Hx. destruct (tidy_nonzero _ _ Hx) as [A B].
    destruct (tidy_in _ _ F' Hx) as [y [Hy S]]. apply same_term_spec in S as [S1 S2].
    assert (K : ok x) by (rewrite Forall_forall in F'; specialize (F' y Hy); unfold in_table in *; congruence).
    repeat split; auto. intro H. apply in_map_iff in Hy as [w [<- Hw]]. rewrite S2. apply fix_term_cj. rewrite S1, fix_term_id in H. exact H.
  Qed.
  Lemma make_poly_value l v : Forall ok l -> assignment t v -> value v (make_poly t srt l) = value v l.
  Proof.
    intros F A. unfold make_poly, fix_cc_in_place. cbn [fst andb]. rewrite tidy_value; [|apply (as_zero t v A)|apply in_table_map; [apply fix_term_id|exact F]].
    now apply fix_value.
  Qed.
  Lemma make_poly_in l z : Forall ok l -> In z (make_poly t srt l) -> ok z.
  Proof. intros F H. now apply (cp_terms t lt _ (make_poly_canonical l F)). Qed.

  (** ** canonical forms are unique *)
  Definition coef (id : nat) (cj : bool) (p : list mono) : cx R :=
    fold_right (fun x s => if Nat.eqb (m_id x) id && Bool.eqb (m_cj x) cj then cadd (m_f x) s else s) c0 p.
  Lemma coef_absent id cj p : (forall x, In x p -> m_id x = id -> m_cj x = cj -> False) -> coef id cj p = c0.
  Proof.
    induction p as [|x p IH]; intro H; [reflexivity|]. cbn [coef fold_right]. fold (coef id cj p).
    destruct ((m_id x =? id) && Bool.eqb (m_cj x) cj) eqn:E.
    - apply andb_true_iff in E as [A B]. apply Nat.eqb_eq in A. apply eqb_prop in B. exfalso. exact (H x (or_introl eq_refl) A B).
    - apply IH. intros y Hy. apply H. now right.
  Qed.
  Lemma coef_head x p : Forall ok (x :: p) -> StronglySorted strict (x :: p) -> coef (m_id x) (m_cj x) (x :: p) = m_f x.
  Proof.
    intros F S. cbn [coef fold_right]. fold (coef (m_id x) (m_cj x) p). rewrite Nat.eqb_refl, eqb_reflx. cbn [andb].
    rewrite coef_absent; [ring|]. intros y Hy A B. inversion S as [|? ? _ L]. subst. rewrite Forall_forall in L.
    inversion F as [|? ? K F']. subst. rewrite Forall_forall in F'. specialize (L y Hy).
    pose proof (lt_not_same x y K (F' y Hy) L) as Q.
    assert (same_term x y = true) by (apply same_term_spec; auto). congruence.
  Qed.
  Lemma coef_tail x p id cj : Forall ok (x :: p) -> StronglySorted strict (x :: p) ->
    coef id cj p = if (m_id x =? id) && Bool.eqb (m_cj x) cj then c0 else coef id cj (x :: p).
  Proof.
    intros F S. destruct ((m_id x =? id) && Bool.eqb (m_cj x) cj) eqn:E.
    - apply andb_true_iff in E as [A B]. apply Nat.eqb_eq in A. apply eqb_prop in B. subst.
      assert (H := coef_head x p F S). cbn [coef fold_right] in H. fold (coef (m_id x) (m_cj x) p) in H. rewrite Nat.eqb_refl, eqb_reflx in H. cbn [andb] in H.
      replace (coef (m_id x) (m_cj x) p) with (csub (cadd (m_f x) (coef (m_id x) (m_cj x) p)) (m_f x)) by ring. rewrite H. ring.
    - cbn [coef fold_right]. now rewrite E.
  Qed.
  Lemma sorted_below x y p : Forall ok (y :: p) -> ok x -> StronglySorted strict (y :: p) -> lt x y = true -> coef (m_id x) (m_cj x) (y :: p) = c0.
  Proof.
    intros F K S L. apply coef_absent. intros z Hz A B. rewrite Forall_forall in F. assert (same_term x z = true) by (apply same_term_spec; auto).
    assert (lt x z = true); [|rewrite (lt_not_same x z K (F z Hz)) in H; congruence].
    destruct Hz as [<-|Hz]; [exact L|]. inversion S as [|? ? _ A']. subst. rewrite Forall_forall in A'.
    apply (lt_trans x y z); auto; apply F; [now left|now right].
  Qed.
  Lemma coefs_equal : forall p q, Forall ok p -> Forall ok q -> StronglySorted strict p -> StronglySorted strict q ->
    (forall x, In x p -> m_f x <> c0) -> (forall x, In x q -> m_f x <> c0) -> (forall id cj, coef id cj p = coef id cj q) -> p = q.
  Proof.
    induction p as [|x p IH]; intros q Fp Fq Sp Sq Np Nq H.
    - destruct q as [|y q]; [reflexivity|]. exfalso. apply (Nq y); [now left|]. rewrite <- (coef_head y q Fq Sq). now rewrite <- H.
    - destruct q as [|y q]; [exfalso; apply (Np x); [now left|]; rewrite <- (coef_head x p Fp Sp); now rewrite H|].
      inversion Fp as [|? ? Kx Fp']. inversion Fq as [|? ? Ky Fq']. subst.
      destruct (lt x y) eqn:L; [exfalso; apply (Np x); [now left|]; rewrite <- (coef_head x p Fp Sp), H; now apply sorted_below|].
      destruct (lt y x) eqn:L'; [exfalso; apply (Nq y); [now left|]; rewrite <- (coef_head y q Fq Sq), <- H; now apply sorted_below|].
      pose proof (lt_total x y Kx Ky L L') as S. apply same_term_spec in S as [S1 S2].
      assert (E : m_f x = m_f y) by (rewrite <- (coef_head x p Fp Sp), <- (coef_head y q Fq Sq), S1, S2; apply H).
      assert (x = y) by (destruct x, y; cbn in *; subst; reflexivity). subst y. f_equal.
      inversion Sp. inversion Sq. subst. apply IH; auto; [intros z Hz; apply Np; now right|intros z Hz; apply Nq; now right|].
      intros id cj. rewrite (coef_tail x p id cj Fp Sp), (coef_tail x q id cj Fq Sq). now rewrite H.
  Qed.

  (** assignments that pick out one symbol *)
  Definition pick (id : nat) (z : cx R) (i : nat) : cx R := if Nat.eqb i 1 then c1 else if Nat.eqb i id then z else c0.
  Lemma value_pick id z p : id <> 1 ->
    value (pick id z) p = cadd (cadd (coef 1 false p) (coef 1 true p)) (cadd (cmul (coef id false p) z) (cmul (coef id true p) (cconj z))).
  Proof.
    intro N. induction p as [|x p IH]; [cbn; apply cx_ext; cbn; ring|]. rewrite value_cons, IH. unfold term_value, pick. cbn [coef fold_right].
    fold (coef 1 false p) (coef 1 true p) (coef id false p) (coef id true p). destruct x as [i cj f]. cbn [m_id m_cj m_f].
    destruct (Nat.eqb_spec i 1) as [E|E].
    - subst i. destruct (Nat.eqb_spec 1 id) as [E'|E']; [lia|]. destruct cj; cbn [andb Bool.eqb]; rewrite ?cconj_1; ring.
    - destruct (Nat.eqb_spec i id) as [E'|E']; destruct cj; cbn [andb Bool.eqb]; rewrite ?cconj_0; ring.
  Qed.
  Lemma pick_assignment id z : starts t -> id <> 0 -> id <> 1 -> id < length (t_syms t) -> (herm t id = true -> cim z = r0 R) -> (anti t id = true -> cre z = r0 R) ->
    assignment t (pick id z).
  Proof.
    intros [s0 [s1 [l [E [H1 H2]]]]] N0 N1 L Hh Ha. constructor.
    - unfold pick. change (0 =? 1) with false. destruct (Nat.eqb_spec 0 id); [lia|reflexivity].
    - reflexivity.
    - intros i s Q Hs. unfold pick. destruct (Nat.eqb_spec i 1) as [E1|E1]; [reflexivity|]. destruct (Nat.eqb_spec i id) as [E2|E2]; [|reflexivity].
      apply Hh. subst i. now rewrite (herm_sym t id s Q).
    - intros i s Q Hs. unfold pick. destruct (Nat.eqb_spec i 1) as [E1|E1].
      + subst i. rewrite E in Q. cbn in Q. injection Q as <-. congruence.
      + destruct (Nat.eqb_spec i id) as [E2|E2]; [|reflexivity]. apply Ha. subst i. now rewrite (anti_sym t id s Q).
  Qed.
  Lemma starts_size : starts t -> 2 <= length (t_syms t).
  Proof. intros [s0 [s1 [l [E _]]]]. rewrite E. cbn. lia. Qed.
  Lemma starts_herm1 : starts t -> herm t 1 = true.
  Proof. intros [s0 [s1 [l [E [H _]]]]]. unfold herm, sym_of. now rewrite E. Qed.
  Lemma canonical_ok p : canonical t lt p -> Forall ok p.
  Proof. intro C. apply Forall_forall. intros x Hx. apply (cp_terms t lt p C x Hx). Qed.
  Lemma coef_out p id cj : canonical t lt p -> length (t_syms t) <= id \/ id = 0 -> coef id cj p = c0.
  Proof.
    intros C H. apply coef_absent. intros x Hx A _. destruct (cp_terms t lt p C x Hx) as [K [_ [Z _]]]. unfold in_table in K. lia.
  Qed.
  Lemma coef_cj p id : canonical t lt p -> herm t id = true \/ anti t id = true -> coef id true p = c0.
  Proof.
    intros C H. apply coef_absent. intros x Hx A B. destruct (cp_terms t lt p C x Hx) as [_ [_ [_ Z]]]. subst id. rewrite (Z H) in B. discriminate.
  Qed.
  Lemma coef1 p v0 : canonical t lt p -> starts t -> (forall i, v0 i = if Nat.eqb i 1 then c1 else c0) -> value v0 p = coef 1 false p.
  Proof.
    intros C S H. assert (E : coef 1 true p = c0) by (apply coef_cj; [exact C|left; now apply starts_herm1]).
    transitivity (cadd (coef 1 false p) (coef 1 true p)); [|rewrite E; ring]. clear C E. induction p as [|x p IH]; [cbn; ring|].
    rewrite value_cons, IH. unfold term_value. rewrite H. cbn [coef fold_right]. fold (coef 1 false p) (coef 1 true p).
    destruct x as [i cj f]. cbn [m_id m_cj m_f]. destruct (i =? 1), cj; cbn [andb Bool.eqb]; rewrite ?cconj_1, ?cconj_0; ring.
  Qed.
  Lemma canonical_unique p q : starts t -> no_null t -> canonical t lt p -> canonical t lt q -> same_value t p q -> p = q.
  Proof.
    intros S0 N Cp Cq H. apply coefs_equal; try (now apply canonical_ok); try apply Cp; try apply Cq.
    - assert (B : coef 1 false p = coef 1 false q).
      { rewrite <- (coef1 p (pick 0 c0) Cp S0), <- (coef1 q (pick 0 c0) Cq S0).
        - apply H. destruct S0 as [s0 [s1 [l [E [H1 H2]]]]]. constructor; [reflexivity|reflexivity| |].
          + intros i s _ _. unfold pick. destruct (i =? 1); [reflexivity|]. destruct (i =? 0); reflexivity.
          + intros i s Q A. unfold pick. destruct (Nat.eqb_spec i 1) as [E1|E1]; [|destruct (i =? 0); reflexivity].
            subst i. rewrite E in Q. cbn in Q. injection Q as <-. congruence.
        - intro i. unfold pick. destruct (i =? 1); [reflexivity|]. destruct (i =? 0); reflexivity.
        - intro i. unfold pick. destruct (i =? 1); [reflexivity|]. destruct (i =? 0); reflexivity. }
      assert (T1 : coef 1 true p = c0) by (apply coef_cj; [exact Cp|left; now apply starts_herm1]).
      assert (T2 : coef 1 true q = c0) by (apply coef_cj; [exact Cq|left; now apply starts_herm1]).
      intros id cj. destruct (le_lt_dec (length (t_syms t)) id) as [Lo|Li]; [rewrite !coef_out; auto|].
      destruct (Nat.eq_dec id 0) as [Z|Z]; [rewrite !coef_out; auto|].
      destruct (Nat.eq_dec id 1) as [O|O]; [subst id; destruct cj; congruence|].
      assert (V : forall z, (herm t id = true -> cim z = r0 R) -> (anti t id = true -> cre z = r0 R) ->
        cadd (cmul (coef id false p) z) (cmul (coef id true p) (cconj z)) = cadd (cmul (coef id false q) z) (cmul (coef id true q) (cconj z))).
      { intros z Hh Ha. pose proof (H _ (pick_assignment id z S0 Z O Li Hh Ha)) as E. rewrite !value_pick in E by exact O. rewrite B, T1, T2 in E.
        match goal with |- ?a = ?b => replace a with (csub (cadd (cadd (coef 1 false q) c0) a) (coef 1 false q)) by ring; rewrite E; ring end. }
      destruct (herm t id) eqn:Eh; [|destruct (anti t id) eqn:Ea].
      + assert (A1 : coef id true p = c0) by (apply coef_cj; auto). assert (A2 : coef id true q = c0) by (apply coef_cj; auto).
        destruct cj; [congruence|]. specialize (V c1). rewrite A1, A2 in V. rewrite cconj_1 in V.
        assert (V' : cadd (cmul (coef id false p) c1) (cmul c0 c1) = cadd (cmul (coef id false q) c1) (cmul c0 c1)).
        { apply V; [reflexivity|]. intro Ha. exfalso. apply (N id); auto. lia. }
        replace (coef id false p) with (cadd (cmul (coef id false p) c1) (cmul c0 c1)) by ring. rewrite V'. ring.
      + assert (A1 : coef id true p = c0) by (apply coef_cj; auto). assert (A2 : coef id true q = c0) by (apply coef_cj; auto).
        destruct cj; [congruence|]. specialize (V ci). rewrite A1, A2 in V.
        assert (V' := V ltac:(discriminate) ltac:(reflexivity)).
        replace (coef id false p) with (copp (cmul ci (cadd (cmul (coef id false p) ci) (cmul c0 (cconj ci))))) by (apply cx_ext; cbn; ring).
        rewrite V'. apply cx_ext; cbn; ring.
      + assert (V1 := V c1 ltac:(discriminate) ltac:(discriminate)). assert (V2 := V ci ltac:(discriminate) ltac:(discriminate)).
        rewrite cconj_1 in V1. rewrite cconj_i in V2.
        set (a := coef id false p) in *. set (b := coef id true p) in *. set (a' := coef id false q) in *. set (b' := coef id true q) in *.
        assert (W1 : cadd a b = cadd a' b') by (replace (cadd a b) with (cadd (cmul a c1) (cmul b c1)) by ring; rewrite V1; ring).
        assert (W2 : csub a b = csub a' b').
        { replace (csub a b) with (copp (cmul ci (cadd (cmul a ci) (cmul b (copp ci))))) by (apply cx_ext; cbn; ring). rewrite V2. apply cx_ext; cbn; ring. }
        assert (D : forall x y : cx R, cadd x x = cadd y y -> x = y).
        { intros x y E. assert (E' : cadd (csub x y) (csub x y) = c0) by (replace (cadd (csub x y) (csub x y)) with (csub (cadd x x) (cadd y y)) by ring; rewrite E; ring).
          assert (csub x y = c0) as G.
          { apply cx_ext; apply double_zero; [apply (f_equal cre) in E'|apply (f_equal cim) in E']; exact E'. }
          replace x with (cadd (csub x y) y) by ring. rewrite G. ring. }
        destruct cj; apply D; fold a b a' b'.
        * replace (cadd b b) with (csub (cadd a b) (csub a b)) by ring. rewrite W1, W2. ring.
        * replace (cadd a a) with (cadd (cadd a b) (csub a b)) by ring. rewrite W1, W2. ring.
  Qed.
  (** a canonical polynomial built again is itself *)
  Lemma make_poly_fixed p : starts t -> no_null t -> canonical t lt p -> make_poly t srt p = p.
  Proof.
    intros S N C. apply canonical_unique; auto; [apply make_poly_canonical; now apply canonical_ok|].
    intros v A. apply make_poly_value; [now apply canonical_ok|exact A].
  Qed.
End Order.
