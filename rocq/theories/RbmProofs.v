(** Proofs about the matrix of a rulebook. *)
From Coq Require Import List NArith ZArith Arith Bool Sorted Permutation Lia Ring Field.
From Verif Require Import CoreModel FieldModel FieldProofs SymModel SymSpec PolyModel PolySpec PolyProofs PolyOpsProofs PolyBasisModel PolyBasisProofs PolyTableProofs PolyFinalProofs RuleModel RuleSpec RuleProofs RuleMakeProofs RuleOrientProofs RuleBookProofs RuleLoopProofs RuleFinalProofs RuleUniqueProofs RuleThmProofs RbmModel RbmSpec.
Import ListNotations.

Section Rbm.
  Variable R : rfield.
  Add Field Rf : (r_field R).
  Add Field Cf : (cx_field R).
  Notation mono := (mono R).
  Notation rule := (rule R).
  Notation matrix := (list (nat * nat * R)).
  Variable F : factory R.
  Hypothesis FO : factory_ok F.
  Notation t := (fa_table F).
  Notation lt := (fa_lt F).
  Notation len := (length (t_syms t)).
  Notation canon := (canonical t lt).
  Notation asg := (assignment (R := R) t).
  Hypothesis NB : numbered t.
  Variable mostly : cx R -> bool.
  Let HO := fo_order F FO.
  Notation nr := (length (t_real t)).
  Notation ni := (length (t_imag t)).
  Implicit Types (u v : nat -> cx R) (p q : list mono) (rules : list rule) (r : rule) (T : matrix).

  (** ** numbers *)
  Lemma partial_iff (e k z : cx R) : cnorm e = r1 R -> cim (cmul (cconj e) k) = r0 R ->
    (z = cadd k (cmul half (csub z (cmul (cmul e e) (cconj z)))) <-> radd R (rmul R (cre e) (cre z)) (rmul R (cim e) (cim z)) = radd R (rmul R (cre e) (cre k)) (rmul R (cim e) (cim k))).
  Proof.
    destruct e as [c s], k as [k1 k2], z as [a b]. unfold cnorm. cbn. intros N P.
    assert (H2 := two_neq_0 R). set (h := rinv R (radd R (r1 R) (r1 R))) in *.
    assert (Hh : radd R h h = r1 R) by (unfold h; field; exact H2).
    assert (K : forall x y : R, x = y -> rsub R x y = r0 R) by (intros x y ->; ring).
    assert (K' : forall x y : R, rsub R x y = r0 R -> x = y) by (intros x y H; replace x with (radd R (rsub R x y) y) by ring; rewrite H; ring).
    set (dd := rsub R (radd R (rmul R c a) (rmul R s b)) (radd R (rmul R c k1) (rmul R s k2))).
    assert (P2 : rmul R s k1 = rmul R c k2). { apply K'. replace (rsub R (rmul R s k1) (rmul R c k2)) with (ropp R (radd R (rmul R c k2) (rmul R (ropp R s) k1))) by ring. rewrite P. ring. }
    assert (Q1 : k1 = rmul R c (radd R (rmul R c k1) (rmul R s k2))).
    { replace (rmul R c (radd R (rmul R c k1) (rmul R s k2))) with (radd R (rmul R (rmul R c c) k1) (rmul R s (rmul R c k2))) by ring. rewrite <- P2.
      replace (radd R (rmul R (rmul R c c) k1) (rmul R s (rmul R s k1))) with (rmul R (radd R (rmul R c c) (rmul R s s)) k1) by ring. rewrite N. ring. }
    assert (Q2 : k2 = rmul R s (radd R (rmul R c k1) (rmul R s k2))).
    { replace (rmul R s (radd R (rmul R c k1) (rmul R s k2))) with (radd R (rmul R c (rmul R s k1)) (rmul R (rmul R s s) k2)) by ring. rewrite P2.
      replace (radd R (rmul R c (rmul R c k2)) (rmul R (rmul R s s) k2)) with (rmul R (radd R (rmul R c c) (rmul R s s)) k2) by ring. rewrite N. ring. }
    assert (N1 : rmul R s s = rsub R (r1 R) (rmul R c c)) by (rewrite <- N; ring).
    assert (D1 : forall X, X = radd R k1 (rsub R (rmul R h (rsub R a (rsub R (rmul R (rsub R (rmul R c c) (rmul R s s)) a) (rmul R (radd R (rmul R c s) (rmul R s c)) (ropp R b))))) (rmul R (r0 R) (rsub R b (radd R (rmul R (rsub R (rmul R c c) (rmul R s s)) (ropp R b)) (rmul R (radd R (rmul R c s) (rmul R s c)) a))))) -> rsub R a X = rmul R c dd).
    { intros X ->. unfold dd. replace (rsub R (rmul R c c) (rmul R s s)) with (rsub R (rmul R (radd R (r1 R) (r1 R)) (rmul R c c)) (r1 R)) by (rewrite N1; ring).
      rewrite Q1 at 1. generalize (radd R (rmul R c k1) (rmul R s k2)). intro k. 
      replace (rsub R a (radd R (rmul R c k) (rsub R (rmul R h (rsub R a (rsub R (rmul R (rsub R (rmul R (radd R (r1 R) (r1 R)) (rmul R c c)) (r1 R)) a) (rmul R (radd R (rmul R c s) (rmul R s c)) (ropp R b))))) (rmul R (r0 R) (rsub R b (radd R (rmul R (rsub R (rmul R (radd R (r1 R) (r1 R)) (rmul R c c)) (r1 R)) (ropp R b)) (rmul R (radd R (rmul R c s) (rmul R s c)) a)))))))
        with (radd R (rsub R (rmul R (radd R h h) (radd R (rmul R (rmul R c c) a) (rmul R (rmul R c s) b))) (rmul R c k)) (rmul R (rsub R (r1 R) (radd R h h)) a)) by ring.
      rewrite Hh. ring. }
    assert (D2 : forall X, X = radd R k2 (radd R (rmul R h (rsub R b (radd R (rmul R (rsub R (rmul R c c) (rmul R s s)) (ropp R b)) (rmul R (radd R (rmul R c s) (rmul R s c)) a)))) (rmul R (r0 R) (rsub R a (rsub R (rmul R (rsub R (rmul R c c) (rmul R s s)) a) (rmul R (radd R (rmul R c s) (rmul R s c)) (ropp R b)))))) -> rsub R b X = rmul R s dd).
    { intros X ->. unfold dd. replace (rsub R (rmul R c c) (rmul R s s)) with (rsub R (r1 R) (rmul R (radd R (r1 R) (r1 R)) (rmul R s s))) by (rewrite N1; ring).
      rewrite Q2 at 1. generalize (radd R (rmul R c k1) (rmul R s k2)). intro k.
      replace (rsub R b (radd R (rmul R s k) (radd R (rmul R h (rsub R b (radd R (rmul R (rsub R (r1 R) (rmul R (radd R (r1 R) (r1 R)) (rmul R s s))) (ropp R b)) (rmul R (radd R (rmul R c s) (rmul R s c)) a)))) (rmul R (r0 R) (rsub R a (rsub R (rmul R (rsub R (r1 R) (rmul R (radd R (r1 R) (r1 R)) (rmul R s s))) a) (rmul R (radd R (rmul R c s) (rmul R s c)) (ropp R b))))))))
        with (radd R (rsub R (rmul R (radd R h h) (radd R (rmul R (rmul R s s) b) (rmul R (rmul R c s) a))) (rmul R s k)) (rmul R (rsub R (r1 R) (radd R h h)) b)) by ring.
      rewrite Hh. ring. }
    split.
    - intro H. injection H as H1 H2'. apply K'. fold dd. apply D1 in H1. apply D2 in H2'.
      replace (rsub R a a) with (r0 R) in H1 by ring. replace (rsub R b b) with (r0 R) in H2' by ring.
      replace dd with (rmul R (radd R (rmul R c c) (rmul R s s)) dd) by (rewrite N; ring).
      replace (rmul R (radd R (rmul R c c) (rmul R s s)) dd) with (radd R (rmul R c (rmul R c dd)) (rmul R s (rmul R s dd))) by ring. rewrite <- H1, <- H2'. ring.
    - intro H. assert (E : dd = r0 R) by (unfold dd; now apply K). apply cx_ext; cbn; fold h; apply K'.
      + rewrite (D1 _ eq_refl), E. ring.
      + rewrite (D2 _ eq_refl), E. ring.
  Qed.

  (** ** what a rule makes of the values of its symbol *)
  Definition newval r v : cx R :=
    if ru_partial r then
      let e := ru_dir r in
      let z := v (ru_lhs r) in
      let q := cre (cmul (cconj e) (value v (removelast (removelast (ru_rhs r))))) in
      if is_real e then mk_cx (cre (value v (ru_rhs r))) (cim z)
      else if is_imaginary e then mk_cx (cre z) (cim (value v (ru_rhs r)))
      else if mostly e then mk_cx (radd R (rdiv R q (cre e)) (rmul R (rdiv R (ropp R (cim e)) (cre e)) (cim z))) (cim z)
      else mk_cx (cre z) (radd R (rdiv R q (cim e)) (rmul R (rdiv R (ropp R (cre e)) (cim e)) (cre z)))
    else value v (ru_rhs r).
  Lemma with_other v i z p : i < len -> Forall (in_table t) p -> lower R F i p -> value (with_value v i z) p = value v p.
  Proof. apply value_upd, FO. Qed.
  Lemma with_same v i z : with_value v i z i = z. Proof. unfold with_value. now rewrite Nat.eqb_refl. Qed.
  Lemma partial_value v r k z : good_rule R F r -> shaped R F r k -> ru_partial r = true ->
    value (with_value v (ru_lhs r) z) (ru_rhs r) = cadd (value v k) (cmul half (csub z (cmul (cmul (ru_dir r) (ru_dir r)) (cconj z)))).
  Proof.
    intros G S P. rewrite (shaped_value R F r k _ S), P, tail2_value, with_same. destruct S as [Lo [Ck _]]. rewrite with_other; [reflexivity|apply G|now apply (canon_ok R F)|exact Lo].
  Qed.
  Lemma full_value v r z : good_rule R F r -> ru_partial r = false -> value (with_value v (ru_lhs r) z) (ru_rhs r) = value v (ru_rhs r).
  Proof.
    intros G P. destruct (gr_shape R F r G) as [k [Lo [Ck S]]]. rewrite P in S. subst k. apply with_other; [apply G|now apply (canon_ok R F)|exact Lo].
  Qed.
  Lemma with_id v i j : with_value v i (v i) j = v j.
  Proof. unfold with_value. destruct (Nat.eqb_spec j i) as [->|_]; reflexivity. Qed.
  Lemma real_true (e : cx R) : is_real e = true <-> cim e = r0 R. Proof. apply r_eqb_spec. Qed.
  Lemma imag_true (e : cx R) : is_imaginary e = true <-> cre e = r0 R. Proof. apply r_eqb_spec. Qed.
  Lemma neq_false (a b : R) : r_eqb R a b = false -> a <> b. Proof. intros H E. apply (r_eqb_spec R) in E. congruence. Qed.
  Lemma unit_real (e : cx R) : cnorm e = r1 R -> cim e = r0 R -> rmul R (cre e) (cre e) = r1 R.
  Proof. unfold cnorm. intros N E. rewrite E in N. rewrite <- N. ring. Qed.
  Lemma unit_imag (e : cx R) : cnorm e = r1 R -> cre e = r0 R -> rmul R (cim e) (cim e) = r1 R.
  Proof. unfold cnorm. intros N E. rewrite E in N. rewrite <- N. ring. Qed.
  Lemma unit_cancel (c a b : R) : rmul R c c = r1 R -> rmul R c a = rmul R c b -> a = b.
  Proof. intros N H. replace a with (rmul R (rmul R c c) a) by (rewrite N; ring). replace b with (rmul R (rmul R c c) b) by (rewrite N; ring). replace (rmul R (rmul R c c) a) with (rmul R c (rmul R c a)) by ring. rewrite H. ring. Qed.
  (** the value of the right hand side of a partial rule along the axes *)
  Lemma real_axis (e k z : cx R) : cnorm e = r1 R -> cim e = r0 R -> cre (cadd k (cmul half (csub z (cmul (cmul e e) (cconj z))))) = cre k.
  Proof.
    intros N E. pose proof (unit_real e N E) as Q. destruct e as [c s], k as [k1 k2], z as [a b]. cbn in *. subst s.
    set (h := rinv R _). replace (rsub R (rmul R c c) (rmul R (r0 R) (r0 R))) with (r1 R) by (rewrite <- Q; ring). ring.
  Qed.
  Lemma imag_axis (e k z : cx R) : cnorm e = r1 R -> cre e = r0 R -> cim (cadd k (cmul half (csub z (cmul (cmul e e) (cconj z))))) = cim k.
  Proof.
    intros N E. pose proof (unit_imag e N E) as Q. destruct e as [c s], k as [k1 k2], z as [a b]. cbn in *. subst c.
    set (h := rinv R _). replace (rsub R (rmul R (r0 R) (r0 R)) (rmul R s s)) with (ropp R (r1 R)) by (rewrite <- Q; ring). ring.
  Qed.
  Lemma removed r k : shaped R F r k -> ru_partial r = true -> removelast (removelast (ru_rhs r)) = k.
  Proof. intros [_ [_ S]] P. rewrite P in S. destruct S as [-> _]. apply removelast2. Qed.
  Lemma newval_line v r k : good_rule R F r -> shaped R F r k -> ru_partial r = true -> let e := ru_dir r in let n := newval r v in
    radd R (rmul R (cre e) (cre n)) (rmul R (cim e) (cim n)) = radd R (rmul R (cre e) (cre (value v k))) (rmul R (cim e) (cim (value v k))).
  Proof.
    intros G S P. cbv zeta. unfold newval. rewrite P. cbv zeta. rewrite (removed r k S P).
    pose proof (partial_value v r k (v (ru_lhs r)) G S P) as V. rewrite (value_ext R _ v) in V by (intros; apply with_id). rewrite V. clear V.
    destruct S as [Lo [Ck S]]. rewrite P in S. destruct S as [_ [N [_ [_ Im]]]]. set (e := ru_dir r) in *. set (z := v (ru_lhs r)) in *.
    destruct (is_real e) eqn:Er; [|destruct (is_imaginary e) eqn:Ei; [|destruct (mostly e)]].
    - apply real_true in Er. cbn [cre cim]. rewrite (real_axis e _ z N Er), Er. ring.
    - apply imag_true in Ei. cbn [cre cim]. rewrite (imag_axis e _ z N Ei), Ei. ring.
    - apply neq_false in Ei. cbn [cre cim]. cbn [cmul cconj cre cim]. field. exact Ei.
    - apply neq_false in Er. cbn [cre cim]. cbn [cmul cconj cre cim]. field. exact Er.
  Qed.
  Lemma newval_own v r : good_rule R F r -> asg v -> newval r v = value (with_value v (ru_lhs r) (newval r v)) (ru_rhs r).
  Proof.
    intros G A. destruct (ru_partial r) eqn:P; [|rewrite (full_value v r _ G P); unfold newval; now rewrite P].
    destruct (gr_shape R F r G) as [k S]. rewrite (partial_value v r k _ G S P). pose proof (newval_line v r k G S P) as L. cbv zeta in L.
    destruct S as [_ [_ S]]. rewrite P in S. destruct S as [_ [N [_ [_ Im]]]]. apply (proj2 (partial_iff (ru_dir r) (value v k) (newval r v) N (Im v A))). exact L.
  Qed.
  Lemma newval_same v r : good_rule R F r -> asg v -> (newval r v = v (ru_lhs r) <-> v (ru_lhs r) = value v (ru_rhs r)).
  Proof.
    intros G A. split.
    - intro H. pose proof (newval_own v r G A) as O. rewrite H in O. rewrite (value_ext R _ v) in O by (intros; apply with_id). exact O.
    - intro H. destruct (ru_partial r) eqn:P; [|unfold newval; rewrite P; now symmetry]. destruct (gr_shape R F r G) as [k S].
      pose proof (partial_value v r k (v (ru_lhs r)) G S P) as V. rewrite (value_ext R _ v) in V by (intros; apply with_id).
      pose proof S as S0. destruct S as [_ [_ S]]. rewrite P in S. destruct S as [_ [N [_ [_ Im]]]].
      unfold newval. rewrite P. cbv zeta. rewrite (removed r k S0 P), <- H. set (e := ru_dir r) in *. set (z := v (ru_lhs r)) in *.
      rewrite V in H. apply (proj1 (partial_iff e (value v k) z N (Im v A))) in H.
      destruct (is_real e) eqn:Er; [apply cx_ext; reflexivity|destruct (is_imaginary e) eqn:Ei; [apply cx_ext; reflexivity|]].
      apply neq_false in Er. apply neq_false in Ei.
      assert (Q : cre (cmul (cconj e) (value v k)) = radd R (rmul R (cre e) (cre z)) (rmul R (cim e) (cim z))) by (rewrite H; cbn; ring).
      rewrite Q. destruct (mostly e); apply cx_ext; cbn [cre cim]; try reflexivity; field; assumption.
  Qed.
  Lemma newval_straight v r : good_rule R F r -> asg v -> (ru_partial r = true -> cre (ru_dir r) = r0 R \/ cim (ru_dir r) = r0 R) -> newval r v = value v (ru_rhs r).
  Proof.
    intros G A D. unfold newval. destruct (ru_partial r) eqn:P; [|reflexivity]. specialize (D eq_refl). cbv zeta. destruct (gr_shape R F r G) as [k S].
    pose proof (partial_value v r k (v (ru_lhs r)) G S P) as V. rewrite (value_ext R _ v) in V by (intros; apply with_id). rewrite V.
    destruct S as [_ [_ S]]. rewrite P in S. destruct S as [_ [N [_ [_ Im]]]]. specialize (Im v A). set (e := ru_dir r) in *. set (z := v (ru_lhs r)) in *.
    destruct (is_real e) eqn:Er; [|destruct (is_imaginary e) eqn:Ei].
    - apply real_true in Er. apply cx_ext; [reflexivity|]. cbn [cim]. pose proof (unit_real e N Er) as Q. clear V.
      destruct (value v k) as [k1 k2], z as [a b], e as [c s]. cbn in *. subst s. assert (K2 : k2 = r0 R). { apply (unit_cancel c); [exact Q|]. transitivity (radd R (rmul R c k2) (rmul R (ropp R (r0 R)) k1)); [ring|]. rewrite Im. ring. }
      set (h := rinv R _). assert (Hh : radd R h h = r1 R) by (unfold h; field; apply (two_neq_0 R)). rewrite K2.
      replace (rsub R (rmul R c c) (rmul R (r0 R) (r0 R))) with (r1 R) by (rewrite <- Q; ring). transitivity (rmul R (radd R h h) b); [rewrite Hh; ring|ring].
    - apply imag_true in Ei. apply cx_ext; [|reflexivity]. cbn [cre]. pose proof (unit_imag e N Ei) as Q. clear V.
      destruct (value v k) as [k1 k2], z as [a b], e as [c s]. cbn in *. subst c. assert (K1 : k1 = r0 R). { apply (unit_cancel s); [exact Q|]. transitivity (ropp R (radd R (rmul R (r0 R) k2) (rmul R (ropp R s) k1))); [ring|]. rewrite Im. ring. }
      set (h := rinv R _). assert (Hh : radd R h h = r1 R) by (unfold h; field; apply (two_neq_0 R)). rewrite K1.
      replace (rsub R (rmul R (r0 R) (r0 R)) (rmul R s s)) with (ropp R (r1 R)) by (rewrite <- Q; ring). transitivity (rmul R (radd R h h) a); [rewrite Hh; ring|ring].
    - apply neq_false in Er. apply neq_false in Ei. destruct D; contradiction.
  Qed.

  (** ** rows *)
  Notation x_of v := (both_elem t v).
  Lemma row_dot_none T row a : (forall x, In x T -> fst (fst x) <> row) -> row_dot T row a = r0 R.
  Proof.
    induction T as [|y T IH]; intro H; [reflexivity|]. cbn [row_dot fold_right]. fold (row_dot T row a). rewrite IH by (intros; apply H; now right).
    destruct (Nat.eqb_spec (fst (fst y)) row) as [E|_]; [exfalso; apply (H y); [now left|exact E]|ring].
  Qed.
  Lemma entry_bound row off col co (w : R) x : (forall k, col = Some k -> k + co < nr + ni) -> In x (row_entry row off col co w) -> snd (fst x) < nr + ni.
  Proof.
    unfold row_entry. intros B H. destruct row; [|destruct H]. destruct col as [k|]; [|destruct H]. destruct (rzero w); [destruct H|]. destruct H as [<-|[]]. now apply B.
  Qed.
  Lemma re_bound id k : id < len -> re_index t id = Some k -> k < nr.
  Proof. intros L E. apply (re_index_spec t NB id k L) in E. apply nth_error_Some. congruence. Qed.
  Lemma im_bound id k : id < len -> im_index t id = Some k -> k < ni.
  Proof. intros L E. apply (im_index_spec t NB id k L) in E. apply nth_error_Some. congruence. Qed.
  Lemma triplets_cols zre zim p a b : canon p -> triplets t true zre zim p = Some (a, b) -> forall x, In x (a ++ b) -> snd (fst x) < nr + ni.
  Proof.
    intros C E x Hx. unfold triplets in E. cbv zeta in E. rewrite (paired_known R t p (canonical_ok R t lt p C)) in E. injection E as <- <-.
    pose proof (paired_ok R t lt p C) as K. unfold items_ok in K. rewrite Forall_forall in K.
    apply in_app_or in Hx as [Hx|Hx]; apply spread_in in Hx as [id [f [c [Hi Hx]]]]; specialize (K _ Hi); cbn in K;
      apply in_app_or in Hx as [Hx|Hx]; (eapply entry_bound; [|exact Hx]); intros k Ek.
    - apply re_bound in Ek; [lia|exact K].
    - apply im_bound in Ek; [lia|exact K].
    - apply re_bound in Ek; [lia|exact K].
    - apply im_bound in Ek; [lia|exact K].
  Qed.
  Lemma add_row_spec zre zim p : canon p -> (forall a b, zre = Some a -> zim = Some b -> a <> nr + b) -> exists l, add_row t zre zim p = Some l /\
    (forall row col w, In (row, col, w) l -> (zre = Some row \/ exists k, zim = Some k /\ row = nr + k) /\ col < nr + ni) /\
    forall v, asg v -> (forall k, zre = Some k -> row_dot l k (x_of v) = cre (value v p)) /\ (forall k, zim = Some k -> row_dot l (nr + k) (x_of v) = cim (value v p)).
  Proof.
    intros C D. destruct (triplets_spec R t lt HO NB true zre zim p C) as [a [b [E V]]]. destruct (triplets_rows R t true zre zim p a b E) as [Ra Rb].
    pose proof (triplets_cols zre zim p a b C E) as Co. unfold add_row. rewrite E. exists (a ++ b). split; [reflexivity|]. split.
    - intros row col w H. split; [|exact (Co _ H)]. apply in_app_or in H as [H|H].
      + left. exact (Ra _ H).
      + right. destruct (Rb _ H) as [k [Ek Er]]. exists k. cbn in Er. split; [exact Ek|lia].
    - intros v A. destruct (V v A) as [V1 V2]. split; intros k Ek; rewrite (row_dot_app R).
      + rewrite (V1 k Ek), (row_dot_none b); [ring|]. intros x Hx. destruct (Rb x Hx) as [k' [Ek' Er]]. rewrite Er. intro Q. apply (D k k' Ek Ek'). lia.
      + rewrite (row_dot_none a); [rewrite Nat.add_comm, (V2 k Ek); ring|]. intros x Hx Q. apply Ra in Hx. rewrite Q in Hx. now apply (D _ k Hx Ek).
  Qed.
  Record rows_of r T (mr mi : list nat) : Prop := mk_rows_of {
    ro_in : forall row col w, In (row, col, w) T -> (In row mr \/ exists k, In k mi /\ row = nr + k) /\ col < nr + ni;
    ro_re : forall k, In k mr -> re_index t (ru_lhs r) = Some k;
    ro_im : forall k, In k mi -> im_index t (ru_lhs r) = Some k;
    ro_vre : forall v k, asg v -> In k mr -> row_dot T k (x_of v) = cre (newval r v);
    ro_vim : forall v k, asg v -> In k mi -> row_dot T (nr + k) (x_of v) = cim (newval r v);
    ro_kre : forall v k, asg v -> re_index t (ru_lhs r) = Some k -> ~ In k mr -> cre (newval r v) = cre (v (ru_lhs r));
    ro_kim : forall v k, asg v -> im_index t (ru_lhs r) = Some k -> ~ In k mi -> cim (newval r v) = cim (v (ru_lhs r)) }.
  Lemma row_dot_one row col (w : R) row' a : row_dot [(row, col, w)] row' a = if Nat.eqb row row' then rmul R w (a col) else r0 R.
  Proof. cbn [row_dot fold_right fst snd]. destruct (Nat.eqb row row'); ring. Qed.
  Lemma x_re v id k : id < len -> re_index t id = Some k -> x_of v k = cre (v id).
  Proof.
    intros L E. unfold both_elem. assert (B := re_bound id k L E). apply Nat.ltb_lt in B. rewrite B. now apply (elem_re R t NB).
  Qed.
  Lemma x_im v id k : id < len -> im_index t id = Some k -> x_of v (nr + k) = cim (v id).
  Proof.
    intros L E. unfold both_elem. assert (B : Nat.ltb (nr + k) nr = false) by (apply Nat.ltb_ge; lia). rewrite B. replace (nr + k - nr) with k by lia. now apply (elem_im R t NB).
  Qed.
  Lemma rule_rows_spec r : good_rule R F r -> exists T mr mi, rule_rows t mostly r = Some (T, mr, mi) /\ rows_of r T mr mi.
  Proof.
    intro G. destruct (gr_lhs R F r G) as [_ L]. pose proof (gr_canon R F r G) as C. destruct (gr_shape R F r G) as [k0 S]. unfold rule_rows. cbv zeta.
    destruct (ru_partial r) eqn:P.
    2:{ destruct (add_row_spec (re_index t (ru_lhs r)) (im_index t (ru_lhs r)) (ru_rhs r) C) as [l [E [B V]]].
        { intros a b Ea Eb. apply re_bound in Ea; [lia|exact L]. }
        rewrite E. exists l, (index_list (re_index t (ru_lhs r))), (index_list (im_index t (ru_lhs r))). split; [reflexivity|].
        assert (NV : forall v, newval r v = value v (ru_rhs r)) by (intro v; unfold newval; now rewrite P).
        assert (I : forall o k, In k (index_list o) <-> o = Some k) by (intros [o|] k; cbn; split; [intros [->|[]]; reflexivity|intro Q; left; congruence|easy|easy]).
        constructor.
        - intros row col w H. destruct (B _ _ _ H) as [[Q|[k [Q Q']]] Q2]; (split; [|exact Q2]); [left; now apply I|right; exists k; split; [now apply I|exact Q']].
        - intros k H. now apply I.
        - intros k H. now apply I.
        - intros v k A H. rewrite NV. apply (V v A). now apply I.
        - intros v k A H. rewrite NV. apply (V v A). now apply I.
        - intros v k A E' N. exfalso. apply N. now apply I.
        - intros v k A E' N. exfalso. apply N. now apply I. }
    pose proof S as S0. destruct S as [Lo [Ck S]]. rewrite P in S. destruct S as [Erhs [N [Hh [Ha Im]]]].
    destruct (re_index t (ru_lhs r)) as [ka|] eqn:Ka; [|apply (re_index_none t NB _ L) in Ka; congruence].
    destruct (im_index t (ru_lhs r)) as [kb|] eqn:Kb; [|apply (im_index_none t NB _ L) in Kb; congruence].
    destruct (is_real (ru_dir r)) eqn:Er; [|destruct (is_imaginary (ru_dir r)) eqn:Ei].
    - destruct (add_row_spec (Some ka) None (ru_rhs r) C) as [l [E [B V]]]; [easy|]. rewrite E. exists l, [ka], []. split; [reflexivity|].
      assert (NV : forall v, newval r v = mk_cx (cre (value v (ru_rhs r))) (cim (v (ru_lhs r)))) by (intro v; unfold newval; rewrite P; cbv zeta; now rewrite Er).
      constructor.
      + intros row col w H. destruct (B _ _ _ H) as [[Q|[k [Q Q']]] Q2]; [|discriminate]. split; [|exact Q2]. left. injection Q as ->. now left.
      + intros k [<-|[]]. exact Ka.
      + intros k [].
      + intros v k A [<-|[]]. rewrite NV. cbn [cre]. now apply (V v A).
      + intros v k A [].
      + intros v k A E' Nk. exfalso. apply Nk. left. congruence.
      + intros v k A E' _. rewrite NV. reflexivity.
    - destruct (add_row_spec None (Some kb) (ru_rhs r) C) as [l [E [B V]]]; [easy|]. rewrite E. exists l, [], [kb]. split; [reflexivity|].
      assert (NV : forall v, newval r v = mk_cx (cre (v (ru_lhs r))) (cim (value v (ru_rhs r)))) by (intro v; unfold newval; rewrite P; cbv zeta; now rewrite Er, Ei).
      constructor.
      + intros row col w H. destruct (B _ _ _ H) as [[Q|[k [Q Q']]] Q2]; [discriminate|]. split; [|exact Q2]. right. injection Q as <-. exists kb. split; [now left|exact Q'].
      + intros k [].
      + intros k [<-|[]]. exact Kb.
      + intros v k A [].
      + intros v k A [<-|[]]. rewrite NV. cbn [cim]. now apply (V v A).
      + intros v k A E' _. rewrite NV. reflexivity.
      + intros v k A E' Nk. exfalso. apply Nk. left. congruence.
    - unfold mixed_rows. assert (Ln : Nat.ltb (length (ru_rhs r)) 2 = false). { apply Nat.ltb_ge. rewrite Erhs, app_length. cbn. lia. }
      rewrite Ln. cbv zeta. rewrite (removed r k0 S0 P). apply neq_false in Er. apply neq_false in Ei.
      assert (Ba := re_bound _ _ L Ka). assert (Bb := im_bound _ _ L Kb). destruct (mostly (ru_dir r)) eqn:M.
      + destruct (add_row_spec (Some ka) None (scale (creal (rdiv R (r1 R) (cre (ru_dir r)))) (scale (cconj (ru_dir r)) k0))) as [l [E [B V]]]; [now apply (scale_canonical R t lt), (scale_canonical R t lt)|easy|].
        rewrite E. exists (l ++ [(ka, num_real t + kb, rdiv R (ropp R (cim (ru_dir r))) (cre (ru_dir r)))]), [ka], []. split; [reflexivity|].
        assert (NV : forall v, newval r v = mk_cx (radd R (rdiv R (cre (cmul (cconj (ru_dir r)) (value v k0))) (cre (ru_dir r))) (rmul R (rdiv R (ropp R (cim (ru_dir r))) (cre (ru_dir r))) (cim (v (ru_lhs r))))) (cim (v (ru_lhs r)))).
        { intro v. unfold newval. rewrite P. cbv zeta. rewrite (removed r k0 S0 P), M. unfold is_real, is_imaginary. destruct (r_eqb R (cim (ru_dir r)) (r0 R)) eqn:Q; [apply (r_eqb_spec R) in Q; contradiction|].
          destruct (r_eqb R (cre (ru_dir r)) (r0 R)) eqn:Q'; [apply (r_eqb_spec R) in Q'; contradiction|]. reflexivity. }
        constructor.
        * intros row col w H. apply in_app_or in H as [H|[H|[]]].
          -- destruct (B _ _ _ H) as [[Q|[k [Q Q']]] Q2]; [|discriminate]. split; [|exact Q2]. left. injection Q as ->. now left.
          -- injection H as <- <- <-. split; [left; now left|]. unfold num_real. lia.
        * intros k [<-|[]]. exact Ka.
        * intros k [].
        * intros v k A [<-|[]]. rewrite NV. cbn [cre]. rewrite (row_dot_app R), row_dot_one, Nat.eqb_refl. destruct (V v A) as [V1 _]. rewrite (V1 ka eq_refl), !(scale_value R).
          unfold num_real. rewrite (x_im v (ru_lhs r) kb L Kb). f_equal. cbn [cmul creal cre cim]. field. exact Ei.
        * intros v k A [].
        * intros v k A E' Nk. exfalso. apply Nk. left. congruence.
        * intros v k A E' _. rewrite NV. reflexivity.
      + destruct (add_row_spec (Some (num_real t + kb)) None (scale (creal (rdiv R (r1 R) (cim (ru_dir r)))) (scale (cconj (ru_dir r)) k0))) as [l [E [B V]]]; [now apply (scale_canonical R t lt), (scale_canonical R t lt)|easy|].
        rewrite E. exists (l ++ [(num_real t + kb, ka, rdiv R (ropp R (cre (ru_dir r))) (cim (ru_dir r)))]), [], [kb]. split; [reflexivity|].
        assert (NV : forall v, newval r v = mk_cx (cre (v (ru_lhs r))) (radd R (rdiv R (cre (cmul (cconj (ru_dir r)) (value v k0))) (cim (ru_dir r))) (rmul R (rdiv R (ropp R (cre (ru_dir r))) (cim (ru_dir r))) (cre (v (ru_lhs r)))))).
        { intro v. unfold newval. rewrite P. cbv zeta. rewrite (removed r k0 S0 P), M. unfold is_real, is_imaginary. destruct (r_eqb R (cim (ru_dir r)) (r0 R)) eqn:Q; [apply (r_eqb_spec R) in Q; contradiction|].
          destruct (r_eqb R (cre (ru_dir r)) (r0 R)) eqn:Q'; [apply (r_eqb_spec R) in Q'; contradiction|]. reflexivity. }
        constructor.
        * intros row col w H. apply in_app_or in H as [H|[H|[]]].
          -- destruct (B _ _ _ H) as [[Q|[k [Q Q']]] Q2]; [|discriminate]. split; [|exact Q2]. right. injection Q as <-. exists kb. split; [now left|reflexivity].
          -- injection H as <- <- <-. split; [right; exists kb; split; [now left|reflexivity]|]. lia.
        * intros k [].
        * intros k [<-|[]]. exact Kb.
        * intros v k A [].
        * intros v k A [<-|[]]. rewrite NV. cbn [cim]. rewrite (row_dot_app R), row_dot_one. destruct (V v A) as [V1 _]. change (num_real t) with nr in *. rewrite Nat.eqb_refl. rewrite (V1 (nr + kb) eq_refl), !(scale_value R).
          rewrite (x_re v (ru_lhs r) ka L Ka). f_equal. cbn [cmul creal cre cim]. field. exact Er.
        * intros v k A E' _. rewrite NV. reflexivity.
        * intros v k A E' Nk. exfalso. apply Nk. left. congruence.
  Qed.

  (** ** all rules *)
  Record rows_all rules T (a b : list nat) : Prop := mk_rows_all {
    ra_in : forall row col w, In (row, col, w) T -> (In row a \/ exists k, In k b /\ row = nr + k) /\ col < nr + ni;
    ra_re : forall k, In k a -> exists r, In r rules /\ re_index t (ru_lhs r) = Some k /\ forall v, asg v -> row_dot T k (x_of v) = cre (newval r v);
    ra_im : forall k, In k b -> exists r, In r rules /\ im_index t (ru_lhs r) = Some k /\ forall v, asg v -> row_dot T (nr + k) (x_of v) = cim (newval r v);
    ra_kre : forall r v k, In r rules -> asg v -> re_index t (ru_lhs r) = Some k -> ~ In k a -> cre (newval r v) = cre (v (ru_lhs r));
    ra_kim : forall r v k, In r rules -> asg v -> im_index t (ru_lhs r) = Some k -> ~ In k b -> cim (newval r v) = cim (v (ru_lhs r)) }.
  Lemma re_once id id' k : id < len -> id' < len -> re_index t id = Some k -> re_index t id' = Some k -> id = id'.
  Proof. intros L L' E E'. apply (re_index_spec t NB _ _ L) in E. apply (re_index_spec t NB _ _ L') in E'. congruence. Qed.
  Lemma im_once id id' k : id < len -> id' < len -> im_index t id = Some k -> im_index t id' = Some k -> id = id'.
  Proof. intros L L' E E'. apply (im_index_spec t NB _ _ L) in E. apply (im_index_spec t NB _ _ L') in E'. congruence. Qed.
  Lemma all_rows_spec rules : (forall r, In r rules -> good_rule R F r) -> NoDup (map ru_lhs rules) -> exists T a b, all_rows t mostly rules = Some (T, a, b) /\ rows_all rules T a b.
  Proof.
    induction rules as [|r rules IH]; intros G N.
    - exists [], [], []. split; [reflexivity|]. constructor; try easy.
    - inversion N as [|? ? Nr N']; subst. destruct IH as [T' [a' [b' [E' A']]]]; [intros; apply G; now right|exact N'|].
      destruct (rule_rows_spec r (G r (or_introl eq_refl))) as [T [a [b [E A]]]]. cbn [all_rows]. rewrite E, E'. exists (T ++ T'), (a ++ a'), (b ++ b'). split; [reflexivity|].
      assert (Lr : ru_lhs r < len) by apply (G r (or_introl eq_refl)).
      assert (Lo : forall r', In r' rules -> ru_lhs r' < len /\ ru_lhs r' <> ru_lhs r).
      { intros r' H. split; [apply (G r' (or_intror H))|]. intro Q. apply Nr. rewrite <- Q. now apply in_map. }
      (* rows of the first rule are not rows of the others *)
      assert (X1 : forall k, In k a -> ~ In k a'). { intros k H H'. destruct (ra_re _ _ _ _ A' k H') as [r' [Hr [Q _]]]. destruct (Lo r' Hr) as [L1 L2]. apply L2. apply (re_once _ _ k L1 Lr Q). now apply (ro_re _ _ _ _ A). }
      assert (X2 : forall k, In k b -> ~ In k b'). { intros k H H'. destruct (ra_im _ _ _ _ A' k H') as [r' [Hr [Q _]]]. destruct (Lo r' Hr) as [L1 L2]. apply L2. apply (im_once _ _ k L1 Lr Q). now apply (ro_im _ _ _ _ A). }
      assert (Ba : forall k, In k a -> k < nr) by (intros k H; apply (re_bound (ru_lhs r) k Lr), (ro_re _ _ _ _ A), H).
      assert (Ba' : forall k, In k a' -> k < nr). { intros k H. destruct (ra_re _ _ _ _ A' k H) as [r' [Hr [Q _]]]. apply (re_bound (ru_lhs r') k); [now apply Lo|exact Q]. }
      constructor.
      + intros row col w H. apply in_app_or in H as [H|H].
        * destruct (ro_in _ _ _ _ A _ _ _ H) as [[Q|[k [Q Q']]] B]; (split; [|exact B]); [left; apply in_or_app; now left|right; exists k; split; [apply in_or_app; now left|exact Q']].
        * destruct (ra_in _ _ _ _ A' _ _ _ H) as [[Q|[k [Q Q']]] B]; (split; [|exact B]); [left; apply in_or_app; now right|right; exists k; split; [apply in_or_app; now right|exact Q']].
      + intros k H. apply in_app_or in H as [H|H].
        * exists r. split; [now left|]. split; [now apply (ro_re _ _ _ _ A)|]. intros v Av. rewrite (row_dot_app R), (ro_vre _ _ _ _ A v k Av H), (row_dot_none T'); [ring|].
          intros [[row col] w] Hx Q. cbn in Q. subst row. destruct (ra_in _ _ _ _ A' _ _ _ Hx) as [[Q|[k' [_ Q]]] _]; [now apply (X1 k)|]. specialize (Ba k H). lia.
        * destruct (ra_re _ _ _ _ A' k H) as [r' [Hr [Q V]]]. exists r'. split; [now right|]. split; [exact Q|]. intros v Av. rewrite (row_dot_app R), (V v Av), (row_dot_none T); [ring|].
          intros [[row col] w] Hx Q'. cbn in Q'. subst row. destruct (ro_in _ _ _ _ A _ _ _ Hx) as [[Q'|[k' [_ Q']]] _]; [now apply (X1 k)|]. specialize (Ba' k H). lia.
      + intros k H. apply in_app_or in H as [H|H].
        * exists r. split; [now left|]. split; [now apply (ro_im _ _ _ _ A)|]. intros v Av. rewrite (row_dot_app R), (ro_vim _ _ _ _ A v k Av H), (row_dot_none T'); [ring|].
          intros [[row col] w] Hx Q. cbn in Q. subst row. destruct (ra_in _ _ _ _ A' _ _ _ Hx) as [[Q|[k' [Hk Q]]] _]; [specialize (Ba' _ Q); lia|]. assert (k' = k) by lia. subst k'. now apply (X2 k).
        * destruct (ra_im _ _ _ _ A' k H) as [r' [Hr [Q V]]]. exists r'. split; [now right|]. split; [exact Q|]. intros v Av. rewrite (row_dot_app R), (V v Av), (row_dot_none T); [ring|].
          intros [[row col] w] Hx Q'. cbn in Q'. subst row. destruct (ro_in _ _ _ _ A _ _ _ Hx) as [[Q'|[k' [Hk Q']]] _]; [specialize (Ba _ Q'); lia|]. assert (k' = k) by lia. subst k'. now apply (X2 k).
      + intros r' v k [<-|Hr] Av Ek Nk.
        * apply (ro_kre _ _ _ _ A v k Av Ek). intro H. apply Nk, in_or_app. now left.
        * apply (ra_kre _ _ _ _ A' r' v k Hr Av Ek). intro H. apply Nk, in_or_app. now right.
      + intros r' v k [<-|Hr] Av Ek Nk.
        * apply (ro_kim _ _ _ _ A v k Av Ek). intro H. apply Nk, in_or_app. now left.
        * apply (ra_kim _ _ _ _ A' r' v k Hr Av Ek). intro H. apply Nk, in_or_app. now right.
  Qed.

  (** ** diagonal entries *)
  Lemma diagonal_dot off (w : R) l row a : NoDup l -> row_dot (diagonal off w l) row a = if existsb (fun k => Nat.eqb (off + k) row) l then rmul R w (a row) else r0 R.
  Proof.
    induction l as [|k l IH]; intro N; [reflexivity|]. inversion N as [|? ? Nk N']; subst. cbn [diagonal map row_dot fold_right fst snd existsb].
    fold (diagonal off w l). fold (row_dot (diagonal off w l) row a). rewrite (IH N'). destruct (Nat.eqb_spec (off + k) row) as [E|_]; cbn [orb]; [|ring].
    subst row. assert (Q : existsb (fun k0 => Nat.eqb (off + k0) (off + k)) l = false).
    { destruct (existsb _ l) eqn:Q; [|reflexivity]. apply existsb_exists in Q as [k' [Hk Q]]. apply Nat.eqb_eq in Q. assert (k' = k) by lia. subst k'. contradiction. }
    rewrite Q. ring.
  Qed.
  Lemma bits_in n wanted mask k : In k (bits n wanted mask) <-> k < n /\ (In k mask <-> wanted = true).
  Proof.
    unfold bits. rewrite filter_In, in_seq, eqb_true_iff. assert (E : existsb (Nat.eqb k) mask = true <-> In k mask).
    { rewrite existsb_exists. split; [intros [x [H Q]]; apply Nat.eqb_eq in Q; now subst|intro H; exists k; split; [exact H|apply Nat.eqb_refl]]. }
    destruct (existsb (Nat.eqb k) mask), wanted; split; intros [A B]; (split; [lia|]); try (destruct E as [E1 E2]); try tauto; try discriminate;
      try (exfalso; destruct B as [B1 B2]; intuition congruence); intuition congruence.
  Qed.
  Lemma bits_nodup n wanted mask : NoDup (bits n wanted mask). Proof. apply NoDup_filter, seq_NoDup. Qed.
  Lemma bits_dot off n wanted mask (w : R) row a : row_dot (diagonal off w (bits n wanted mask)) row a = if Nat.leb off row && Nat.ltb (row - off) n && Bool.eqb (existsb (Nat.eqb (row - off)) mask) wanted then rmul R w (a row) else r0 R.
  Proof.
    rewrite (diagonal_dot off w _ row a (bits_nodup n wanted mask)). assert (Q : existsb (fun k => Nat.eqb (off + k) row) (bits n wanted mask) = Nat.leb off row && Nat.ltb (row - off) n && Bool.eqb (existsb (Nat.eqb (row - off)) mask) wanted); [|now rewrite Q].
    apply eq_true_iff_eq. rewrite existsb_exists, !andb_true_iff, Nat.leb_le, Nat.ltb_lt. unfold bits. split.
    - intros [k [H Q]]. apply Nat.eqb_eq in Q. subst row. apply filter_In in H as [H H']. apply in_seq in H. replace (off + k - off) with k by lia. split; [lia|exact H'].
    - intros [[H1 H2] H3]. exists (row - off). split; [apply filter_In; split; [apply in_seq; lia|exact H3]|apply Nat.eqb_eq; lia].
  Qed.
  Lemma diagonal_fits off n (w : R) l : (forall k, In k l -> off + k < n) -> fits_in n (diagonal off w l).
  Proof. intros H row col x Hx. unfold diagonal in Hx. apply in_map_iff in Hx as [k [Q Hk]]. injection Q as <- <- <-. specialize (H k Hk). auto. Qed.
  Lemma mask_true k mask : existsb (Nat.eqb k) mask = true <-> In k mask.
  Proof. rewrite existsb_exists. split; [intros [x [H Q]]; apply Nat.eqb_eq in Q; now subst|intro H; exists k; split; [exact H|apply Nat.eqb_refl]]. Qed.

  (** ** the matrix *)
  Definition moved rules v (id : nat) : cx R := match find_rule rules id with Some r => newval r v | None => v id end.
  Definition expected mode (x y : R) : R := match mode with Rewrite => y | Homogeneous => rsub R y x end.
  Lemma moved_same rules r v : (forall r, In r rules -> good_rule R F r) -> StronglySorted (before R F) rules -> In r rules -> moved rules v (ru_lhs r) = newval r v.
  Proof. intros G S H. unfold moved. now rewrite (sorted_find R F FO rules G S r H). Qed.
  Lemma good_nodup rules : good R F rules -> NoDup (map ru_lhs rules).
  Proof. intro G. apply (good_tidy R F FO rules G). Qed.
  Lemma matrix_spec mode rules : good R F rules -> exists M, rulebook_matrix t mostly mode rules = Some M /\ fits_in (dimension t) M /\
    forall v, asg v -> forall row, row < dimension t -> row_dot M row (x_of v) = expected mode (x_of v row) (x_of (moved rules v) row).
  Proof.
    intro G. pose proof (g_rule R F rules G) as Gr. pose proof (g_sorted R F rules G) as So.
    destruct (all_rows_spec rules Gr (good_nodup rules G)) as [T [a [b [E A]]]]. unfold rulebook_matrix. rewrite E. eexists. split; [reflexivity|].
    assert (Ba : forall k, In k a -> k < nr). { intros k H. destruct (ra_re _ _ _ _ A k H) as [r [Hr [Q _]]]. apply (re_bound (ru_lhs r) k); [apply (Gr r Hr)|exact Q]. }
    assert (Bb : forall k, In k b -> k < ni). { intros k H. destruct (ra_im _ _ _ _ A k H) as [r [Hr [Q _]]]. apply (im_bound (ru_lhs r) k); [apply (Gr r Hr)|exact Q]. }
    assert (FT : fits_in (dimension t) T).
    { intros row col w H. destruct (ra_in _ _ _ _ A _ _ _ H) as [[Q|[k [Q ->]]] B]; unfold dimension; (split; [|exact B]); [specialize (Ba _ Q); lia|specialize (Bb _ Q); lia]. }
    assert (FA : forall m m', fits_in (dimension t) m -> fits_in (dimension t) m' -> @fits_in R (dimension t) (m ++ m')).
    { intros m m' H1 H2 row col w H. apply in_app_or in H as [H|H]; [exact (H1 _ _ _ H)|exact (H2 _ _ _ H)]. }
    assert (FD1 : forall (w : R) x, fits_in (dimension t) (diagonal 0 w (bits nr x a))).
    { intros w x. apply diagonal_fits. intros k Hk. apply bits_in in Hk as [Hk _]. unfold dimension. lia. }
    assert (FD2 : forall (w : R) x, fits_in (dimension t) (diagonal nr w (bits ni x b))).
    { intros w x. apply diagonal_fits. intros k Hk. apply bits_in in Hk as [Hk _]. unfold dimension. lia. }
    split; [unfold num_real, num_imag; destruct mode; apply FA; auto; apply FA; auto|].
    intros v Av row Hrow. unfold dimension in Hrow. change (num_real t) with nr. change (num_imag t) with ni.
    assert (MRE : forall id k, id < len -> re_index t id = Some k -> ~ In k a -> cre (moved rules v id) = cre (v id)).
    { intros id k L Ek Nk. unfold moved. destruct (find_rule rules id) as [r|] eqn:Q; [|reflexivity]. apply find_in in Q as [Hr <-]. exact (ra_kre _ _ _ _ A r v k Hr Av Ek Nk). }
    assert (MIM : forall id k, id < len -> im_index t id = Some k -> ~ In k b -> cim (moved rules v id) = cim (v id)).
    { intros id k L Ek Nk. unfold moved. destruct (find_rule rules id) as [r|] eqn:Q; [|reflexivity]. apply find_in in Q as [Hr <-]. exact (ra_kim _ _ _ _ A r v k Hr Av Ek Nk). }
    (* the row of the rules, marked or not *)
    destruct (Nat.ltb_spec row nr) as [Hl|Hl].
    - destruct (nth_error (t_real t) row) as [id|] eqn:Ei; [|apply nth_error_None in Ei; lia].
      assert (L : id < len) by (apply (real_in_table t NB row id Ei)). assert (Ek : re_index t id = Some row) by now apply (re_index_spec t NB).
      assert (D2 : forall (w : R) x, row_dot (diagonal nr w (bits ni x b)) row (x_of v) = r0 R).
      { intros w x. rewrite bits_dot. destruct (Nat.leb_spec nr row) as [Q|_]; [lia|reflexivity]. }
      assert (D1 : forall (w : R) x, row_dot (diagonal 0 w (bits nr x a)) row (x_of v) = if Bool.eqb (existsb (Nat.eqb row) a) x then rmul R w (x_of v row) else r0 R).
      { intros w x. rewrite bits_dot, Nat.sub_0_r. cbn [Nat.leb andb]. destruct (Nat.ltb_spec row nr) as [_|Q]; [reflexivity|lia]. }
      destruct (existsb (Nat.eqb row) a) eqn:Mk.
      + apply mask_true in Mk. destruct (ra_re _ _ _ _ A row Mk) as [r [Hr [Er V]]]. specialize (V v Av). assert (id = ru_lhs r) by (apply (re_once _ _ row L); [apply (Gr r Hr)|exact Ek|exact Er]). subst id.
        assert (X : x_of (moved rules v) row = cre (newval r v)) by (rewrite (x_re _ _ row L Ek); now rewrite (moved_same rules r v Gr So Hr)).
        destruct mode; rewrite !(row_dot_app R), D1, D2, V; cbn [Bool.eqb expected]; rewrite X; ring.
      + assert (Nk : ~ In row a) by (intro Q; apply mask_true in Q; congruence).
        assert (Z : row_dot T row (x_of v) = r0 R). { apply row_dot_none. intros [[row' col] w] Hx Q. cbn in Q. subst row'. destruct (ra_in _ _ _ _ A _ _ _ Hx) as [[Q|[k [_ Q]]] _]; [contradiction|lia]. }
        assert (X : x_of (moved rules v) row = x_of v row) by (rewrite !(x_re _ _ row L Ek); now apply (MRE id row)).
        destruct mode; rewrite !(row_dot_app R), D1, D2, Z; cbn [Bool.eqb expected]; rewrite X; ring.
    - set (j := row - nr). assert (Erow : row = nr + j) by (unfold j; lia). destruct (nth_error (t_imag t) j) as [id|] eqn:Ei; [|apply nth_error_None in Ei; lia].
      assert (L : id < len) by (apply (imag_in_table t NB j id Ei)). assert (Ek : im_index t id = Some j) by now apply (im_index_spec t NB).
      assert (D1 : forall (w : R) x, row_dot (diagonal 0 w (bits nr x a)) row (x_of v) = r0 R).
      { intros w x. rewrite bits_dot, Nat.sub_0_r. cbn [Nat.leb andb]. destruct (Nat.ltb_spec row nr) as [Q|_]; [lia|reflexivity]. }
      assert (D2 : forall (w : R) x, row_dot (diagonal nr w (bits ni x b)) row (x_of v) = if Bool.eqb (existsb (Nat.eqb j) b) x then rmul R w (x_of v row) else r0 R).
      { intros w x. rewrite bits_dot. fold j. destruct (Nat.leb_spec nr row) as [_|Q]; [|lia]. destruct (Nat.ltb_spec j ni) as [_|Q]; [reflexivity|lia]. }
      destruct (existsb (Nat.eqb j) b) eqn:Mk.
      + apply mask_true in Mk. destruct (ra_im _ _ _ _ A j Mk) as [r [Hr [Er V]]]. specialize (V v Av). rewrite <- Erow in V. assert (id = ru_lhs r) by (apply (im_once _ _ j L); [apply (Gr r Hr)|exact Ek|exact Er]). subst id.
        assert (X : x_of (moved rules v) row = cim (newval r v)) by (rewrite Erow, (x_im _ _ j L Ek); now rewrite (moved_same rules r v Gr So Hr)).
        destruct mode; rewrite !(row_dot_app R), D1, D2, V; cbn [Bool.eqb expected]; rewrite X; ring.
      + assert (Nk : ~ In j b) by (intro Q; apply mask_true in Q; congruence).
        assert (Z : row_dot T row (x_of v) = r0 R). { apply row_dot_none. intros [[row' col] w] Hx Q. cbn in Q. subst row'. destruct (ra_in _ _ _ _ A _ _ _ Hx) as [[Q|[k [Hk Q]]] _]; [specialize (Ba _ Q); lia|]. apply Nk. replace j with k by lia. exact Hk. }
        assert (X : x_of (moved rules v) row = x_of v row) by (rewrite Erow, !(x_im _ _ j L Ek); now apply (MIM id j)).
        destruct mode; rewrite !(row_dot_app R), D1, D2, Z; cbn [Bool.eqb expected]; rewrite X; ring.
  Qed.
End Rbm.
