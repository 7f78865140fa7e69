(** Concrete polynomials: a sort, a table, and counterexamples. *)
From Coq Require Import List NArith ZArith Arith Bool Sorted Permutation Lia QArith Qabs Qminmax Qcanon.
From Verif Require Import CoreModel FieldModel FieldProofs SymModel SymSpec SymProofs SymFinalProofs SymWitnessProofs.
From Verif Require Import PolyModel PolySpec PolyProofs PolyOpsProofs PolyTableProofs PolyOrderProofs PolyBasisModel PolyBasisProofs.
Import ListNotations.
Local Open Scope nat_scope.

(** insertion sort *)
Section Sort.
  Variable R : rfield.
  Notation mono := (mono R).
  Fixpoint ins (lt : mono -> mono -> bool) (x : mono) (l : list mono) : list mono :=
    match l with [] => [x] | y :: l' => if lt y x then y :: ins lt x l' else x :: l end.
  Definition isort (lt : mono -> mono -> bool) (l : list mono) : list mono := fold_right (ins lt) [] l.
  Lemma ins_perm lt x l : Permutation (x :: l) (ins lt x l).
  Proof. induction l as [|y l IH]; cbn; [auto|]. destruct (lt y x); [|auto]. rewrite perm_swap. now constructor. Qed.
  Lemma isort_perm lt l : Permutation l (isort lt l).
  Proof. induction l as [|x l IH]; cbn; [constructor|]. rewrite <- ins_perm. now constructor. Qed.
  Lemma ins_sorted t lt x l : term_order t lt -> in_table t x -> Forall (@in_table R t) l ->
    StronglySorted (fun x y => lt y x = false) l -> StronglySorted (fun x y => lt y x = false) (ins lt x l).
  Proof.
    intros HO Kx. induction l as [|y l IH]; intros F S; cbn; [repeat constructor|]. inversion F as [|? ? Ky F']. inversion S as [|? ? S1 S2]. subst.
    destruct (lt y x) eqn:L.
    - constructor; [now apply IH|]. apply Forall_forall. intros z Hz. apply (Permutation_in _ (Permutation_sym (ins_perm lt x l))) in Hz.
      destruct Hz as [<-|Hz]; [now apply (lt_asym R t lt HO)|]. rewrite Forall_forall in S2. now apply S2.
    - constructor; [exact S|]. constructor; [exact L|]. apply Forall_forall. intros z Hz. rewrite Forall_forall in S2, F'. specialize (S2 z Hz). specialize (F' z Hz).
      destruct (lt z x) eqn:Q; [|reflexivity]. pose proof (lt_le R t lt HO z x y F' Kx Ky Q L) as W. congruence.
  Qed.
  Lemma isort_sorts t lt : term_order t lt -> sorts t lt (isort lt).
  Proof.
    intros HO l F. split; [apply isort_perm|]. induction F as [|x l Kx F IH]; cbn; [constructor|]. apply (ins_sorted t); auto.
    apply Forall_forall. intros z Hz. rewrite Forall_forall in F. apply F. now apply (Permutation_in _ (Permutation_sym (isort_perm lt l))).
  Qed.
End Sort.
Arguments isort {R}.

(** the table: 0, 1, an anti-Hermitian symbol (2), Hermitian ones (3, 4, 5, 7) and a generic one (6) *)
Definition ops8 : list op := [ORegister (hseq_make 3 [0;1] SIm); OFill 1; ORegister xyz; OMerge [symbol_one (hseq_make 3 [0;2;0] SNeg)]].
Definition t8 : table := table_after anti3_sctx ops8.
Lemma ops8_ok : Forall (op_ok anti3_sctx anti3_words) ops8.
Proof.
  constructor; [apply anti3_in; vm_compute; reflexivity|]. constructor; [apply anti3_osg_ok; vm_compute; reflexivity|].
  constructor; [apply anti3_in; vm_compute; reflexivity|]. constructor; [|constructor]. constructor; [|constructor].
  apply so_one; [apply anti3_in; vm_compute; reflexivity|vm_compute; reflexivity].
Qed.
Lemma t8_run : run_ops anti3_sctx table_start ops8 = Done t8 tt. Proof. vm_compute. reflexivity. Qed.
Lemma t8_clean : reachable_clean anti3_sctx anti3_words t8. Proof. exists ops8. split; [exact ops8_ok|exact t8_run]. Qed.
Lemma t8_reach : reachable anti3_sctx anti3_words t8. Proof. exact (clean_reachable _ _ _ t8_clean). Qed.
Lemma t8_good : starts t8 /\ no_null t8.
Proof. apply (session_no_null anti3_sctx anti3_words anti3_lawful ops8 t8 ops8_ok); [|exact t8_run]. repeat (constructor; [exact I|]). constructor. Qed.
Notation Q' := Qc_rfield.
Definition q2 : Q' := (Q2Qc (2 # 1)).
Definition q3 : Q' := (Q2Qc (3 # 1)).
Definition cq (a b : Q) : cx Q' := mk_cx (Q2Qc a : Q') (Q2Qc b : Q').
Definition mq (id : nat) (cj : bool) (a b : Q) : mono Q' := mk_mono id cj (cq a b).
(** 2 X6 + 3i X6* + (1+i) X3 - X2 *)
Definition p8 : list (mono Q') := [mq 2 false (-1) 0; mq 3 false 1 1; mq 6 false 2 0; mq 6 true 0 3].
Definition ok_term (t : table) (x : mono Q') : bool :=
  Nat.ltb (m_id x) (length (t_syms t)) && negb (is_zero (m_f x)) && negb (Nat.eqb (m_id x) 0) && (negb (herm t (m_id x) || anti t (m_id x)) || negb (m_cj x)).
Fixpoint sorted_terms (lt : mono Q' -> mono Q' -> bool) (p : list (mono Q')) : bool :=
  match p with [] => true | x :: p' => forallb (fun y => lt x y) p' && sorted_terms lt p' end.
Lemma canonical_by t lt p : forallb (ok_term t) p && sorted_terms lt p = true -> canonical t lt p.
Proof.
  intro H. apply andb_true_iff in H. destruct H as [H S]. constructor.
  - clear H. induction p as [|x p IH]; cbn in *; [constructor|]. apply andb_true_iff in S. destruct S as [S1 S2]. constructor; [now apply IH|].
    apply Forall_forall. now apply forallb_forall.
  - intros x Hx. rewrite forallb_forall in H. specialize (H x Hx). unfold ok_term in H. repeat (apply andb_true_iff in H; destruct H as [H ?]).
    split; [now apply Nat.ltb_lt in H|]. split; [apply is_zero_false; now destruct (is_zero (m_f x))|]. split; [intro E; rewrite E in *; discriminate|].
    intros [A|A]; rewrite A in H0; rewrite ?orb_true_r in H0; cbn in H0; now destruct (m_cj x).
Qed.
Lemma p8_canonical : canonical t8 id_less p8. Proof. apply canonical_by. vm_compute. reflexivity. Qed.
(** an assignment *)
Definition v8 (id : nat) : cx Q' := match id with 1 => c1 | 2 => cq 0 5 | 3 => cq 7 0 | 6 => cq 1 2 | _ => c0 end.
Lemma assignment_by t v : v 0 = c0 -> v 1 = c1 -> forallb (fun x => (negb (sy_herm (snd x)) || r_eqb Q' (cim (v (fst x))) (r0 Q')) && (negb (sy_anti (snd x)) || r_eqb Q' (cre (v (fst x))) (r0 Q')))
  (combine (seq 0 (length (t_syms t))) (t_syms t)) = true -> assignment t v.
Proof.
  intros H0 H1 F. rewrite forallb_forall in F. constructor; auto; intros id s N E;
    (assert (I : In (id, s) (combine (seq 0 (length (t_syms t))) (t_syms t))) by (apply nth_combine_seq; rewrite Nat.sub_0_r; split; [lia|exact N]));
    specialize (F _ I); cbn [fst snd] in F; apply andb_true_iff in F; destruct F as [F1 F2].
  - rewrite E in F1. now apply (r_eqb_spec Q').
  - rewrite E in F2. now apply (r_eqb_spec Q').
Qed.
Lemma v8_assignment : assignment t8 v8. Proof. apply assignment_by; [reflexivity|reflexivity|vm_compute; reflexivity]. Qed.

(** ** counterexamples; tests on numbers are run as Boolean functions *)
Lemma opt_bool {A} (o : option A) (f : A -> bool) : match o with Some w => f w | None => false end = true -> exists w, o = Some w /\ f w = true.
Proof. destruct o as [w|]; [|discriminate]. eauto. Qed.
Lemma cneq (x y : cx Q') : ceqb x y = false -> x <> y. Proof. apply ceqb_false. Qed.
Lemma rneq (x y : Q') : r_eqb Q' x y = false -> x <> y. Proof. intros H E. apply (r_eqb_spec Q') in E. congruence. Qed.
Lemma poly_eqb_refl (p : list (mono Q')) : poly_eqb p p = true.
Proof.
  induction p as [|x p IH]; [reflexivity|]. cbn. rewrite IH, andb_true_r. unfold mono_eqb. rewrite Nat.eqb_refl, eqb_reflx, ceqb_refl. now rewrite orb_true_r.
Qed.
Lemma pneq (p q : list (mono Q')) : poly_eqb p q = false -> p <> q. Proof. intros H E. rewrite E, poly_eqb_refl in H. discriminate. Qed.
Lemma is_conjugate_refuted : exists (t : table) (p q : list (mono Q')), reachable_clean anti3_sctx anti3_words t /\ starts t /\ no_null t /\
  canonical t id_less p /\ canonical t id_less q /\ is_conjugate t p q = true /\ q <> conjugate_poly t p.
Proof.
  exists t8, [mq 6 false 1 0], [mq 6 false 2 0]. split; [exact t8_clean|]. split; [apply t8_good|]. split; [apply t8_good|].
  split; [apply canonical_by; vm_compute; reflexivity|]. split; [apply canonical_by; vm_compute; reflexivity|]. split; [vm_compute; reflexivity|]. apply pneq. vm_compute. reflexivity.
Qed.
Definition has_zero (p : list (mono Q')) : bool := existsb (fun x => is_zero (m_f x) || Nat.eqb (m_id x) 0) p.
Lemma not_canonical_zero t lt (p : list (mono Q')) : has_zero p = true -> ~ canonical t lt p.
Proof.
  intros H C. apply existsb_exists in H. destruct H as [x [H E]]. destruct (cp_terms t lt p C x H) as [_ [A [B _]]]. apply orb_true_iff in E.
  destruct E as [E|E]; [apply is_zero_true in E|apply Nat.eqb_eq in E]; contradiction.
Qed.
Lemma sum_zero_refuted : exists (t : table) (a b : mono Q') p, starts t /\ no_null t /\ canonical t id_less [a] /\ canonical t id_less p /\
  (m_f b = c0 /\ in_table t b) /\ ~ canonical t id_less (sum_mm id_less a b) /\ ~ canonical t id_less (sum_pm id_less p b).
Proof.
  exists t8, (mq 3 false 1 0), (mk_mono 4 false c0), [mq 3 false 1 0]. split; [apply t8_good|]. split; [apply t8_good|].
  split; [apply canonical_by; vm_compute; reflexivity|]. split; [apply canonical_by; vm_compute; reflexivity|].
  split; [split; [reflexivity|apply Nat.ltb_lt; vm_compute; reflexivity]|].
  split; apply not_canonical_zero; vm_compute; reflexivity.
Qed.
Lemma map_zero_refuted : exists (t : table) (l : list (nat * Q')), starts t /\ no_null t /\ NoDup (map fst l) /\ ~ canonical t id_less (poly_of_map l).
Proof.
  exists t8, [(3, Q2Qc 0)]. split; [apply t8_good|]. split; [apply t8_good|]. split; [repeat constructor; intros []|].
  apply not_canonical_zero. vm_compute. reflexivity.
Qed.
(** a symbol created without real and without imaginary part *)
Lemma null_symbol_refuted : exists c V t (p q : list (mono Q')), lawful c V /\ reachable_clean c V t /\ starts t /\
  canonical t id_less p /\ canonical t id_less q /\ same_value t p q /\ p <> q.
Proof.
  exists anti3_sctx, anti3_words, (table_after anti3_sctx [OCreate 1 false false]), [mq 2 false 1 0], [].
  split; [exact anti3_lawful|]. split; [exists [OCreate 1 false false]; split; [repeat constructor|vm_compute; reflexivity]|].
  split; [vm_compute; do 3 eexists; repeat split|]. split; [apply canonical_by; vm_compute; reflexivity|]. split; [apply canonical_by; reflexivity|]. split; [|discriminate].
  intros v A. rewrite value_cons. cbn [value fold_right]. unfold term_value. cbn [m_cj m_f m_id mq].
  pose proof (as_herm _ v A 2 _ eq_refl eq_refl) as H. pose proof (as_anti _ v A 2 _ eq_refl eq_refl) as K.
  assert (E : v 2 = c0) by (apply cx_ext; [exact K|exact H]). rewrite E. apply ceqb_spec. vm_compute. reflexivity.
Qed.
Lemma degree_refuted : exists c V t (p : list (mono Q')), lawful c V /\ reachable_clean c V t /\ starts t /\ no_null t /\ canonical t (hash_less t) p /\ maximum_degree_by_hash t p = None.
Proof.
  exists anti3_sctx, anti3_words, (table_after anti3_sctx [OCreate 1 true true]), [mq 2 false 1 0].
  split; [exact anti3_lawful|]. split; [exists [OCreate 1 true true]; split; [repeat constructor|vm_compute; reflexivity]|].
  assert (G : starts (table_after anti3_sctx [OCreate 1 true true]) /\ no_null (table_after anti3_sctx [OCreate 1 true true])).
  { apply (session_no_null anti3_sctx anti3_words anti3_lawful [OCreate 1 true true]); [repeat constructor|repeat constructor|vm_compute; reflexivity]. }
  split; [apply G|]. split; [apply G|]. split; [apply canonical_by; vm_compute; reflexivity|vm_compute; reflexivity].
Qed.
Lemma export_refuted : exists t (p : list (mono Q')) v w, reachable_clean anti3_sctx anti3_words t /\ starts t /\ no_null t /\ canonical t id_less p /\ assignment t v /\ imaginary_vec t p = Some w /\
  radd Q' (rdot (bv_real w) (real_elem t v)) (rdot (bv_imag w) (imag_elem t v)) <> cim (value v p).
Proof.
  destruct (opt_bool (imaginary_vec t8 [mq 3 false 0 1]) (fun w => negb (r_eqb Q' (radd Q' (rdot (bv_real w) (real_elem t8 v8)) (rdot (bv_imag w) (imag_elem t8 v8))) (cim (value v8 [mq 3 false 0 1])))))
    as [w [E B]]; [vm_compute; reflexivity|].
  exists t8, [mq 3 false 0 1], v8, w. split; [exact t8_clean|]. split; [apply t8_good|]. split; [apply t8_good|].
  split; [apply canonical_by; vm_compute; reflexivity|]. split; [exact v8_assignment|]. split; [exact E|]. apply rneq. apply negb_true_iff. exact B.
Qed.
Lemma combine_refuted : exists t (p : list (mono Q')) v w, reachable_clean anti3_sctx anti3_words t /\ canonical t id_less p /\ real_coefs p /\ assignment t v /\ basis_vec_both t p = Some w /\
  cadd (cdot (bv_real (complex_of_pair w)) (real_elem t v)) (cdot (bv_imag (complex_of_pair w)) (imag_elem t v)) <> value v p.
Proof.
  destruct (opt_bool (basis_vec_both t8 [mq 3 false 1 0]) (fun w => negb (ceqb (cadd (cdot (bv_real (complex_of_pair w)) (real_elem t8 v8)) (cdot (bv_imag (complex_of_pair w)) (imag_elem t8 v8)))
    (value v8 [mq 3 false 1 0])))) as [w [E B]]; [vm_compute; reflexivity|].
  exists t8, [mq 3 false 1 0], v8, w. split; [exact t8_clean|]. split; [apply canonical_by; vm_compute; reflexivity|].
  split; [intros x [<-|[]]; apply (r_eqb_spec Q'); vm_compute; reflexivity|]. split; [exact v8_assignment|]. split; [exact E|]. apply cneq. apply negb_true_iff. exact B.
Qed.
Lemma complex_trip_refuted : exists t (p q : list (mono Q')) w, reachable_clean anti3_sctx anti3_words t /\ starts t /\ no_null t /\ canonical t id_less p /\ @sorts Q' t id_less (isort id_less) /\
  complex_vec t p = Some w /\ basis_to_poly t (isort id_less) (bv_real w) (bv_imag w) = Some q /\ q <> p.
Proof.
  destruct (opt_bool (complex_vec t8 [mq 2 false 1 0]) (fun w => match basis_to_poly t8 (isort id_less) (bv_real w) (bv_imag w) with Some q => negb (poly_eqb q [mq 2 false 1 0]) | None => false end))
    as [w [E B]]; [vm_compute; reflexivity|].
  destruct (opt_bool _ (fun q => negb (poly_eqb q [mq 2 false 1 0])) B) as [q [E' B']].
  exists t8, [mq 2 false 1 0], q, w. split; [exact t8_clean|]. split; [apply t8_good|]. split; [apply t8_good|].
  split; [apply canonical_by; vm_compute; reflexivity|]. split; [apply isort_sorts, id_less_order|]. split; [exact E|]. split; [exact E'|]. apply pneq. apply negb_true_iff. exact B'.
Qed.
Lemma mask_refuted : exists t (x : mono Q') w, reachable_clean anti3_sctx anti3_words t /\ canonical t id_less [x] /\ complex_vec t [x] = Some w /\ mask_mono t x <> (map fst (bv_real w), map fst (bv_imag w)).
Proof.
  destruct (opt_bool (complex_vec t8 [mq 1 false 1 0]) (fun w => Nat.eqb (length (fst (mask_mono t8 (mq 1 false 1 0)))) 0 && Nat.eqb (length (bv_real w)) 1)) as [w [E B]]; [vm_compute; reflexivity|].
  exists t8, (mq 1 false 1 0), w. split; [exact t8_clean|]. split; [apply canonical_by; vm_compute; reflexivity|]. split; [exact E|]. intro F. rewrite F in B. cbn [fst] in B. rewrite map_length in B.
  apply andb_true_iff in B. destruct B as [B1 B2]. apply Nat.eqb_eq in B1, B2. congruence.
Qed.

(** ** comparison with a tolerance *)
Local Open Scope Q_scope.
Lemma approx_zero eps x y : 0 <= x -> x <= y -> (approx_cmp eps x y = 0%Z <-> y - x <= eps * y).
Proof.
  intros P L. unfold approx_cmp.
  assert (A : Qabs (x - y) == y - x) by (rewrite Qabs_neg; [ring|]; apply (Qplus_le_l _ _ y); ring_simplify; exact L).
  assert (M : Qmax (Qabs x) (Qabs y) == y).
  { rewrite !Qabs_pos; [|apply (Qle_trans _ x); assumption|exact P]. now apply Q.max_r. }
  destruct (Qle_bool (Qabs (x - y)) (eps * Qmax (Qabs x) (Qabs y))) eqn:E.
  - apply Qle_bool_iff in E. rewrite A, M in E. tauto.
  - split; [destruct (x ?= y); discriminate|]. intro H. assert (G : Qle_bool (Qabs (x - y)) (eps * Qmax (Qabs x) (Qabs y)) = true) by (apply Qle_bool_iff; rewrite A, M; exact H). congruence.
Qed.
Lemma approx_chain eps : 0 < eps -> eps < 1 -> exists x y z : Q, approx_cmp eps x y = 0%Z /\ approx_cmp eps y z = 0%Z /\ approx_cmp eps z x = 1%Z.
Proof.
  intros E0 E1. assert (P : 0 < 1 - eps) by (apply (Qplus_lt_l _ _ eps); ring_simplify; exact E1).
  set (d := 1 - eps). exists (d * d), d, 1.
  assert (D1 : d <= 1) by (unfold d; apply (Qplus_le_l _ _ eps); ring_simplify; apply (Qle_trans _ (0 + 1)); [discriminate|]; apply Qplus_le_compat; [now apply Qlt_le_weak|apply Qle_refl]).
  assert (DD : d * d <= d).
  { setoid_replace d with (1 * d) at 3 by ring. apply Qmult_le_compat_r; [exact D1|now apply Qlt_le_weak]. }
  assert (D0 : 0 <= d * d) by (apply Qmult_le_0_compat; now apply Qlt_le_weak).
  split; [|split].
  - apply approx_zero; [exact D0|exact DD|]. setoid_replace (d - d * d) with (eps * d); [apply Qle_refl|unfold d; ring].
  - apply approx_zero; [now apply Qlt_le_weak|exact D1|]. setoid_replace (1 - d) with (eps * 1); [apply Qle_refl|unfold d; ring].
  - unfold approx_cmp.
    assert (LT : d * d < 1 - eps).
    { apply (Qlt_le_trans _ (1 * d)); [|setoid_replace (1 * d) with (1 - eps); [apply Qle_refl|unfold d; ring]]. apply Qmult_lt_r; [exact P|]. unfold d. apply (Qplus_lt_l _ _ eps). ring_simplify.
      setoid_replace 1 with (0 + 1) at 1 by ring. apply Qplus_lt_l. exact E0. }
    assert (NZ : Qle_bool (Qabs (1 - d * d)) (eps * Qmax (Qabs 1) (Qabs (d * d))) = false).
    { destruct (Qle_bool _ _) eqn:Q; [|reflexivity]. exfalso. apply Qle_bool_iff in Q. rewrite Qabs_pos in Q; [|apply (Qplus_le_l _ _ (d * d)); ring_simplify; apply (Qle_trans _ d); [exact DD|exact D1]].
      assert (M : Qmax (Qabs 1) (Qabs (d * d)) == 1) by (rewrite (Qabs_pos (d * d)) by exact D0; apply Q.max_l; apply (Qle_trans _ d); [exact DD|exact D1]).
      rewrite M in Q. apply (Qlt_not_le _ _ LT). apply (Qplus_le_l _ _ (eps - d * d)). ring_simplify. ring_simplify in Q. setoid_replace (-1 * d ^ 2 + 1) with (1 - d * d) in Q by ring.
      setoid_replace (-(1) * d ^ 2 + 1) with (1 - d * d) by ring. exact Q. }
    rewrite NZ. destruct (1 ?= d * d) eqn:C; [reflexivity| |reflexivity]. exfalso. apply Qlt_alt in C. apply (Qlt_not_le _ _ C). apply (Qle_trans _ d); [exact DD|exact D1].
Qed.
Lemma approx_red eps x y : approx_cmp eps (Q2Qc x) (Q2Qc y) = approx_cmp eps x y.
Proof. unfold approx_cmp. cbn [this Q2Qc]. rewrite !Qred_correct. reflexivity. Qed.
Lemma approx_sym eps x y : approx_cmp eps x y = 0%Z -> approx_cmp eps y x = 0%Z.
Proof.
  unfold approx_cmp. intro H. assert (E : Qle_bool (Qabs (y - x)) (eps * Qmax (Qabs y) (Qabs x)) = Qle_bool (Qabs (x - y)) (eps * Qmax (Qabs x) (Qabs y))).
  { rewrite Qabs_Qminus, (Q.max_comm (Qabs y)). reflexivity. }
  rewrite E. destruct (Qle_bool (Qabs (x - y)) (eps * Qmax (Qabs x) (Qabs y))); [reflexivity|]. destruct (x ?= y); discriminate.
Qed.
Definition approx_rcmp (eps : Q) (x y : Q') : Z := approx_cmp eps (this x) (this y).
Lemma tolerance_refuted eps : 0 < eps -> eps < 1 -> ~ strict_weak (Forall (@in_table Q' t8)) (poly_less (cmp_coefs (approx_rcmp eps) id_less)).
Proof.
  intros E0 E1 SW. destruct (approx_chain eps E0 E1) as [x [y [z [XY [YZ ZX]]]]].
  set (f := fun a : Q => [mk_mono 3 false (creal (Q2Qc a : Q'))]).
  assert (K : forall a, Forall (@in_table Q' t8) (f a)) by (intro a; constructor; [apply Nat.ltb_lt; vm_compute; reflexivity|constructor]).
  assert (G : forall a b, poly_less (cmp_coefs (approx_rcmp eps) id_less) (f a) (f b) = Z.eqb (approx_cmp eps b a) 1).
  { intros a b. unfold poly_less, f. cbn [rev app scan_less]. unfold cmp_coefs, id_less. cbn [m_id m_cj m_f Nat.ltb Nat.leb Bool.eqb cre cim creal].
    assert (AR : approx_rcmp eps (Q2Qc b) (Q2Qc a) = approx_cmp eps b a) by (unfold approx_rcmp; apply approx_red). rewrite !AR.
    assert (Z : approx_rcmp eps (r0 Q') (r0 Q') = 0%Z).
    { change (approx_rcmp eps (r0 Q') (r0 Q')) with (approx_cmp eps 0 0). apply approx_zero; try apply Qle_refl. setoid_replace (eps * 0) with 0 by ring. apply Qle_refl. }
    destruct (Z.eqb_spec (approx_cmp eps b a) 0) as [E|E].
    - rewrite E. cbn [Z.eqb]. rewrite Z. reflexivity.
    - destruct (Z.eqb (approx_cmp eps b a) 1) eqn:E1'; [reflexivity|]. destruct (Z.eqb (approx_cmp eps b a) (-1)) eqn:E2'; reflexivity. }
  assert (L : poly_less (cmp_coefs (approx_rcmp eps) id_less) (f x) (f z) = true) by (rewrite G, ZX; reflexivity).
  destruct (sw_cotrans _ _ SW (f x) (f y) (f z) (K x) (K y) (K z) L) as [H|H]; rewrite G in H.
  - rewrite (approx_sym _ _ _ XY) in H. discriminate.
  - rewrite (approx_sym _ _ _ YZ) in H. discriminate.
Qed.
(** an exact comparison *)
Definition qcmp (x y : Q') : Z := match (this x ?= this y)%Q with Lt => (-1)%Z | Eq => 0%Z | Gt => 1%Z end.
Lemma qcmp_exact : exact_compare qcmp.
Proof.
  constructor.
  - intros x y. unfold qcmp. destruct (this x ?= this y)%Q; auto.
  - intros x y. unfold qcmp. split.
    + destruct (this x ?= this y)%Q eqn:E; try discriminate. intros _. apply Qeq_alt in E. now apply Qc_is_canon.
    + intros ->. destruct (this y ?= this y)%Q eqn:E; [reflexivity| |]; [apply Qlt_alt in E|apply Qgt_alt in E]; now apply Qlt_irrefl in E.
  - intros x y. unfold qcmp. rewrite <- Qcompare_antisym. destruct (this x ?= this y)%Q; reflexivity.
  - intros x y z. unfold qcmp. destruct (this x ?= this y)%Q eqn:A; try discriminate. destruct (this y ?= this z)%Q eqn:B; try discriminate. intros _ _.
    apply Qgt_alt in A, B. assert (C : this z < this x) by (apply (Qlt_trans _ (this y)); assumption). apply Qgt_alt in C. now rewrite C.
Qed.
