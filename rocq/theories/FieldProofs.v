(** The complex numbers over a real field form a field; the rationals are a real field. *)
From Coq Require Import Field_theory Field Ring QArith Qcanon Bool Lia.
From Verif Require Import FieldModel.

Section Cx.
  Variable R : rfield.
  Add Field Rf : (r_field R).
  Lemma cx_ext (x y : cx R) : cre x = cre y -> cim x = cim y -> x = y.
  Proof. destruct x, y; cbn; intros; subst; reflexivity. Qed.
  Lemma cx_ring : ring_theory c0 c1 (@cadd R) cmul csub copp eq.
  Proof. constructor; intros; apply cx_ext; unfold cadd, cmul, csub, copp, c0, c1; cbn; ring. Qed.
  Lemma cnorm_zero (x : cx R) : cnorm x = r0 R -> x = c0.
  Proof.
    intro H. unfold cnorm in H. apply cx_ext; cbn.
    - now apply (r_real R _ (cim x)).
    - apply (r_real R _ (cre x)). rewrite <- H. ring.
  Qed.
  Lemma cinv_l (x : cx R) : x <> c0 -> cmul (cinv x) x = c1.
  Proof.
    intro H. assert (N : cnorm x <> r0 R) by (intro E; apply H; now apply cnorm_zero).
    apply cx_ext; unfold cmul, cinv; cbn; [|]; unfold cnorm in *; field; exact N.
  Qed.
  Lemma r1_neq_0 : r1 R <> r0 R. Proof. exact (F_1_neq_0 (r_field R)). Qed.
  Lemma c1_neq_0 : @c1 R <> c0. Proof. intro H. apply r1_neq_0. now apply (f_equal cre) in H. Qed.
  Lemma cx_field : field_theory c0 c1 (@cadd R) cmul csub copp cdiv cinv eq.
  Proof. constructor; [apply cx_ring|apply c1_neq_0|reflexivity|apply cinv_l]. Qed.
  Add Field Cf : cx_field.
  Lemma ceqb_spec (x y : cx R) : ceqb x y = true <-> x = y.
  Proof.
    unfold ceqb. rewrite andb_true_iff, !r_eqb_spec. split; [intros [A B]; now apply cx_ext|now intros ->].
  Qed.
  Lemma ceqb_refl (x : cx R) : ceqb x x = true. Proof. now apply ceqb_spec. Qed.
  Lemma ceqb_false (x y : cx R) : ceqb x y = false <-> x <> y.
  Proof. rewrite <- ceqb_spec. destruct (ceqb x y); split; congruence. Qed.
  Lemma c_eq_dec (x y : cx R) : {x = y} + {x <> y}.
  Proof. destruct (ceqb x y) eqn:E; [left; now apply ceqb_spec|right; now apply ceqb_false]. Qed.
  Lemma cconj_add (x y : cx R) : cconj (cadd x y) = cadd (cconj x) (cconj y).
  Proof. apply cx_ext; cbn; ring. Qed.
  Lemma cconj_mul (x y : cx R) : cconj (cmul x y) = cmul (cconj x) (cconj y).
  Proof. apply cx_ext; cbn; ring. Qed.
  Lemma cconj_opp (x : cx R) : cconj (copp x) = copp (cconj x).
  Proof. apply cx_ext; cbn; ring. Qed.
  Lemma cconj_sub (x y : cx R) : cconj (csub x y) = csub (cconj x) (cconj y).
  Proof. apply cx_ext; cbn; ring. Qed.
  Lemma cconj_conj (x : cx R) : cconj (cconj x) = x.
  Proof. apply cx_ext; cbn; ring. Qed.
  Lemma cconj_0 : cconj (@c0 R) = c0. Proof. apply cx_ext; cbn; ring. Qed.
  Lemma cconj_1 : cconj (@c1 R) = c1. Proof. apply cx_ext; cbn; ring. Qed.
  Lemma cconj_i : cconj (@ci R) = copp ci. Proof. apply cx_ext; cbn; ring. Qed.
  Lemma cconj_inj (x y : cx R) : cconj x = cconj y -> x = y.
  Proof. intro H. rewrite <- (cconj_conj x), <- (cconj_conj y). now rewrite H. Qed.
  Lemma cconj_zero (x : cx R) : cconj x = c0 <-> x = c0.
  Proof. split; intro H; [apply cconj_inj; now rewrite cconj_0|subst; apply cconj_0]. Qed.
  Lemma ci_sq : cmul ci ci = copp (@c1 R). Proof. apply cx_ext; cbn; ring. Qed.
  Lemma cmul_zero (x y : cx R) : cmul x y = c0 -> x = c0 \/ y = c0.
  Proof.
    intro H. destruct (c_eq_dec x c0) as [E|E]; [now left|right].
    replace y with (cmul (cinv x) (cmul x y)) by (field; exact E). rewrite H. ring.
  Qed.
  Lemma cneg_mul (x : cx R) : cmul (copp c1) x = copp x. Proof. ring. Qed.
  Lemma two_neq_0 : radd R (r1 R) (r1 R) <> r0 R.
  Proof. intro H. apply r1_neq_0. apply (r_real R _ (r1 R)). rewrite <- H. ring. Qed.
  Lemma double_zero (a : R) : radd R a a = r0 R -> a = r0 R.
  Proof.
    intro H. replace a with (rmul R (rinv R (radd R (r1 R) (r1 R))) (radd R a a)) by (field; exact two_neq_0). rewrite H. ring.
  Qed.
  Lemma creal_part (x : cx R) : cconj x = x <-> cim x = r0 R.
  Proof.
    split; intro H.
    - apply double_zero. apply (f_equal cim) in H. cbn in H. rewrite <- H at 1. ring.
    - apply cx_ext; cbn; [reflexivity|]. rewrite H. ring.
  Qed.
  Lemma cimag_part (x : cx R) : cconj x = copp x <-> cre x = r0 R.
  Proof.
    split; intro H.
    - apply double_zero. apply (f_equal cre) in H. cbn in H. rewrite H at 1. ring.
    - apply cx_ext; cbn; [rewrite H|]; ring.
  Qed.
End Cx.

(** the rationals *)
Lemma Qc_sq_nonneg (a : Qc) : (0 <= a * a)%Qc.
Proof.
  destruct (Qclt_le_dec a 0) as [L|L].
  - replace (a * a)%Qc with ((- a) * (- a))%Qc by ring.
    assert (N : (0 <= - a)%Qc) by (replace 0%Qc with (- 0)%Qc by ring; apply Qcopp_le_compat; now apply Qclt_le_weak).
    replace 0%Qc with (0 * (- a))%Qc by ring. now apply Qcmult_le_compat_r.
  - replace 0%Qc with (0 * a)%Qc by ring. now apply Qcmult_le_compat_r.
Qed.
Lemma Qc_sumsq (a b : Qc) : (a * a + b * b = 0)%Qc -> a = 0%Qc.
Proof.
  intro H. destruct (Qc_eq_dec a 0) as [E|E]; [exact E|exfalso].
  assert (Z : (a * a = 0)%Qc).
  { apply Qcle_antisym; [|apply Qc_sq_nonneg]. replace (a * a)%Qc with (- (b * b))%Qc.
    - replace 0%Qc with (- 0)%Qc by ring. apply Qcopp_le_compat, Qc_sq_nonneg.
    - replace (a * a)%Qc with (a * a + b * b - b * b)%Qc by ring. rewrite H. ring. }
  apply Qcmult_integral in Z as [Z|Z]; contradiction.
Qed.
Lemma Qc_eqb_ok (a b : Qc) : Qeq_bool a b = true <-> a = b.
Proof. split; intro H; [apply Qc_is_canon; now apply Qeq_bool_iff|subst; apply Qeq_bool_iff; reflexivity]. Qed.
Definition Qc_rfield : rfield :=
  mk_rfield Qc 0%Qc 1%Qc Qcplus Qcmult Qcminus Qcopp Qcdiv Qcinv Qcft (fun a b => Qeq_bool a b) Qc_eqb_ok Qc_sumsq.
