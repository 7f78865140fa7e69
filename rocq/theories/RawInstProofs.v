(** Polynomials of operators in the three kinds of context. *)
From Coq Require Import List NArith ZArith Arith Bool Sorted Lia.
From Verif Require Import CoreModel CoreProofs LocModel LocSpec SymInstModel SymInstProofs FieldModel FieldProofs SymModel SymSpec PolyModel AlgModel AlgSpec AlgFinalProofs PauliModel PauliSpec PauliProofs PauliFinalProofs
  MatInstSpec MatStarProofs RawModel RawSpec RawProofs.
Import ListNotations.

Section Star.
  Variable R : rfield.
  Add Field RfI : (r_field R).
  Add Field CfI : (cx_field R).
  Notation raw := (list (hseq * cx R)).
  Variables (mul : hseq -> hseq -> res hseq) (cj : hseq -> res hseq) (D : nat -> hseq -> Prop) (L : nat).
  Hypothesis SW : star_words mul cj D L.
  Let f a b := match mul a b with Ret p => p | _ => a end.
  Let over_D l (p : raw) := Forall (fun x => D l (fst x)) p.
  Variables (l k : nat).
  Hypothesis LK : l + k <= L.
  Hypothesis PH : phaseless (D (l + k)).
  Hypothesis HX : hash_exact (D (l + k)).
  Lemma star_op a b : D l a -> D k b -> mul a b = Ret (f a b) /\ D (l + k) (f a b).
  Proof. intros Da Db. destruct (sw_mul _ _ _ _ SW l k a b Da Db LK) as [p [E Dp]]. unfold f. now rewrite E. Qed.
  Lemma star_terms (op := fun a b => mul a b) (wt : cx R -> cx R -> cx R) (p q r : raw) : over_D l p -> over_D k q -> product_terms mul wt p q = Ret r -> raw_wf (D (l + k)) r.
  Proof.
    intros P Q E. destruct (product_terms_value R (cx_space R) (D (l + k)) PH (reader R 0) (reader_represents R (D (l + k)) 0) mul f wt (D l) (D k)
      (fun a b A B => proj1 (star_op a b A B)) (fun a b A B => proj2 (star_op a b A B)) p q P Q) as [r' [E' [W _]]]. congruence.
  Qed.
  Lemma star_condensed (p q r : raw) : over_D l p -> over_D k q -> raw_multiply mul p q = Ret r -> condensed (D (l + k)) r.
  Proof.
    intros P Q E. unfold raw_multiply, distributed_product in E. destruct (product_terms mul cmul p q) as [r'| |] eqn:E' in E; cbn [bind] in E; try discriminate. injection E as <-.
    apply condense_condensed. eapply star_terms; eauto.
  Qed.
  Lemma star_product (A : cspace R) (rep : hseq -> A) (times : A -> A -> A) : represents (D (l + k)) rep -> bilinear times ->
    (forall a b c, D l a -> D k b -> mul a b = Ret c -> rep c = times (rep a) (rep b)) ->
    forall p q : raw, over_D l p -> over_D k q -> exists r, raw_multiply mul p q = Ret r /\ condensed (D (l + k)) r /\ poly_in rep r = times (poly_in rep p) (poly_in rep q).
  Proof.
    intros RP BL MU p q P Q. destruct (algebra_value R A (D (l + k)) HX PH rep RP mul f cmul (D l) (D k)
      (fun a b A B => proj1 (star_op a b A B)) (fun a b A B => proj2 (star_op a b A B)) c1 times BL) with (p := p) (q := q) as [r [E V]]; auto.
    - intros a b Da Db. rewrite v_scale_1. apply (MU a b); auto. now apply star_op.
    - intros a b. ring.
    - exists r. split; [exact E|]. split; [eapply star_condensed; eauto|exact V].
  Qed.
End Star.

Lemma pauli_exact n L : pauli_safe n L -> hash_exact (pauli_wf n L).
Proof. intros S a b A B H. exact (lw_hash _ _ (pauli_lawful n L (fun _ => []) S) a b A B H). Qed.
Lemma pauli_phaseless n L : phaseless (pauli_wf n L).
Proof. intros q [->|H]; [now left|now right]. Qed.
Lemma pauli_word_exact n L : pauli_safe n L -> hash_exact (pauli_word n L).
Proof. intros S a b [A _] [B _] H. now apply (pauli_exact n L S). Qed.
Lemma pauli_word_phaseless n L : phaseless (pauli_word n L).
Proof. intros q [W Z]. split; [now apply pauli_phaseless|exact Z]. Qed.
Lemma loc_exact sc L : loc_safe sc L -> hash_exact (loc_wf sc L).
Proof. intros S a b A B H. exact (lw_hash _ _ (loc_lawful sc L (fun _ => []) S) a b A B H). Qed.
Lemma loc_phaseless sc L : phaseless (loc_wf sc L).
Proof. intros q [->|H]; [now left|now right]. Qed.
Lemma alg_exact L M c cx l : decidable_context L M c cx -> hash_exact (alg_word L c cx l).
Proof.
  intros D a b [[A _] _] [[B _] _] H. apply wf_like_canonical in A, B. eapply wf_like_hash; eauto. destruct (decidable_ok L M c cx D) as [C _]. apply C.
Qed.
Lemma alg_phaseless L c cx l : phaseless (alg_word L c cx l).
Proof.
  intros q [[[W [I Z]] P] Len]. split; [|exact Len]. split.
  - split; [exact W|]. split; [exact I|]. intro H. cbn in H. now rewrite (Z H).
  - destruct P as [P|[P1 P2]]; [now left|right; auto].
Qed.

(** commutators of Pauli polynomials *)
Section Commutator.
  Variable R : rfield.
  Add Field RfC : (r_field R).
  Add Field CfC : (cx_field R).
  Notation raw := (list (hseq * cx R)).
  Variables (A : cspace R) (n La Lb : nat).
  Hypothesis PS : pauli_safe n (La + Lb).
  Variable rep : hseq -> A.
  Hypothesis RP : represents (pauli_wf n (La + Lb)) rep.
  Variable times : A -> A -> A.
  Hypothesis BL : bilinear times.
  Hypothesis MU : forall a b, pauli_word n (La + Lb) a -> pauli_word n (La + Lb) b -> rep (pauli_multiply n a b) = times (rep a) (rep b).
  Definition bracket (k : cx R) (x y : A) : A := v_add (times x y) (v_scale k (times y x)).
  Lemma bracket_bilinear k : bilinear (bracket k).
  Proof.
    destruct BL as [B1 B2 B3 B4]. split; intros; unfold bracket; rewrite ?B1, ?B2, ?B3, ?B4, ?v_scale_add.
    - apply v_shuffle.
    - apply v_shuffle.
    - f_equal. rewrite <- !v_scale_mul. f_equal. ring.
    - f_equal. rewrite <- !v_scale_mul. f_equal. ring.
  Qed.
  Definition two : cx R := cadd c1 c1.
  Lemma zero_wf L : pauli_wf n L (hseq_const true). Proof. now left. Qed.
  Lemma words_brackets a b : pauli_word n La a -> pauli_word n Lb b ->
    v_scale two (rep (pauli_commutator n a b)) = bracket (copp c1) (rep a) (rep b) /\
    v_scale two (rep (pauli_anticommutator n a b)) = bracket c1 (rep a) (rep b) /\
    pauli_wf n (La + Lb) (pauli_commutator n a b) /\ pauli_wf n (La + Lb) (pauli_anticommutator n a b).
  Proof.
    intros Wa Wb. assert (Wa' : pauli_word n (La + Lb) a) by (split; [apply (pauli_wf_up n La); [lia|apply Wa]|apply Wa]).
    assert (Wb' : pauli_word n (La + Lb) b) by (split; [apply (pauli_wf_up n Lb); [lia|apply Wb]|apply Wb]).
    pose proof (pauli_mul_word n (La + Lb) La Lb a b PS Wa Wb (le_n _)) as Wab. pose proof (MU a b Wa' Wb') as Mab. pose proof (MU b a Wb' Wa') as Mba.
    pose proof (multiply_swapped n (La + Lb) a b (proj1 Wa') (proj1 Wb') (proj2 Wa') (proj2 Wb')) as SW. cbv zeta in SW. rewrite swap_sign_imag in SW.
    set (r := pauli_multiply n a b) in *. assert (Er : rep r = v_scale (sphase R (hs_sign r)) (rep (pos r))) by (apply (rp_phase _ _ RP); apply Wab).
    assert (Wba : pauli_wf n (La + Lb) (pauli_multiply n b a)). { pose proof (pauli_mul_word n (La + Lb) Lb La b a PS Wb Wa) as H. rewrite (Nat.add_comm Lb La) in H. apply H. lia. }
    assert (Eb : rep (pauli_multiply n b a) = v_scale (if Bool.eqb (s_is_imaginary (smul (hs_sign a) (hs_sign b))) (hs_imaginary r) then c1 else copp c1) (rep r)).
    { rewrite (rp_phase _ _ RP _ Wba), Er, SW. unfold hs_imaginary. cbn [hs_sign]. change (pos (mk_hseq _ _ _)) with (pos r). rewrite <- v_scale_mul. f_equal.
      destruct (Bool.eqb _ _); [ring|]. destruct (hs_sign r); apply cx_ext; cbn; ring. }
    assert (Zero : forall k : cx R, v_scale k (rep (hseq_const true)) = v_0) by (intro k; rewrite (rp_zero _ _ RP (hseq_const true) eq_refl); apply v_scale_zero).
    unfold bracket, pauli_commutator, pauli_anticommutator. fold r. cbv zeta. rewrite <- Mab, <- Mba, Eb. destruct (Bool.eqb _ _); cbn [negb]; rewrite Zero; repeat split; try apply zero_wf; try apply Wab.
    - rewrite <- v_scale_mul. rewrite <- (v_scale_1 R A (rep r)) at 1. rewrite <- v_add_scale. replace (cadd c1 (cmul (copp c1) c1)) with (@c0 R) by ring. symmetry. apply v_scale_0.
    - rewrite !v_scale_1. unfold two. now rewrite v_add_scale, v_scale_1.
    - rewrite <- v_scale_mul. unfold two. rewrite v_add_scale, v_scale_1. f_equal. replace (cmul (copp c1) (copp c1)) with (@c1 R) by ring. now rewrite v_scale_1.
    - rewrite <- v_scale_mul. rewrite <- (v_scale_1 R A (rep r)) at 1. rewrite <- v_add_scale. replace (cadd c1 (cmul c1 (copp c1))) with (@c0 R) by ring. symmetry. apply v_scale_0.
  Qed.
  Notation words l p := (Forall (fun x : hseq * cx R => pauli_word n l (fst x)) p).
  Lemma brackets_spec (p q : raw) : words La p -> words Lb q ->
    (exists r, raw_commutator n p q = Ret r /\ condensed (pauli_wf n (La + Lb)) r /\ poly_in rep r = bracket (copp c1) (poly_in rep p) (poly_in rep q)) /\
    (exists r, raw_anticommutator n p q = Ret r /\ condensed (pauli_wf n (La + Lb)) r /\ poly_in rep r = bracket c1 (poly_in rep p) (poly_in rep q)).
  Proof.
    intros P Q. assert (G : forall (h : hseq -> hseq -> hseq) k, (forall a b, pauli_word n La a -> pauli_word n Lb b -> v_scale two (rep (h a b)) = bracket k (rep a) (rep b) /\ pauli_wf n (La + Lb) (h a b)) ->
      exists r, distributed_product (fun a b => Ret (h a b)) twice_product p q = Ret r /\ condensed (pauli_wf n (La + Lb)) r /\ poly_in rep r = bracket k (poly_in rep p) (poly_in rep q)).
    { intros h k H. destruct (algebra_value R A (pauli_wf n (La + Lb)) (pauli_exact n _ PS) (pauli_phaseless n _) rep RP (fun a b => Ret (h a b)) h twice_product (pauli_word n La) (pauli_word n Lb)
        (fun a b _ _ => eq_refl) (fun a b X Y => proj2 (H a b X Y)) two (bracket k) (bracket_bilinear k)) with (p := p) (q := q) as [r [E V]]; auto.
      - intros a b X Y. apply H; auto.
      - exists r. split; [exact E|]. split; [|exact V]. unfold distributed_product in E.
        destruct (product_terms_value R A (pauli_wf n (La + Lb)) (pauli_phaseless n _) rep RP (fun a b => Ret (h a b)) h twice_product (pauli_word n La) (pauli_word n Lb)
          (fun a b _ _ => eq_refl) (fun a b X Y => proj2 (H a b X Y)) p q P Q) as [r' [E' [W _]]]. rewrite E' in E. cbn [bind] in E. injection E as <-. now apply condense_condensed. }
    split; apply G; intros a b X Y; destruct (words_brackets a b X Y) as [B1 [B2 [B3 B4]]]; auto.
  Qed.
End Commutator.
