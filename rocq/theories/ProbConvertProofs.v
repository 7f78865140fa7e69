(** Conversion between coefficients of correlators and coefficients of Collins-Gisin probabilities. *)
From Coq Require Import List NArith ZArith Arith Bool Lia Field_theory Ring Field.
From Verif Require Import CoreModel AlgModel FieldModel FieldProofs TensorModel TensorSpec TensorProofs TensorFinalProofs ProbModel ProbSpec.
Import ListNotations.
Local Open Scope nat_scope.

Section Conv.
  Context {R : rfield}.
  Add Field Rq : (r_field R).
  Notation "x +' y" := (radd R x y) (at level 50, left associativity). Notation "x *' y" := (rmul R x y) (at level 40, left associativity).
  Notation "x -' y" := (rsub R x y) (at level 50, left associativity). Notation "x /' y" := (rdiv R x y) (at level 40, left associativity).
  Lemma two_ne : @r2 R <> r0 R. Proof. unfold r2. apply two_neq_0. Qed.
  Lemma four_ne : @r4 R <> r0 R.
  Proof. unfold r4. intro E. assert (F : r2 *' r2 = r0 R) by (rewrite <- E; unfold r2; ring). assert (G : @r2 R = r0 R); [|now apply two_ne].
    transitivity (r2 *' r2 *' rinv R r2); [field; apply two_ne|]. rewrite F. ring. Qed.
  Lemma rsum_total (l : list R) : rsum l = rtotal l.
  Proof.
    unfold rsum. assert (G : forall s, fold_left (radd R) l s = s +' rtotal l). { induction l as [|x l IH]; intro s; cbn; [ring|]. rewrite IH. ring. }
    rewrite G. ring.
  Qed.
  Lemma tot_add {A} (f g : A -> R) l : rtotal (map (fun a => f a +' g a) l) = rtotal (map f l) +' rtotal (map g l).
  Proof. induction l as [|a l IH]; cbn; [ring|]. rewrite IH. ring. Qed.
  Lemma tot_mul {A} (f : A -> R) s l : rtotal (map (fun a => s *' f a) l) = s *' rtotal (map f l).
  Proof. induction l as [|a l IH]; cbn; [ring|]. rewrite IH. ring. Qed.
  Lemma tot_app (l l' : list R) : rtotal (l ++ l') = rtotal l +' rtotal l'.
  Proof. induction l as [|a l IH]; cbn; [ring|]. rewrite IH. ring. Qed.
  Lemma tot_swap {A B} (g : A -> B -> R) l l' : rtotal (map (fun a => rtotal (map (g a) l')) l) = rtotal (map (fun b => rtotal (map (fun a => g a b) l)) l').
  Proof.
    induction l as [|a l IH]; cbn [map rtotal].
    - induction l' as [|b l' IH]; [reflexivity|]. cbn. rewrite <- IH. ring.
    - rewrite IH, <- tot_add. reflexivity.
  Qed.
  Lemma tot_prod {A B} (g : A -> B -> R) l l' : rtotal (map (fun p => g (fst p) (snd p)) (list_prod l l')) = rtotal (map (fun a => rtotal (map (g a) l')) l).
  Proof. induction l as [|a l IH]; [reflexivity|]. cbn [list_prod]. rewrite map_app, map_map, tot_app, IH. reflexivity. Qed.
  Lemma tot_ext {A} (f g : A -> R) l : (forall a, In a l -> f a = g a) -> rtotal (map f l) = rtotal (map g l).
  Proof. intro H. f_equal. now apply map_ext_in. Qed.
  (* the four parts of a table *)
  Variables m0 m1 : nat.
  Let A := seq 1 m0.
  Let B := seq 1 m1.
  Notation table_ := (nat -> nat -> R).
  Definition SA (f : nat -> R) : R := rtotal (map f A).
  Definition SB (f : nat -> R) : R := rtotal (map f B).
  Definition parts (c v : table_) : R :=
    c 0 0 *' v 0 0 +' SB (fun b => c 0 b *' v 0 b) +' (SA (fun a => c a 0 *' v a 0) +' SA (fun a => SB (fun b => c a b *' v a b))).
  Lemma functional_parts d (f : table_) (v : table_) : (forall a b, a < S m0 -> b < S m1 -> nth (a + S m0 * b) d (r0 R) = f a b) -> functional (S m0) (S m1) d v = parts f v.
  Proof.
    intro H. unfold functional. rewrite (tot_prod (fun a b => nth (a + S m0 * b) d (r0 R) *' v a b)).
    rewrite (tot_ext _ (fun a => rtotal (map (fun b => f a b *' v a b) (seq 0 (S m1))))).
    2:{ intros a Ha. apply in_seq in Ha. apply tot_ext. intros b Hb. apply in_seq in Hb. rewrite H by lia. reflexivity. }
    cbn [seq map rtotal]. fold B A. unfold parts, SA, SB. rewrite <- tot_add. ring.
  Qed.
  Lemma alice_eq i a : alice (S m1) i a = SB (i a). Proof. unfold alice. rewrite rsum_total, Nat.sub_succ, Nat.sub_0_r. reflexivity. Qed.
  Lemma bob_eq i b : bob (S m0) i b = SA (fun a => i a b). Proof. unfold bob. rewrite rsum_total, Nat.sub_succ, Nat.sub_0_r. reflexivity. Qed.
  Lemma central_eq i : central (S m0) (S m1) i = SA (fun a => SB (i a)).
  Proof. unfold central. rewrite rsum_total, Nat.sub_succ, Nat.sub_0_r. unfold SA. apply tot_ext. intros a _. apply alice_eq. Qed.
  Lemma in_A a : In a A -> exists a', a = S a'. Proof. unfold A. rewrite in_seq. intros [H _]. destruct a; [lia|eauto]. Qed.
  Lemma in_B a : In a B -> exists a', a = S a'. Proof. unfold B. rewrite in_seq. intros [H _]. destruct a; [lia|eauto]. Qed.
  Lemma SA_ext f g : (forall a, f (S a) = g (S a)) -> SA f = SA g. Proof. intro H. apply tot_ext. intros a Ha. apply in_A in Ha as [a' ->]. apply H. Qed.
  Lemma SB_ext f g : (forall a, f (S a) = g (S a)) -> SB f = SB g. Proof. intro H. apply tot_ext. intros a Ha. apply in_B in Ha as [a' ->]. apply H. Qed.
  Lemma SA_add f g : SA (fun a => f a +' g a) = SA f +' SA g. Proof. apply tot_add. Qed.
  Lemma SB_add f g : SB (fun a => f a +' g a) = SB f +' SB g. Proof. apply tot_add. Qed.
  Lemma SA_mul f s : SA (fun a => s *' f a) = s *' SA f. Proof. apply tot_mul. Qed.
  Lemma SB_mul f s : SB (fun a => s *' f a) = s *' SB f. Proof. apply tot_mul. Qed.
  Lemma S_swap (g : table_) : SA (fun a => SB (g a)) = SB (fun b => SA (fun a => g a b)). Proof. apply tot_swap. Qed.
  Lemma to_cg_functional i cg : parts (fc_to_cg (S m0) (S m1) i) cg = parts i (two_party_correlator cg).
  Proof.
    unfold parts.
    rewrite (SB_ext (fun b => fc_to_cg (S m0) (S m1) i 0 b *' cg 0 b) (fun b => r2 *' (i 0 b *' cg 0 b) +' ropp R r2 *' SA (fun a => i a b *' cg 0 b))).
    2:{ intro b. cbn [fc_to_cg]. rewrite bob_eq. rewrite (SA_ext (fun a => i a (S b) *' cg 0 (S b)) (fun a => cg 0 (S b) *' i a (S b))) by (intro; ring). rewrite SA_mul. ring. }
    rewrite (SA_ext (fun a => fc_to_cg (S m0) (S m1) i a 0 *' cg a 0) (fun a => r2 *' (i a 0 *' cg a 0) +' ropp R r2 *' SB (fun b => i a b *' cg a 0))).
    2:{ intro a. cbn [fc_to_cg]. rewrite alice_eq. rewrite (SB_ext (fun b => i (S a) b *' cg (S a) 0) (fun b => cg (S a) 0 *' i (S a) b)) by (intro; ring). rewrite (SB_mul (i (S a))). ring. }
    rewrite (SA_ext (fun a => SB (fun b => fc_to_cg (S m0) (S m1) i a b *' cg a b)) (fun a => r4 *' SB (fun b => i a b *' cg a b))).
    2:{ intro a. rewrite <- SB_mul. apply SB_ext. intro b. cbn [fc_to_cg]. ring. }
    rewrite (SB_ext (fun b => i 0 b *' two_party_correlator cg 0 b) (fun b => r2 *' (i 0 b *' cg 0 b) +' ropp R (cg 0 0) *' i 0 b)).
    2:{ intro b. cbn [two_party_correlator]. unfold r2. ring. }
    rewrite (SA_ext (fun a => i a 0 *' two_party_correlator cg a 0) (fun a => r2 *' (i a 0 *' cg a 0) +' ropp R (cg 0 0) *' i a 0)).
    2:{ intro a. cbn [two_party_correlator]. unfold r2. ring. }
    rewrite (SA_ext (fun a => SB (fun b => i a b *' two_party_correlator cg a b))
      (fun a => (r4 *' SB (fun b => i a b *' cg a b) +' ropp R r2 *' SB (fun b => i a b *' cg a 0)) +' (ropp R r2 *' SB (fun b => i a b *' cg 0 b) +' cg 0 0 *' SB (i a)))).
    2:{ intro a. rewrite <- !SB_mul, <- !SB_add. apply SB_ext. intro b. cbn [two_party_correlator]. unfold r4, r2. ring. }
    cbn [fc_to_cg two_party_correlator]. rewrite !SA_add, !SB_add, !SA_mul, !SB_mul, alice_eq, bob_eq, central_eq, (S_swap (fun a b => i a b *' cg 0 b)). ring.
  Qed.
  Lemma back_and_forth (i : table_) a b : fc_to_cg (S m0) (S m1) (cg_to_fc (S m0) (S m1) i) a b = i a b.
  Proof.
    pose proof two_ne as T2. pose proof four_ne as T4.
    assert (X4 : @r4 R = r2 *' r2) by (unfold r4, r2; ring).
    assert (AL : forall a, SB (cg_to_fc (S m0) (S m1) i (S a)) = SB (i (S a)) /' r4).
    { intro x. transitivity (SB (fun b => (r1 R /' r4) *' i (S x) b)); [apply SB_ext; intro y; cbn [cg_to_fc]; field; exact T4|]. rewrite SB_mul. field. exact T4. }
    assert (BO : forall b, SA (fun a => cg_to_fc (S m0) (S m1) i a (S b)) = SA (fun a => i a (S b)) /' r4).
    { intro x. transitivity (SA (fun a => (r1 R /' r4) *' i a (S x))); [apply SA_ext; intro y; cbn [cg_to_fc]; field; exact T4|]. rewrite SA_mul. field. exact T4. }
    destruct a as [|a], b as [|b]; cbn [fc_to_cg].
    - rewrite central_eq, alice_eq, bob_eq.
      rewrite (SA_ext (fun a => SB (cg_to_fc (S m0) (S m1) i a)) (fun a => (r1 R /' r4) *' SB (i a))) by (intro x; rewrite AL; field; exact T4).
      rewrite (SB_ext (cg_to_fc (S m0) (S m1) i 0) (fun b => (r1 R /' r2) *' i 0 b +' (r1 R /' r4) *' SA (fun a => i a b))) by (intro x; cbn [cg_to_fc]; rewrite bob_eq; field; auto).
      rewrite (SA_ext (fun a => cg_to_fc (S m0) (S m1) i a 0) (fun a => (r1 R /' r2) *' i a 0 +' (r1 R /' r4) *' SB (i a))) by (intro x; cbn [cg_to_fc]; rewrite alice_eq; field; auto).
      rewrite SA_add, SB_add, !SA_mul, !SB_mul. cbn [cg_to_fc]. rewrite alice_eq, bob_eq, central_eq, (S_swap i). field. auto.
    - rewrite bob_eq, BO. cbn [cg_to_fc]. rewrite bob_eq, X4. field. exact T2.
    - rewrite alice_eq, AL. cbn [cg_to_fc]. rewrite alice_eq, X4. field. exact T2.
    - cbn [cg_to_fc]. field. exact T4.
  Qed.
  Lemma forth_and_back (i : table_) a b : cg_to_fc (S m0) (S m1) (fc_to_cg (S m0) (S m1) i) a b = i a b.
  Proof.
    pose proof two_ne as T2. pose proof four_ne as T4.
    assert (X4 : @r4 R = r2 *' r2) by (unfold r4, r2; ring).
    assert (AL : forall a, SB (fc_to_cg (S m0) (S m1) i (S a)) = r4 *' SB (i (S a))).
    { intro x. rewrite <- SB_mul. apply SB_ext. intro y. reflexivity. }
    assert (BO : forall b, SA (fun a => fc_to_cg (S m0) (S m1) i a (S b)) = r4 *' SA (fun a => i a (S b))).
    { intro x. rewrite <- SA_mul. apply SA_ext. intro y. reflexivity. }
    destruct a as [|a], b as [|b]; cbn [cg_to_fc].
    - rewrite central_eq, alice_eq, bob_eq.
      rewrite (SA_ext (fun a => SB (fc_to_cg (S m0) (S m1) i a)) (fun a => r4 *' SB (i a))) by (intro x; apply AL).
      rewrite (SB_ext (fc_to_cg (S m0) (S m1) i 0) (fun b => r2 *' i 0 b +' ropp R r2 *' SA (fun a => i a b))) by (intro x; cbn [fc_to_cg]; rewrite bob_eq; ring).
      rewrite (SA_ext (fun a => fc_to_cg (S m0) (S m1) i a 0) (fun a => r2 *' i a 0 +' ropp R r2 *' SB (i a))) by (intro x; cbn [fc_to_cg]; rewrite alice_eq; ring).
      rewrite SA_add, SB_add, !SA_mul, !SB_mul. cbn [fc_to_cg]. rewrite alice_eq, bob_eq, central_eq, (S_swap i), X4. field. auto.
    - rewrite bob_eq, BO. cbn [fc_to_cg]. rewrite bob_eq, X4. field. exact T2.
    - rewrite alice_eq, AL. cbn [fc_to_cg]. rewrite alice_eq, X4. field. exact T2.
    - cbn [fc_to_cg]. field. exact T4.
  Qed.
  Lemma conv_ext (f g : table_) : (forall a b, a < S m0 -> b < S m1 -> f a b = g a b) -> forall a b, a < S m0 -> b < S m1 ->
    fc_to_cg (S m0) (S m1) f a b = fc_to_cg (S m0) (S m1) g a b /\ cg_to_fc (S m0) (S m1) f a b = cg_to_fc (S m0) (S m1) g a b.
  Proof.
    intros H. assert (EA : forall a, a < S m0 -> alice (S m1) f a = alice (S m1) g a).
    { intros a La. rewrite !alice_eq. apply tot_ext. intros b Hb. unfold B in Hb. apply in_seq in Hb. apply H; lia. }
    assert (EB : forall b, b < S m1 -> bob (S m0) f b = bob (S m0) g b).
    { intros b Lb. rewrite !bob_eq. apply tot_ext. intros a Ha. unfold A in Ha. apply in_seq in Ha. apply H; lia. }
    assert (EC : central (S m0) (S m1) f = central (S m0) (S m1) g).
    { rewrite !central_eq. apply tot_ext. intros a Ha. unfold A in Ha. apply in_seq in Ha. apply tot_ext. intros b Hb. unfold B in Hb. apply in_seq in Hb. apply H; lia. }
    intros [|a] [|b] La Lb; cbn [fc_to_cg cg_to_fc]; rewrite ?H, ?EA, ?EB, ?EC by lia; auto.
  Qed.
End Conv.

Section ConvFinal.
  Context {R : rfield}.
  Lemma count2 m0 m1 (data : list R) : small [S m0; S m1] -> ((N.of_nat (length data) =? element_count [S m0; S m1])%N = true <-> length data = S m0 * S m1).
  Proof.
    intro SM. rewrite N.eqb_eq. assert (E : element_count [S m0; S m1] = N.of_nat (S m0 * S m1)). { rewrite count_exact by (discriminate || exact SM). f_equal. unfold volume. cbn [fold_right fold_left]. ring. }
    rewrite E. lia.
  Qed.
  Lemma convert_nth dir m0 m1 (data : list R) opm out : small [S m0; S m1] -> convert dir opm [m0; m1] data = Value out ->
    length out = length data /\ length data = S m0 * S m1 /\ Forall (fun k => k = 2) opm /\
    forall a b, a < S m0 -> b < S m1 -> read (S m0) out a b = (if dir then fc_to_cg else cg_to_fc) (S m0) (S m1) (read (S m0) data) a b.
  Proof.
    intros SM E. unfold convert in E. destruct (forallb (fun k => k =? 2) opm) eqn:B; [|discriminate]. cbn [negb] in E.
    destruct (N.of_nat (length data) =? element_count [S m0; S m1])%N eqn:Q; [|discriminate]. cbn [negb] in E. injection E as <-.
    apply (count2 m0 m1 data SM) in Q. split; [now rewrite map_length, seq_length|]. split; [exact Q|]. split.
    - rewrite forallb_forall in B. apply Forall_forall. intros k Hk. now apply Nat.eqb_eq, B.
    - intros a b La Lb. unfold read at 1.
      assert (IDX : a + S m0 * b < length data) by (rewrite Q; nia).
      rewrite (nth_indep _ _ ((if dir then fc_to_cg else cg_to_fc) (S m0) (S m1) (read (S m0) data) (0 mod S m0) (0 / S m0))) by (rewrite map_length, seq_length; exact IDX).
      rewrite (map_nth (fun o => (if dir then fc_to_cg else cg_to_fc) (S m0) (S m1) (read (S m0) data) (o mod S m0) (o / S m0))), seq_nth by exact IDX.
      rewrite Nat.add_0_l. replace ((a + S m0 * b) mod S m0) with a. replace ((a + S m0 * b) / S m0) with b; [reflexivity|].
      + rewrite Nat.mul_comm, Nat.div_add by lia. rewrite Nat.div_small by lia. lia.
      + rewrite Nat.mul_comm, Nat.mod_add by lia. now rewrite Nat.mod_small by lia.
  Qed.
  Lemma convert_defined dir opm mpp (data : list R) m0 m1 : mpp = [m0; m1] -> small [S m0; S m1] ->
    (convert dir opm mpp data <> Throws <-> Forall (fun k => k = 2) opm /\ length data = S m0 * S m1) /\ convert dir opm mpp data <> Undefined.
  Proof.
    intros -> SM. pose proof (count2 m0 m1 data SM) as CT. unfold convert. destruct (forallb (fun k => k =? 2) opm) eqn:B; cbn [negb].
    - destruct (N.of_nat (length data) =? element_count [S m0; S m1])%N eqn:Q; cbn [negb]; (split; [split|discriminate]).
      + intros _. split; [|now apply CT]. rewrite forallb_forall in B. apply Forall_forall. intros k Hk. now apply Nat.eqb_eq, B.
      + discriminate.
      + congruence.
      + intros [_ H]. apply CT in H. discriminate.
    - split; [split|discriminate]; [congruence|]. intros [H _]. enough (forallb (fun k => k =? 2) opm = true) by congruence. apply forallb_forall. intros k Hk. rewrite Forall_forall in H. now apply Nat.eqb_eq, H.
  Qed.
  Lemma convert_parties dir opm mpp (data : list R) : length mpp <> 2 -> convert dir opm mpp data = Throws.
  Proof. intro L. unfold convert. destruct (forallb _ opm); [|reflexivity]. cbn [negb]. destruct mpp as [|a [|b [|c l]]]; try reflexivity. now elim L. Qed.
  Lemma to_cg_spec opm m0 m1 (data out : list R) cg : small [S m0; S m1] -> convert true opm [m0; m1] data = Value out ->
    functional (S m0) (S m1) out cg = functional (S m0) (S m1) data (two_party_correlator cg).
  Proof.
    intros SM E. destruct (convert_nth true m0 m1 data opm out SM E) as (_ & _ & _ & N).
    rewrite (functional_parts m0 m1 out _ cg N), (functional_parts m0 m1 data (read (S m0) data) (two_party_correlator cg)) by reflexivity. apply to_cg_functional.
  Qed.
  Lemma round_trip dir opm m0 m1 (data out : list R) : small [S m0; S m1] -> convert dir opm [m0; m1] data = Value out -> convert (negb dir) opm [m0; m1] out = Value data.
  Proof.
    intros SM E. destruct (convert_nth dir m0 m1 data opm out SM E) as (L1 & L2 & B & N).
    destruct (convert (negb dir) opm [m0; m1] out) as [back| |] eqn:E2.
    - f_equal. destruct (convert_nth (negb dir) m0 m1 out opm back SM E2) as (L3 & _ & _ & N2). apply (nth_ext _ _ (r0 R) (r0 R)); [congruence|]. intros o Ho.
      rewrite L3, L1, L2 in Ho. assert (A : o mod S m0 < S m0) by (apply Nat.mod_upper_bound; lia). assert (BB : o / S m0 < S m1) by (apply Nat.div_lt_upper_bound; lia).
      pose proof (N2 _ _ A BB) as Q. pose proof (Nat.div_mod o (S m0) ltac:(lia)) as DM. unfold read at 1 in Q. replace (o mod S m0 + S m0 * (o / S m0)) with o in Q by lia. rewrite Q.
      assert (D : forall f g : nat -> nat -> R, (forall a b, a < S m0 -> b < S m1 -> f a b = g a b) -> (if negb dir then fc_to_cg else cg_to_fc) (S m0) (S m1) f (o mod S m0) (o / S m0) =
        (if negb dir then fc_to_cg else cg_to_fc) (S m0) (S m1) g (o mod S m0) (o / S m0)). { intros f g H. destruct dir; apply conv_ext; assumption. }
      rewrite (D _ _ N). transitivity (read (S m0) data (o mod S m0) (o / S m0)); [destruct dir; [apply forth_and_back|apply back_and_forth]|].
      unfold read. f_equal. lia.
    - exfalso. destruct (convert_defined (negb dir) opm [m0; m1] out m0 m1 eq_refl SM) as [D _]. exact (proj2 D (conj B (eq_trans L1 L2)) E2).
    - exfalso. destruct (convert_defined (negb dir) opm [m0; m1] out m0 m1 eq_refl SM) as [_ D]. exact (D E2).
  Qed.
  Lemma to_fc_spec opm m0 m1 (data out : list R) cg : small [S m0; S m1] -> convert false opm [m0; m1] data = Value out ->
    functional (S m0) (S m1) out (two_party_correlator cg) = functional (S m0) (S m1) data cg.
  Proof. intros SM E. symmetry. apply (to_cg_spec opm m0 m1 out data cg SM). now apply (round_trip false opm m0 m1 data out). Qed.
End ConvFinal.
