(** Offsets, indices and iterators of tensors. *)
From Coq Require Import List NArith Arith Bool Lia Sorted.
From Verif Require Import CoreModel CoreSpec AlgModel EnumModel EnumSpec EnumProofs TensorModel TensorSpec.
Import ListNotations.
Local Open Scope nat_scope.

(* ------------------------------------------------------------ 64-bit arithmetic *)
Lemma big_pos : (2 ^ 64 <> 0)%N.
Proof. discriminate. Qed.
Lemma wrap_small x : (x < 2 ^ 64)%N -> wrap64 x = x.
Proof. intro H. unfold wrap64. now apply N.mod_small. Qed.
Lemma wrap_wrap x : wrap64 (wrap64 x) = wrap64 x.
Proof. unfold wrap64. apply N.mod_mod. exact big_pos. Qed.
Lemma wrap_add_l a b : wrap64 (wrap64 a + b) = wrap64 (a + b).
Proof. unfold wrap64. apply N.add_mod_idemp_l. exact big_pos. Qed.
Lemma wrap_add_r a b : wrap64 (a + wrap64 b) = wrap64 (a + b).
Proof. unfold wrap64. apply N.add_mod_idemp_r. exact big_pos. Qed.
Lemma wrap_mul_l a b : wrap64 (wrap64 a * b) = wrap64 (a * b).
Proof. unfold wrap64. apply N.mul_mod_idemp_l. exact big_pos. Qed.
Lemma wrap_mul_r a b : wrap64 (a * wrap64 b) = wrap64 (a * b).
Proof. unfold wrap64. apply N.mul_mod_idemp_r. exact big_pos. Qed.
Lemma wrap_lt x : (wrap64 x < 2 ^ 64)%N.
Proof. unfold wrap64. apply N.mod_lt. exact big_pos. Qed.
Local Opaque wrap64.

Lemma volume_cons d dims : volume (d :: dims) = d * volume dims.
Proof. reflexivity. Qed.
Lemma volume_app a b : volume (a ++ b) = volume a * volume b.
Proof. induction a as [|d a IH]; cbn [app]; [cbn; lia|]. rewrite !volume_cons, IH. lia. Qed.
Lemma volume_rev a : volume (rev a) = volume a.
Proof. induction a as [|d a IH]; [reflexivity|]. cbn [rev]. rewrite volume_app, IH, !volume_cons. cbn. lia. Qed.
Lemma scan_product dims a : fold_left (fun a d => wrap64 (a * N.of_nat d)) dims (wrap64 a) = wrap64 (a * N.of_nat (volume dims)).
Proof.
  revert a. induction dims as [|d dims IH]; intro a; cbn [fold_left].
  - cbn [volume fold_right]. now rewrite N.mul_1_r.
  - rewrite wrap_mul_l, IH. f_equal. rewrite volume_cons, Nat2N.inj_mul. lia.
Qed.
Lemma one_wrap : 1%N = wrap64 1.
Proof. now rewrite wrap_small. Qed.
Lemma element_count_eq dims : dims <> [] -> element_count dims = wrap64 (N.of_nat (volume dims)).
Proof.
  intro NE. unfold element_count. destruct dims as [|d dims]; [contradiction|]. rewrite one_wrap at 1. rewrite scan_product. now rewrite N.mul_1_l.
Qed.

(* ------------------------------------------------------------ index to offset *)
Lemma exscan_snoc dims d a : exclusive_scan a (dims ++ [d]) = exclusive_scan a dims ++ [fold_left (fun a d => wrap64 (a * N.of_nat d)) dims a].
Proof. revert a. induction dims as [|e dims IH]; intro a; cbn; [reflexivity|]. now rewrite IH. Qed.
Lemma row_strides_cons d dims : strides false (d :: dims) = wrap64 (N.of_nat (volume dims)) :: strides false dims.
Proof.
  unfold strides. cbn [rev]. rewrite exscan_snoc, rev_app_distr. cbn [rev app]. f_equal.
  rewrite one_wrap at 1. rewrite scan_product, volume_rev. now rewrite N.mul_1_l.
Qed.
Lemma column_product dims index acc a : index_of dims index ->
  inner_product (wrap64 acc) index (exclusive_scan (wrap64 a) dims) = Value (wrap64 (acc + a * N.of_nat (column_position dims index))).
Proof.
  intro H. revert acc a. induction H as [|i d index dims L H IH]; intros acc a; cbn [inner_product exclusive_scan column_position].
  - now rewrite N.mul_0_r, N.add_0_r.
  - rewrite wrap_mul_l.
    replace (wrap64 (wrap64 acc + N.of_nat i * wrap64 a)) with (wrap64 (acc + N.of_nat i * a)).
    2:{ rewrite wrap_add_l. rewrite <- (wrap_add_r acc (N.of_nat i * wrap64 a)), wrap_mul_r, wrap_add_r. reflexivity. }
    rewrite IH. f_equal. f_equal. rewrite Nat2N.inj_add, Nat2N.inj_mul. lia.
Qed.
Lemma row_product dims index acc : index_of dims index ->
  inner_product (wrap64 acc) index (strides false dims) = Value (wrap64 (acc + N.of_nat (row_position dims index))).
Proof.
  intro H. revert acc. induction H as [|i d index dims L H IH]; intros acc; [cbn; now rewrite N.add_0_r|].
  rewrite row_strides_cons. cbn [inner_product row_position].
  replace (wrap64 (wrap64 acc + N.of_nat i * wrap64 (N.of_nat (volume dims)))) with (wrap64 (acc + N.of_nat i * N.of_nat (volume dims))).
  2:{ rewrite wrap_add_l. rewrite <- (wrap_add_r acc (N.of_nat i * wrap64 _)), wrap_mul_r, wrap_add_r. reflexivity. }
  rewrite IH. f_equal. f_equal. rewrite Nat2N.inj_add, Nat2N.inj_mul. lia.
Qed.
Lemma offset_wrapped lm dims index : index_of dims index ->
  index_to_offset_no_checks lm dims index = Value (wrap64 (N.of_nat (position lm dims index))).
Proof.
  intro H. unfold index_to_offset_no_checks, position. destruct lm.
  - unfold strides. rewrite one_wrap at 1. change 0%N with (wrap64 0). rewrite column_product by exact H. now rewrite N.add_0_l, N.mul_1_l.
  - change 0%N with (wrap64 0). rewrite row_product by exact H. reflexivity.
Qed.
Lemma column_bound dims index : index_of dims index -> column_position dims index < volume dims.
Proof. induction 1 as [|i d index dims L H IH]; cbn [column_position]; [cbn; lia|]. rewrite volume_cons. nia. Qed.
Lemma row_bound dims index : index_of dims index -> row_position dims index < volume dims.
Proof. induction 1 as [|i d index dims L H IH]; cbn [row_position]; [cbn; lia|]. rewrite volume_cons. nia. Qed.
Lemma position_bound lm dims index : index_of dims index -> position lm dims index < volume dims.
Proof. destruct lm; [apply column_bound|apply row_bound]. Qed.
Lemma offset_exact lm dims index : index_of dims index -> small dims ->
  index_to_offset_no_checks lm dims index = Value (N.of_nat (position lm dims index)).
Proof.
  intros H B. rewrite offset_wrapped by exact H. rewrite wrap_small; [reflexivity|].
  pose proof (position_bound lm dims index H). unfold small in B. lia.
Qed.

Lemma forall2_combine {A B} (f : A -> B -> bool) (P : A -> B -> Prop) (S : forall a b, f a b = true <-> P a b) x y :
  (length x = length y /\ forallb (fun p => f (fst p) (snd p)) (List.combine x y) = true) <-> Forall2 P x y.
Proof.
  revert y. induction x as [|a x IH]; intros [|b y]; cbn.
  - split; [constructor|auto].
  - split; [intros [H _]; discriminate|inversion 1].
  - split; [intros [H _]; discriminate|inversion 1].
  - rewrite andb_true_iff, S. split.
    + intros [H [F1 F2]]. constructor; [exact F1|]. apply IH. split; [now injection H|exact F2].
    + intro H. inversion H as [|? ? ? ? F1 F2]; subst. apply IH in F2 as [L F]. auto.
Qed.
Lemma validate_spec dims index : validate_index dims index = Value tt <-> index_of dims index.
Proof.
  unfold validate_index, index_of. rewrite <- (forall2_combine Nat.ltb lt Nat.ltb_lt).
  destruct (Nat.eqb_spec (length index) (length dims)); cbn [negb].
  - destruct (forallb _ _) eqn:F; split; auto; try discriminate. intros [_ H]. discriminate.
  - split; [discriminate|]. intros [H _]. contradiction.
Qed.
Lemma validate_inclusive_spec dims index : validate_index_inclusive dims index = Value tt <-> Forall2 le index dims.
Proof.
  unfold validate_index_inclusive. rewrite <- (forall2_combine Nat.leb le Nat.leb_le).
  destruct (Nat.eqb_spec (length index) (length dims)); cbn [negb].
  - destruct (forallb _ _) eqn:F; split; auto; try discriminate. intros [_ H]. discriminate.
  - split; [discriminate|]. intros [H _]. contradiction.
Qed.
Lemma validate_cases dims index : validate_index dims index = Value tt \/ validate_index dims index = Throws.
Proof. unfold validate_index. destruct (negb _); auto. destruct (forallb _ _); auto. Qed.
Lemma validate_inclusive_cases dims index : validate_index_inclusive dims index = Value tt \/ validate_index_inclusive dims index = Throws.
Proof. unfold validate_index_inclusive. destruct (negb _); auto. destruct (forallb _ _); auto. Qed.
Lemma offset_checked lm dims index : index_of dims index -> small dims -> index_to_offset lm dims index = Value (N.of_nat (position lm dims index)).
Proof. intros H B. unfold index_to_offset. rewrite (proj2 (validate_spec dims index) H). cbn [tbind]. now apply offset_exact. Qed.
Lemma offset_rejected lm dims index : ~ index_of dims index -> index_to_offset lm dims index = Throws.
Proof.
  intro H. unfold index_to_offset. destruct (validate_cases dims index) as [E|E]; rewrite E; [|reflexivity].
  exfalso. apply H. now apply validate_spec.
Qed.
Lemma validate_range_spec dims lo hi : validate_range dims lo hi = Value tt <-> corners dims lo hi.
Proof.
  unfold validate_range, corners. destruct (validate_cases dims lo) as [E|E]; rewrite E; cbn [tbind].
  - apply validate_spec in E. destruct (validate_inclusive_cases dims hi) as [F|F]; rewrite F; cbn [tbind].
    + apply validate_inclusive_spec in F. assert (L : length lo = length hi).
      { clear - E F. unfold index_of in E. revert hi F. induction E as [|? ? ? ? ? ? IH]; intros hi F; inversion F; subst; cbn; [reflexivity|]. f_equal. now apply IH. }
      pose proof (forall2_combine Nat.leb le Nat.leb_le lo hi) as Q. destruct (forallb _ (List.combine lo hi)).
      * split; [|reflexivity]. intros _. split; [exact E|]. split; [apply Q; auto|exact F].
      * split; [discriminate|]. intros (_ & G & _). apply Q in G as [_ G]. discriminate.
    + split; [discriminate|]. intros (_ & _ & G). apply validate_inclusive_spec in G. congruence.
  - split; [discriminate|]. intros (G & _). apply validate_spec in G. congruence.
Qed.
Lemma validate_range_cases dims lo hi : validate_range dims lo hi = Value tt \/ validate_range dims lo hi = Throws.
Proof.
  unfold validate_range. destruct (validate_cases dims lo) as [E|E]; rewrite E; cbn; auto.
  destruct (validate_inclusive_cases dims hi) as [F|F]; rewrite F; cbn; auto. destruct (forallb _ _); auto.
Qed.

(* ------------------------------------------------------------ offset to index *)
Lemma digits_dimension dims index : index_of dims index ->
  digits_by_dimension dims (N.of_nat (column_position dims index)) = Value index.
Proof.
  induction 1 as [|i d index dims L H IH]; [reflexivity|]. cbn [digits_by_dimension column_position].
  destruct (Nat.eqb_spec d 0); [lia|].
  rewrite Nat2N.inj_add, Nat2N.inj_mul. set (c := N.of_nat (column_position dims index)) in *.
  assert (D : (N.of_nat d <> 0)%N) by lia.
  replace (N.of_nat i + N.of_nat d * c)%N with (N.of_nat i + c * N.of_nat d)%N by lia.
  rewrite N.div_add, N.mod_add by exact D. rewrite N.div_small, N.mod_small by lia. rewrite N.add_0_l, IH. cbn. now rewrite Nat2N.id.
Qed.
Lemma row_digits dims index : index_of dims index -> small dims ->
  digits_by_stride (strides false dims) (N.of_nat (row_position dims index)) = Value index.
Proof.
  unfold small. induction 1 as [|i d index dims L H IH]; intro B; [reflexivity|].
  rewrite row_strides_cons. cbn [digits_by_stride row_position].
  pose proof (row_bound dims index H) as RB. rewrite volume_cons in B.
  assert (VB : (N.of_nat (volume dims) < 2 ^ 64)%N) by nia. rewrite wrap_small by exact VB.
  destruct (N.eqb_spec (N.of_nat (volume dims)) 0); [lia|].
  rewrite Nat2N.inj_add, Nat2N.inj_mul, N.add_comm. rewrite N.div_add, N.mod_add by assumption.
  rewrite N.div_small, N.mod_small by lia. rewrite N.add_0_l, IH by exact VB. cbn. now rewrite Nat2N.id.
Qed.
Lemma index_exact lm dims index : index_of dims index -> small dims ->
  offset_to_index_no_checks lm dims (N.of_nat (position lm dims index)) = Value index.
Proof. intros H B. unfold offset_to_index_no_checks, position. destruct lm; [now apply digits_dimension|now apply row_digits]. Qed.
Lemma index_of_nil dims index : index_of dims index -> dims <> [] -> index <> [].
Proof. intros H NE E. subst. inversion H. now subst. Qed.
Lemma count_small dims : dims <> [] -> small dims -> element_count dims = N.of_nat (volume dims).
Proof. intros NE B. rewrite element_count_eq by exact NE. now apply wrap_small. Qed.
Lemma index_checked lm dims index : dims <> [] -> index_of dims index -> small dims ->
  offset_to_index lm dims (N.of_nat (position lm dims index)) = Value index.
Proof.
  intros NE H B. unfold offset_to_index, validate_offset. rewrite count_small by assumption.
  pose proof (position_bound lm dims index H). destruct (N.leb_spec (N.of_nat (volume dims)) (N.of_nat (position lm dims index))); [lia|].
  cbn [tbind]. now apply index_exact.
Qed.
Lemma index_rejected lm dims o : small dims -> (N.of_nat (volume dims) <= o)%N -> offset_to_index lm dims o = Throws.
Proof.
  intros B H. unfold offset_to_index, validate_offset. destruct dims as [|d dims].
  - cbn in *. destruct (N.leb_spec 0 o); [reflexivity|lia].
  - rewrite count_small by (try discriminate; assumption). destruct (N.leb_spec (N.of_nat (volume (d :: dims))) o); [reflexivity|lia].
Qed.

(* ------------------------------------------------------------ every offset is a position *)
Lemma map_flat_map {A B C} (f : B -> C) (g : A -> list B) l : map f (flat_map g l) = flat_map (fun a => map f (g a)) l.
Proof. induction l as [|a l IH]; [reflexivity|]. cbn. now rewrite map_app, IH. Qed.
Lemma map_add_seq s n : map (fun x => s + x) (seq 0 n) = seq s n.
Proof.
  assert (G : forall a, map (fun x => s + x) (seq a n) = seq (s + a) n); [|rewrite G, Nat.add_0_r; reflexivity].
  induction n as [|n IH]; intro a; [reflexivity|]. cbn. rewrite IH. f_equal. f_equal. lia.
Qed.
Lemma rows_box dims : map (row_position dims) (box (mrange dims)) = seq 0 (volume dims).
Proof.
  induction dims as [|d dims IH]; [reflexivity|]. cbn [map box]. rewrite Nat.sub_0_r, map_flat_map, volume_cons.
  transitivity (flat_map (fun a => seq (a * volume dims) (volume dims)) (seq 0 d)).
  - apply flat_map_ext. intro a. rewrite map_map. cbn [row_position]. rewrite <- (map_add_seq (a * volume dims)), <- IH, map_map. reflexivity.
  - assert (G : forall n a, flat_map (fun a => seq (a * volume dims) (volume dims)) (seq a n) = seq (a * volume dims) (n * volume dims)).
    { induction n as [|n IHn]; intro a; [reflexivity|]. cbn [seq flat_map]. rewrite IHn. cbn [Nat.mul]. rewrite seq_app. f_equal. f_equal. lia. }
    rewrite G. reflexivity.
Qed.
Lemma volume_length dims : length (box (mrange dims)) = volume dims.
Proof. rewrite mrange_length. reflexivity. Qed.
Lemma box_index dims x : In x (box (mrange dims)) <-> index_of dims x.
Proof.
  destruct (box_spec (mrange dims)) as [_ M]. rewrite M. clear M. unfold in_box, index_of. revert x.
  induction dims as [|d dims IH]; intro x; cbn [map].
  - split; intro H; inversion H; constructor.
  - split; intro H; inversion H as [|? ? ? ? L R]; subst; constructor; cbn in *; try lia; now apply IH.
Qed.
Lemma column_rev dims index : length dims = length index -> column_position dims index = row_position (rev dims) (rev index).
Proof.
  assert (G : forall a x d i, length a = length x -> row_position (a ++ [d]) (x ++ [i]) = i + d * row_position a x).
  { induction a as [|b a IH]; intros [|j x] d i E; try discriminate E; cbn [app row_position].
    - cbn. lia.
    - rewrite IH by (now injection E). rewrite volume_app. cbn. lia. }
  revert index. induction dims as [|d dims IH]; intros [|i index] E; try discriminate E; [reflexivity|].
  cbn [rev column_position]. rewrite G by (rewrite !rev_length; now injection E). now rewrite IH by (now injection E).
Qed.
Lemma index_of_length dims x : index_of dims x -> length dims = length x.
Proof. induction 1; cbn; congruence. Qed.
Lemma index_of_rev dims x : index_of dims x -> index_of (rev dims) (rev x).
Proof.
  induction 1 as [|i d x dims L H IH]; [constructor|]. cbn. apply Forall2_app; [exact IH|repeat constructor; exact L].
Qed.
Lemma index_of_rev_iff dims x : index_of (rev dims) (rev x) <-> index_of dims x.
Proof. split; intro H; [|now apply index_of_rev]. rewrite <- (rev_involutive dims), <- (rev_involutive x). now apply index_of_rev. Qed.
(** All indices in order of position *)
Definition indices_in_order (lm : bool) (dims : list nat) : list (list nat) :=
  if lm then map (@rev nat) (box (mrange (rev dims))) else box (mrange dims).
Lemma in_order_in lm dims x : In x (indices_in_order lm dims) <-> index_of dims x.
Proof.
  unfold indices_in_order. destruct lm; [|apply box_index]. rewrite in_map_iff. split.
  - intros (y & <- & H). apply box_index in H. rewrite <- (rev_involutive y) in H. now apply index_of_rev_iff.
  - intro H. exists (rev x). split; [apply rev_involutive|]. apply box_index. now apply index_of_rev.
Qed.
Lemma in_order_positions lm dims : map (position lm dims) (indices_in_order lm dims) = seq 0 (volume dims).
Proof.
  unfold indices_in_order, position. destruct lm; [|apply rows_box].
  rewrite map_map, <- volume_rev, <- rows_box. apply map_ext_in. intros x H. apply box_index in H.
  rewrite column_rev by (apply index_of_length in H; rewrite rev_length in *; lia). now rewrite rev_involutive.
Qed.
Lemma in_order_length lm dims : length (indices_in_order lm dims) = volume dims.
Proof. rewrite <- (map_length (position lm dims)), in_order_positions. apply seq_length. Qed.
Lemma in_order_nth lm dims k x : nth_error (indices_in_order lm dims) k = Some x <-> index_of dims x /\ position lm dims x = k.
Proof.
  split.
  - intro H. split; [apply (in_order_in lm); now apply nth_error_In in H|].
    pose proof (map_nth_error (position lm dims) k (indices_in_order lm dims) H) as Q. rewrite in_order_positions in Q.
    assert (K : k < volume dims). { rewrite <- (in_order_length lm). apply nth_error_Some. congruence. }
    assert (nth_error (seq 0 (volume dims)) k = Some k); [|congruence].
    { apply nth_error_nth' with (d := 0) in K as _ || idtac. rewrite (nth_error_nth' _ 0) by (now rewrite seq_length). now rewrite seq_nth. }
  - intros [I <-]. apply (in_order_in lm) in I. apply In_nth_error in I as [k H].
    pose proof (map_nth_error (position lm dims) k (indices_in_order lm dims) H) as Q. rewrite in_order_positions in Q.
    assert (K : k < volume dims). { rewrite <- (in_order_length lm). apply nth_error_Some. congruence. }
    rewrite (nth_error_nth' _ 0) in Q by (now rewrite seq_length). rewrite seq_nth in Q by exact K. injection Q as <-. exact H.
Qed.
Lemma every_position lm dims k : k < volume dims -> exists x, index_of dims x /\ position lm dims x = k.
Proof.
  intro H. rewrite <- (in_order_length lm) in H. apply nth_error_Some in H. destruct (nth_error (indices_in_order lm dims) k) as [x|] eqn:E; [|congruence].
  exists x. now apply in_order_nth.
Qed.

(* ------------------------------------------------------------ iterators *)
Definition numbered {A} (g : nat) (l : list A) : list (A * nat) := List.combine l (seq g (length l)).
Lemma numbered_cons {A} g (a : A) l : numbered g (a :: l) = (a, g) :: numbered (S g) l.
Proof. reflexivity. Qed.
Lemma numbered_length {A} g (l : list A) : length (numbered g l) = length l.
Proof. unfold numbered. rewrite combine_length, seq_length. lia. Qed.
Lemma numbered_nth {A} g (l : list A) k p : nth_error (numbered g l) k = Some p <-> nth_error l k = Some (fst p) /\ snd p = g + k.
Proof.
  revert g k. induction l as [|a l IH]; intros g k.
  - destruct k; cbn; (split; [discriminate|intros [H _]; discriminate]).
  - rewrite numbered_cons. destruct k as [|k]; cbn [nth_error].
    + split; [intro H; injection H as <-; cbn; split; [reflexivity|lia]|]. intros [H E]. destruct p as [b n]. cbn in *. injection H as ->. f_equal. f_equal. lia.
    + rewrite IH. split; intros [H E]; (split; [exact H|lia]).
Qed.
Lemma numbered_fst {A} g (l : list A) : map fst (numbered g l) = l.
Proof. revert g. induction l as [|a l IH]; intro g; [reflexivity|]. rewrite numbered_cons. cbn [map fst]. now rewrite IH. Qed.

(* odometers with counters: any state type whose step moves an index list through [odo_inc] *)
Section Odometer.
  Context {S : Type}.
  Variables (done : S -> bool) (cur : S -> list nat * nat) (step : S -> res S) (mk : list nat -> nat -> bool -> S).
  Variables (range : list (nat * nat)) (out : list nat -> list nat).
  Hypothesis H_done : forall y g b, done (mk y g b) = b.
  Hypothesis H_cur : forall y g b, cur (mk y g b) = (out y, g).
  Hypothesis H_step : forall y g b, in_box range y -> step (mk y g b) =
    let (z, over) := odo_inc (fun a hi => Nat.leb hi a) range y in Ret (mk z (Datatypes.S g) over).
  Lemma odometer_remains y g : in_box range y ->
    remains done cur step (mk y g false) (numbered g (map out (box_from range y))).
  Proof.
    intro H. remember (length (box_from range y)) as n eqn:E. revert y g H E.
    induction n as [n IH] using lt_wf_ind. intros y g H E.
    pose proof (odo_inc_lt (fun a hi => Nat.leb hi a) range y leb_full H) as Q.
    pose proof (H_step y g false H) as St.
    destruct (odo_inc (fun a hi => Nat.leb hi a) range y) as [z over] eqn:O. destruct over; destruct Q as [Q1 Q2].
    - rewrite Q2. cbn [map]. rewrite numbered_cons. rewrite <- (H_cur y g false).
      apply (rem_step done cur step _ _ _ (H_done y g false) St). apply rem_done. apply H_done.
    - rewrite Q2 in *. cbn [map length] in *. rewrite numbered_cons. rewrite <- (H_cur y g false).
      apply (rem_step done cur step _ _ _ (H_done y g false) St). apply (IH (length (box_from range z))); [lia|exact Q1|reflexivity].
  Qed.
  Lemma odometer_run fuel : box_ok range -> length (box range) <= fuel ->
    run_iter fuel done cur step (mk (lows range) 0 false) = Ret (numbered 0 (map out (box range))).
  Proof.
    intros B F. apply run_remains.
    - rewrite <- (box_from_lows range B). apply odometer_remains. now apply lows_in_box.
    - now rewrite numbered_length, map_length.
  Qed.
End Odometer.

Lemma existsb_zero dims : existsb (Nat.eqb 0) dims = true -> volume dims = 0.
Proof.
  induction dims as [|d dims IH]; [discriminate|]. cbn [existsb]. rewrite volume_cons. destruct d; [reflexivity|]. cbn [Nat.eqb orb]. intro H. rewrite IH by exact H. lia.
Qed.
Lemma no_zero_ok dims : existsb (Nat.eqb 0) dims = false -> box_ok (mrange dims).
Proof.
  intro E. apply Forall_forall. intros r Hr. apply in_map_iff in Hr as (m & <- & Hm). cbn. destruct m; [|lia]. exfalso.
  assert (X : existsb (Nat.eqb 0) dims = true); [|congruence]. apply existsb_exists. exists 0. auto.
Qed.
Lemma mrange_rev (dims : list nat) : mrange (rev dims) = rev (mrange dims) :> list (nat * nat).
Proof. apply map_rev. Qed.
Lemma empty_order lm dims : volume dims = 0 -> indices_in_order lm dims = [].
Proof. intro H. apply length_zero_iff_nil. now rewrite in_order_length. Qed.
Lemma rev_rep {A} (a : A) n : rev (repeat a n) = repeat a n.
Proof.
  assert (G : forall n, repeat a n ++ [a] = a :: repeat a n). { induction n0 as [|k IH]; [reflexivity|]. cbn. now rewrite IH. }
  induction n as [|n IH]; [reflexivity|]. cbn. now rewrite IH, G.
Qed.
Lemma index_iterator_spec lm dims fuel : dims <> [] -> volume dims <= fuel ->
  index_iterator fuel lm dims = Ret (numbered 0 (indices_in_order lm dims)).
Proof.
  intros NE F. unfold index_iterator, mdi_start. destruct (Nat.eqb_spec (length dims) 0) as [Z|_].
  { apply length_zero_iff_nil in Z. contradiction. }
  cbn [orb]. destruct (existsb (Nat.eqb 0) dims) eqn:E.
  - rewrite empty_order by (now apply existsb_zero). destruct fuel; reflexivity.
  - pose proof (no_zero_ok dims E) as B. unfold indices_in_order. destruct lm.
    + assert (B' : box_ok (mrange (rev dims))). { rewrite mrange_rev. unfold box_ok in *. apply Forall_rev. exact B. }
      pose proof (odometer_run mdi_done (fun it => (mdi_indices it, mdi_global it)) mdi_step_rev
         (fun y g b => mk_mdi dims (rev y) g b) (mrange (rev dims)) (@rev nat)) as R.
      refine (eq_trans _ (R _ _ _ fuel B' _)).
      * f_equal. f_equal. rewrite lows_mrange, rev_length. symmetry. apply rev_rep.
      * reflexivity.
      * reflexivity.
      * intros y g b H. unfold mdi_step_rev. cbn [mdi_max mdi_indices mdi_global]. rewrite rev_involutive, mrange_rev. reflexivity.
      * rewrite volume_length, volume_rev. exact F.
    + pose proof (odometer_run mdi_done (fun it => (mdi_indices it, mdi_global it)) mdi_step
         (fun y g b => mk_mdi dims y g b) (mrange dims) (fun x => x)) as R. rewrite map_id in R.
      refine (eq_trans _ (R _ _ _ fuel B _)).
      * f_equal. f_equal. symmetry. apply lows_mrange.
      * reflexivity.
      * reflexivity.
      * intros y g b H. reflexivity.
      * rewrite volume_length. exact F.
Qed.

(* ranges *)
Lemma lows_combine lo hi : length lo = length hi -> lows (List.combine lo hi) = lo.
Proof. revert hi. induction lo as [|a lo IH]; intros [|b hi] E; try discriminate E; [reflexivity|]. cbn [List.combine]. rewrite lows_cons, IH by (now injection E). reflexivity. Qed.
Definition range_in_order (lm : bool) (lo hi : list nat) : list (list nat) :=
  if lm then map (@rev nat) (box (rev (List.combine lo hi))) else box (List.combine lo hi).
Lemma range_volume_rev (r : list (nat * nat)) : length (box (rev r)) = length (box r).
Proof.
  rewrite !box_length. induction r as [|p r IH]; [reflexivity|]. cbn [rev fold_right]. rewrite <- IH. clear IH.
  generalize (rev r). intro l. induction l as [|q l IH]; cbn [app fold_right]; [lia|]. rewrite IH. lia.
Qed.
Lemma range_length lm lo hi : length (range_in_order lm lo hi) = length (box (List.combine lo hi)).
Proof. unfold range_in_order. destruct lm; [|reflexivity]. rewrite map_length. apply range_volume_rev. Qed.
Lemma mdoi_run_spec lm lo hi fuel : lo <> [] -> Forall2 le lo hi -> length (box (List.combine lo hi)) <= fuel ->
  mdoi_run fuel lm lo hi = Ret (numbered 0 (range_in_order lm lo hi)).
Proof.
  intros NE LE F. unfold mdoi_run, mdoi_start.
  assert (L : length lo = length hi) by (clear - LE; induction LE; cbn; congruence).
  destruct (Nat.eqb_spec (length lo) 0) as [Z|_]. { apply length_zero_iff_nil in Z. contradiction. }
  cbn [orb]. destruct (existsb _ _) eqn:E.
  - assert (B : box (List.combine lo hi) = []).
    { apply box_nil_iff. apply existsb_exists in E as (p & Hp & Q). apply Nat.eqb_eq in Q. apply Exists_exists. exists p. split; [exact Hp|lia]. }
    assert (R : range_in_order lm lo hi = []). { apply length_zero_iff_nil. rewrite range_length, B. reflexivity. }
    rewrite R. destruct fuel; reflexivity.
  - assert (B : box_ok (List.combine lo hi)).
    { clear - LE E. induction LE as [|a b lo hi H LE IH]; [constructor|]. cbn [List.combine existsb fst snd] in E. apply orb_false_iff in E as [E1 E2].
      apply Nat.eqb_neq in E1. constructor; [cbn; lia|now apply IH]. }
    unfold range_in_order. destruct lm.
    + assert (B' : box_ok (rev (List.combine lo hi))). { unfold box_ok in *. apply Forall_rev. exact B. }
      pose proof (odometer_run mo_done (fun it => (mo_indices it, mo_global it)) (mdoi_step true)
         (fun y g b => mk_mdoi lo hi (rev y) g b) (rev (List.combine lo hi)) (@rev nat)) as R.
      refine (eq_trans _ (R _ _ _ fuel B' _)).
      * f_equal. f_equal. unfold lows. rewrite map_rev, rev_involutive. symmetry. now apply lows_combine.
      * reflexivity.
      * reflexivity.
      * intros y g b H. unfold mdoi_step. cbn [mo_lo mo_hi mo_indices mo_global]. rewrite rev_involutive. destruct (odo_inc _ _ y). reflexivity.
      * rewrite range_volume_rev. exact F.
    + pose proof (odometer_run mo_done (fun it => (mo_indices it, mo_global it)) (mdoi_step false)
         (fun y g b => mk_mdoi lo hi y g b) (List.combine lo hi) (fun x => x)) as R. rewrite map_id in R.
      refine (eq_trans _ (R _ _ _ fuel B F)).
      * f_equal. f_equal. symmetry. now apply lows_combine.
      * reflexivity.
      * reflexivity.
      * intros y g b H. reflexivity.
Qed.
Lemma in_box_rev r x : in_box r x -> in_box (rev r) (rev x).
Proof. induction 1 as [|p a r x L H IH]; [constructor|]. cbn. apply Forall2_app; [exact IH|repeat constructor; lia]. Qed.
Lemma range_in lm lo hi x : In x (range_in_order lm lo hi) <-> between lo hi x.
Proof.
  unfold range_in_order, between. destruct lm; [|apply (proj2 (box_spec _))]. rewrite in_map_iff. split.
  - intros (y & <- & H). apply (proj2 (box_spec _)) in H. apply in_box_rev in H. now rewrite rev_involutive in H.
  - intro H. exists (rev x). split; [apply rev_involutive|]. apply (proj2 (box_spec _)). now apply in_box_rev.
Qed.
(* in order of position in any tensor that contains the range *)
Lemma lex_row dims x y : index_of dims x -> index_of dims y -> lex_lt x y -> row_position dims x < row_position dims y.
Proof.
  intros X Y L. revert dims X Y. induction L as [a b x y H|a x y L IH]; intros dims X Y;
    inversion X as [|? d ? dims' X1 X2]; subst; inversion Y as [|? ? ? ? Y1 Y2]; subst; cbn [row_position].
  - pose proof (row_bound _ _ X2). nia.
  - specialize (IH _ X2 Y2). lia.
Qed.
