From Coq Require Import List NArith Arith Bool Lia.
From Verif Require Import BitsetModel BitsetSpec.
Import ListNotations.

Section BitsetProofs.
  Variable W : nat.
  Hypothesis W0 : 0 < W.

  Definition tb (x : N) (r : nat) : bool := N.testbit x (N.of_nat r).
  Definition bit (l : list N) (i : nat) : bool := tb (nth (i / W) l 0%N) (i mod W).
  Definition small (x : N) : Prop := forall r, W <= r -> tb x r = false.
  Definition holds (b : bitset) (n : nat) (h : nat -> bool) : Prop :=
    b_size b = n /\ length (b_pages b) = pages_required W n /\ Forall small (b_pages b) /\
    (forall i, bit (b_pages b) i = h i) /\ (forall i, n <= i -> h i = false).

  Lemma tb_ext : forall x y, (forall r, tb x r = tb y r) -> x = y.
  Proof. intros x y H. apply N.bits_inj. intros k. specialize (H (N.to_nat k)). unfold tb in H. rewrite N2Nat.id in H. exact H. Qed.
  Lemma tb_zero : forall r, tb 0 r = false.
  Proof. intros; apply N.bits_0. Qed.
  Lemma tb_ones : forall r, tb (all_ones W) r = (r <? W).
  Proof.
    intros r. unfold tb, all_ones. destruct (Nat.ltb_spec r W).
    - apply N.ones_spec_low. lia.
    - apply N.ones_spec_high. lia.
  Qed.
  Lemma tb_one : forall s r, tb (N.shiftl 1 (N.of_nat s)) r = Nat.eqb r s.
  Proof.
    intros s r. unfold tb. rewrite N.shiftl_1_l. rewrite N.pow2_bits_eqb.
    destruct (Nat.eqb_spec r s) as [->|n]; [apply N.eqb_refl|]. apply N.eqb_neq. lia.
  Qed.
  Lemma tb_page : forall x r, tb (page W x) r = tb x r && (r <? W).
  Proof. intros. unfold page. rewrite <- tb_ones. apply N.land_spec. Qed.
  Lemma tb_mask : forall n r, tb (final_mask W n) r = if Nat.eqb (n mod W) 0 then r <? W else r <? n mod W.
  Proof.
    intros n r. unfold final_mask. destruct (Nat.eqb_spec (n mod W) 0); [apply tb_ones|].
    unfold tb. rewrite N.shiftl_1_l. replace (2 ^ N.of_nat (n mod W) - 1)%N with (N.ones (N.of_nat (n mod W))) by (rewrite N.ones_equiv; lia).
    destruct (Nat.ltb_spec r (n mod W)); [apply N.ones_spec_low | apply N.ones_spec_high]; lia.
  Qed.
  Lemma tb_shiftr : forall x s r, tb (N.shiftr x (N.of_nat s)) r = tb x (r + s).
  Proof. intros. unfold tb. rewrite N.shiftr_spec by lia. f_equal. lia. Qed.
  Lemma tb_shiftl : forall x s r, tb (N.shiftl x (N.of_nat s)) r = (s <=? r) && tb x (r - s).
  Proof.
    intros. unfold tb. destruct (Nat.leb_spec s r).
    - rewrite N.shiftl_spec_high by lia. cbn. f_equal. lia.
    - rewrite N.shiftl_spec_low by lia. reflexivity.
  Qed.
  Lemma tb_land : forall x y r, tb (N.land x y) r = tb x r && tb y r.
  Proof. intros; apply N.land_spec. Qed.
  Lemma tb_lor : forall x y r, tb (N.lor x y) r = tb x r || tb y r.
  Proof. intros; apply N.lor_spec. Qed.
  Lemma tb_ldiff : forall x y r, tb (N.ldiff x y) r = tb x r && negb (tb y r).
  Proof. intros; apply N.ldiff_spec. Qed.
  Lemma tb_not : forall x r, tb (page_not W x) r = xorb (tb x r) (r <? W).
  Proof. intros. unfold page_not. rewrite <- tb_ones. apply N.lxor_spec. Qed.

  Lemma small_zero : small 0.
  Proof. intros r _; apply tb_zero. Qed.
  Lemma small_nth : forall l p, Forall small l -> small (nth p l 0%N).
  Proof.
    intros l p F. destruct (Nat.lt_ge_cases p (length l)).
    - rewrite Forall_forall in F. apply F, nth_In; auto.
    - rewrite nth_overflow by auto. apply small_zero.
  Qed.

  Lemma dm : forall q r, r < W -> (q * W + r) / W = q /\ (q * W + r) mod W = r.
  Proof.
    intros q r H. split.
    - rewrite Nat.div_add_l by lia. rewrite Nat.div_small by auto. lia.
    - rewrite Nat.add_comm, Nat.mod_add by lia. apply Nat.mod_small; auto.
  Qed.
  Lemma bit_at : forall l q r, r < W -> bit l (q * W + r) = tb (nth q l 0%N) r.
  Proof. intros l q r H. unfold bit. destruct (dm q r H) as [-> ->]. reflexivity. Qed.
  Lemma split_i : forall i, exists q r, r < W /\ i = q * W + r /\ i / W = q /\ i mod W = r.
  Proof.
    intros i. exists (i / W), (i mod W).
    assert (i mod W < W) by (apply Nat.mod_upper_bound; lia). pose proof (Nat.div_mod i W ltac:(lia)). repeat split; auto; lia.
  Qed.
  (** the number of pages, and what is in the last one *)
  Lemma pages_spec : forall n, exists q r, n = q * W + r /\ r < W /\ n mod W = r /\ n / W = q /\ pages_required W n = if Nat.eqb r 0 then q else S q.
  Proof.
    intros n. destruct (split_i n) as (q & r & A & B & C & D). exists q, r. repeat split; auto.
    unfold pages_required. rewrite C, D. destruct (Nat.eqb r 0); lia.
  Qed.
  Lemma pages_bound : forall n, n <= pages_required W n * W.
  Proof. intros n. destruct (pages_spec n) as (q & r & A & B & C & D & ->). destruct (Nat.eqb_spec r 0); nia. Qed.
  Lemma in_pages : forall n i, i < n -> i / W < pages_required W n.
  Proof.
    intros n i H. pose proof (pages_bound n). destruct (split_i i) as (q & r & A & B & C & D). rewrite C. nia.
  Qed.
  Lemma page_in : forall n p, p < pages_required W n -> p * W < n.
  Proof. intros n p. destruct (pages_spec n) as (q & r & A & B & C & D & ->). destruct (Nat.eqb_spec r 0); nia. Qed.

  Lemma pages_ext : forall l l', length l = length l' -> Forall small l -> Forall small l' -> (forall i, bit l i = bit l' i) -> l = l'.
  Proof.
    intros l l' E F F' H. apply (nth_ext _ _ 0%N 0%N); auto. intros p _. apply tb_ext. intros r.
    destruct (Nat.lt_ge_cases r W).
    - rewrite <- !bit_at by auto. apply H.
    - rewrite (small_nth l p F r), (small_nth l' p F' r); auto.
  Qed.

  (** building *)
  Lemma nth_zeros : forall k p, nth p (repeat 0%N k) 0%N = 0%N.
  Proof. induction k; intros [|p]; cbn; auto. Qed.
  Lemma make_holds : forall n, holds (bs_make W n) n (fun _ => false).
  Proof.
    intros n. repeat split; auto.
    - apply repeat_length.
    - apply Forall_forall. intros x I. apply repeat_spec in I. subst. apply small_zero.
    - intros i. unfold bit. cbn. rewrite nth_zeros. apply tb_zero.
  Qed.
  Lemma small_ones : small (all_ones W).
  Proof. intros r H. rewrite tb_ones. apply Nat.ltb_ge; auto. Qed.
  Lemma small_mask : forall n, small (final_mask W n).
  Proof.
    intros n r H. rewrite tb_mask. destruct (Nat.eqb (n mod W) 0); apply Nat.ltb_ge; auto.
    pose proof (Nat.mod_upper_bound n W). lia.
  Qed.
  Lemma small_land : forall x y, small x -> small (N.land x y).
  Proof. intros x y H r L. rewrite tb_land, H; auto. Qed.
  Lemma small_land_r : forall x y, small y -> small (N.land x y).
  Proof. intros x y H r L. rewrite tb_land, H by auto. apply andb_false_r. Qed.
  Lemma small_lor : forall x y, small x -> small y -> small (N.lor x y).
  Proof. intros x y H H' r L. rewrite tb_lor, H, H'; auto. Qed.
  Lemma small_ldiff : forall x y, small x -> small (N.ldiff x y).
  Proof. intros x y H r L. rewrite tb_ldiff, H; auto. Qed.
  Lemma small_page : forall x, small (page W x).
  Proof. intros x. apply small_land_r, small_ones. Qed.
  Lemma small_not : forall x, small x -> small (page_not W x).
  Proof. intros x H r L. rewrite tb_not, H by auto. rewrite xorb_false_l. apply Nat.ltb_ge; auto. Qed.
  Lemma small_shiftr : forall x s, small x -> small (N.shiftr x (N.of_nat s)).
  Proof. intros x s H r L. rewrite tb_shiftr. apply H. lia. Qed.

  (** the last page masked: exactly the numbers below the size *)
  Lemma mask_cut : forall n k r, pages_required W n = S k -> r < W -> tb (final_mask W n) r = (k * W + r <? n).
  Proof.
    intros n k r E H. destruct (pages_spec n) as (q & s & A & B & C & D & F). rewrite tb_mask, C. rewrite E in F.
    destruct (Nat.eqb_spec s 0).
    - replace (r <? W) with true by (symmetry; apply Nat.ltb_lt; auto). symmetry. apply Nat.ltb_lt. nia.
    - assert (k = q) by lia. subst k. destruct (Nat.ltb_spec r s), (Nat.ltb_spec (q * W + r) n); auto; lia.
  Qed.
  Lemma inner_page : forall n k p r, pages_required W n = S k -> p < k -> r < W -> p * W + r < n.
  Proof. intros n k p r E H R. assert (k * W < n) by (apply page_in; lia). nia. Qed.

  Lemma make_all_holds : forall n, 0 < n -> exists b, bs_make_all W n = Some b /\ holds b n (fun k => k <? n).
  Proof.
    intros n N0. unfold bs_make_all. destruct (pages_required W n) as [|k] eqn:E.
    - exfalso. pose proof (in_pages n 0 N0). lia.
    - eexists; split; [reflexivity|]. repeat split; cbn [b_size b_pages]; auto.
      + rewrite app_length, repeat_length, E. cbn. lia.
      + apply Forall_app. split.
        * apply Forall_forall. intros x I. apply repeat_spec in I. subst. apply small_ones.
        * constructor; [apply small_mask|constructor].
      + intros i. destruct (split_i i) as (q & r & A & B & C & D). unfold bit. rewrite C, D.
        destruct (Nat.lt_trichotomy q k) as [L|[->|G]].
        * rewrite app_nth1 by (rewrite repeat_length; auto).
          assert (X : nth q (repeat (all_ones W) k) 0%N = all_ones W).
          { rewrite nth_indep with (d' := all_ones W) by (rewrite repeat_length; auto).
            apply (repeat_spec k). apply nth_In. rewrite repeat_length. auto. }
          rewrite X, tb_ones. pose proof (inner_page n k q r E L A).
          replace (r <? W) with true by (symmetry; apply Nat.ltb_lt; auto). symmetry. apply Nat.ltb_lt. lia.
        * rewrite app_nth2 by (rewrite repeat_length; auto). rewrite repeat_length, Nat.sub_diag. cbn [nth].
          rewrite (mask_cut n k r E A). rewrite B. reflexivity.
        * rewrite nth_overflow by (rewrite app_length, repeat_length; cbn; lia). rewrite tb_zero. symmetry. apply Nat.ltb_ge.
          pose proof (pages_bound n). nia.
      + intros i H. apply Nat.ltb_ge; auto.
  Qed.
  (** one page changed *)
  Lemma page_map_length : forall p f l, length (page_map p f l) = length l.
  Proof. induction p; destruct l; cbn; auto. Qed.
  Lemma page_map_nth : forall p f l q, p < length l -> nth q (page_map p f l) 0%N = if Nat.eqb q p then f (nth p l 0%N) else nth q l 0%N.
  Proof. induction p; intros f [|x l] [|q] H; cbn in *; auto; try lia. apply IHp. lia. Qed.
  Lemma page_map_small : forall p f l, (forall x, small x -> small (f x)) -> Forall small l -> Forall small (page_map p f l).
  Proof.
    induction p; intros f [|x l] F H; cbn; auto; inversion H; subst; constructor; auto.
  Qed.
  Lemma at_bit : forall i, exists q r, i / W = q /\ i mod W = r /\ r < W /\ i = q * W + r.
  Proof. intros i. destruct (split_i i) as (q & r & A & B & C & D). exists q, r. auto. Qed.
  Lemma same_index : forall i j, Nat.eqb (j / W) (i / W) && Nat.eqb (j mod W) (i mod W) = Nat.eqb j i.
  Proof.
    intros i j. destruct (at_bit i) as (q & r & -> & -> & A & B), (at_bit j) as (q' & r' & -> & -> & A' & B').
    destruct (Nat.eqb_spec j i).
    - subst j. assert (q' = q) by nia. subst. assert (r' = r) by lia. subst. rewrite !Nat.eqb_refl. reflexivity.
    - destruct (Nat.eqb_spec q' q), (Nat.eqb_spec r' r); auto. subst. lia.
  Qed.
  Lemma set_holds : forall b n h i, holds b n h -> i < n -> holds (bs_set W b i) n (fun k => Nat.eqb k i || h k).
  Proof.
    intros b n h i (A & B & C & D & E) I. assert (I' : i / W < length (b_pages b)) by (rewrite B; apply in_pages; auto).
    unfold bs_set. split; [|split; [|split; [|split]]]; cbn [b_size b_pages]; auto.
    - rewrite page_map_length. auto.
    - apply page_map_small; auto. intros x X. apply small_lor; auto. apply small_page.
    - intros j. unfold bit. rewrite page_map_nth by auto. rewrite <- (same_index i j). rewrite <- D. unfold bit.
      destruct (Nat.eqb_spec (j / W) (i / W)) as [->|]; cbn [andb orb]; auto.
      rewrite tb_lor, tb_page, tb_one.
      assert (j mod W < W) by (apply Nat.mod_upper_bound; lia). replace (j mod W <? W) with true by (symmetry; apply Nat.ltb_lt; auto).
      rewrite andb_true_r. apply orb_comm.
    - intros j L. rewrite E by auto. rewrite orb_false_r. apply Nat.eqb_neq. lia.
  Qed.
  Lemma unset_holds : forall b n h i, holds b n h -> i < n -> holds (bs_unset W b i) n (fun k => negb (Nat.eqb k i) && h k).
  Proof.
    intros b n h i (A & B & C & D & E) I. assert (I' : i / W < length (b_pages b)) by (rewrite B; apply in_pages; auto).
    unfold bs_unset. split; [|split; [|split; [|split]]]; cbn [b_size b_pages]; auto.
    - rewrite page_map_length. auto.
    - apply page_map_small; auto. intros x X. apply small_ldiff; auto.
    - intros j. unfold bit. rewrite page_map_nth by auto. rewrite <- (same_index i j). rewrite <- D. unfold bit.
      destruct (Nat.eqb_spec (j / W) (i / W)) as [->|]; cbn [andb orb negb]; auto.
      rewrite tb_ldiff, tb_page, tb_one.
      assert (j mod W < W) by (apply Nat.mod_upper_bound; lia). replace (j mod W <? W) with true by (symmetry; apply Nat.ltb_lt; auto).
      rewrite andb_true_r. apply andb_comm.
    - intros j L. rewrite E by auto. apply andb_false_r.
  Qed.
  Lemma clear_holds : forall b n h, holds b n h -> holds (bs_clear b) n (fun _ => false).
  Proof.
    intros b n h (A & B & C & D & E). split; [|split; [|split; [|split]]]; cbn [bs_clear b_size b_pages]; auto.
    - rewrite map_length. auto.
    - apply Forall_forall. intros x I. apply in_map_iff in I. destruct I as (y & <- & _). apply small_zero.
    - intros i. unfold bit. rewrite <- (tb_zero (i mod W)). f_equal. generalize (i / W). generalize (b_pages b).
      induction l; intros [|p]; cbn; auto.
  Qed.
  Lemma test_holds : forall b n h i, holds b n h -> bs_test W b i = h i.
  Proof.
    intros b n h i (A & B & C & D & E). rewrite <- D. unfold bs_test, bit. set (x := nth (i / W) (b_pages b) 0%N).
    assert (R : i mod W < W) by (apply Nat.mod_upper_bound; lia). revert R. generalize (i mod W). intros r R.
    assert (T : forall k, tb (N.land x (page W (N.shiftl 1 (N.of_nat r)))) k = Nat.eqb k r && tb x r).
    { intros k. rewrite tb_land, tb_page, tb_one. destruct (Nat.eqb_spec k r) as [->|]; cbn [andb].
      - replace (r <? W) with true by (symmetry; apply Nat.ltb_lt; auto). apply andb_true_r.
      - apply andb_false_r. }
    destruct (tb x r) eqn:F.
    - destruct (N.eqb_spec (N.land x (page W (N.shiftl 1 (N.of_nat r)))) 0) as [Z|]; auto.
      specialize (T r). rewrite Z, tb_zero, Nat.eqb_refl in T. discriminate.
    - replace (N.land x (page W (N.shiftl 1 (N.of_nat r)))) with 0%N; auto. apply tb_ext. intros k. rewrite T, tb_zero. symmetry. apply andb_false_r.
  Qed.
  (** equality and emptiness *)
  Lemma pages_eqb_spec : forall l l', length l = length l' -> (pages_eqb l l' = true <-> l = l').
  Proof.
    induction l as [|x l IH]; intros [|y l'] E; cbn in *; try lia; try tauto.
    rewrite andb_true_iff, N.eqb_eq, IH by lia. split; [intros [-> ->]; auto | injection 1; auto].
  Qed.
  Lemma holds_unique : forall b b' n h, holds b n h -> holds b' n h -> b = b'.
  Proof.
    intros [s l] [s' l'] n h (A & B & C & D & E) (A' & B' & C' & D' & E'). cbn in *. subst. f_equal. apply pages_ext; auto; try congruence.
  Qed.
  Lemma holds_ext : forall b n h h', holds b n h -> (forall i, h i = h' i) -> holds b n h'.
  Proof.
    intros b n h h' (A & B & C & D & E) H. repeat split; auto; intros; rewrite <- H; auto.
  Qed.
  Lemma eqb_holds : forall b b' n h h', holds b n h -> holds b' n h' -> (bs_eqb b b' = true <-> forall i, h i = h' i).
  Proof.
    intros b b' n h h' H H'. destruct H as (A & B & C & D & E) eqn:X; clear X. destruct H' as (A' & B' & C' & D' & E').
    unfold bs_eqb. rewrite pages_eqb_spec by congruence. split.
    - intros Q i. rewrite <- D, <- D', Q. reflexivity.
    - intros Q. apply pages_ext; auto; try congruence.
  Qed.
  Lemma zero_pages : forall l, Forall small l -> (forallb (fun x => N.eqb x 0) l = true <-> forall i, bit l i = false).
  Proof.
    intros l F. rewrite forallb_forall. split.
    - intros H i. unfold bit. destruct (Nat.lt_ge_cases (i / W) (length l)).
      + assert (Z : nth (i / W) l 0%N = 0%N) by (apply N.eqb_eq, H, nth_In; auto). rewrite Z. apply tb_zero.
      + rewrite nth_overflow by auto. apply tb_zero.
    - intros H x I. apply N.eqb_eq. apply (In_nth _ _ 0%N) in I. destruct I as (p & L & <-). apply tb_ext. intros r. rewrite tb_zero.
      destruct (Nat.lt_ge_cases r W).
      + rewrite <- bit_at by auto. apply H.
      + apply small_nth; auto.
  Qed.
  Lemma empty_holds : forall b n h, holds b n h -> (bs_empty b = true <-> forall i, h i = false).
  Proof.
    intros b n h (A & B & C & D & E). unfold bs_empty. rewrite zero_pages by auto. split; intros H i; specialize (H i); rewrite D in *; auto; rewrite <- D; auto.
  Qed.
  (** counting *)
  Lemma filter_ext_seq : forall (f g : nat -> bool) k a c, (forall r, r < k -> f (a + r) = g (c + r)) ->
    length (filter f (seq a k)) = length (filter g (seq c k)).
  Proof.
    intros f g k. induction k; intros a c H; cbn; auto.
    assert (X : f a = g c). { specialize (H 0 ltac:(lia)). rewrite !Nat.add_0_r in H. exact H. }
    assert (Y : length (filter f (seq (S a) k)) = length (filter g (seq (S c) k))).
    { apply IHk. intros r R. specialize (H (S r) ltac:(lia)). rewrite !Nat.add_succ_r in H. rewrite !Nat.add_succ_l. exact H. }
    rewrite X. destruct (g c); cbn; congruence.
  Qed.
  Definition pcount (l : list N) (s : nat) : nat := fold_left (fun s x => s + popcount W x) l s.
  Lemma count_pages : forall l s a, pcount l s = s + length (filter (fun i => bit l (i - a)) (seq a (length l * W))).
  Proof.
    unfold pcount. induction l as [|x l IH]; intros s a; cbn [fold_left length].
    - cbn. lia.
    - rewrite (IH _ (a + W)). cbn [Nat.mul]. rewrite seq_app, filter_app, app_length.
      assert (E1 : popcount W x = length (filter (fun i => bit (x :: l) (i - a)) (seq a W))).
      { unfold popcount. apply filter_ext_seq. intros r R. replace (a + r - a) with (0 * W + r) by lia. rewrite bit_at by auto. reflexivity. }
      assert (E2 : length (filter (fun i => bit l (i - (a + W))) (seq (a + W) (length l * W))) = length (filter (fun i => bit (x :: l) (i - a)) (seq (a + W) (length l * W)))).
      { apply filter_ext_seq. intros r R. destruct (split_i r) as (q & s' & A & -> & C & D).
        replace (a + W + (q * W + s') - (a + W)) with (q * W + s') by lia. replace (a + W + (q * W + s') - a) with (S q * W + s') by lia.
        rewrite !bit_at by auto. reflexivity. }
      lia.
  Qed.
  Lemma filter_none : forall (f : nat -> bool) l, (forall i, In i l -> f i = false) -> filter f l = [].
  Proof. induction l; intros H; cbn; auto. rewrite (H a) by (left; auto). apply IHl. intros; apply H; right; auto. Qed.
  Lemma members_cut : forall n m h, n <= m -> (forall i, n <= i -> h i = false) -> filter h (seq 0 m) = members n h.
  Proof.
    intros n m h L H. unfold members. replace m with (n + (m - n)) by lia. rewrite seq_app, filter_app. rewrite (filter_none h (seq (0 + n) _)).
    - apply app_nil_r.
    - intros i I. apply in_seq in I. apply H. lia.
  Qed.
  Lemma count_holds : forall b n h, holds b n h -> bs_count W b = length (members n h).
  Proof.
    intros b n h (A & B & C & D & E). unfold bs_count. change (pcount (b_pages b) 0 = length (members n h)). rewrite (count_pages _ 0 0). cbn [Nat.add].
    rewrite <- (members_cut n (length (b_pages b) * W) h); auto.
    - apply filter_ext_seq. intros r R. rewrite D. f_equal. lia.
    - rewrite B. apply pages_bound.
  Qed.
  (** the least member *)
  Lemma find_seq : forall (f : nat -> bool) k a, match find f (seq a k) with
    | Some i => a <= i < a + k /\ f i = true /\ forall j, a <= j < i -> f j = false
    | None => forall j, a <= j < a + k -> f j = false end.
  Proof.
    intros f k. induction k; intros a; cbn.
    - intros; lia.
    - destruct (f a) eqn:E.
      + repeat split; auto; try lia.
      + specialize (IHk (S a)). destruct (find f (seq (S a) k)).
        * destruct IHk as (A & B & C). repeat split; auto; try lia. intros j J. destruct (Nat.eq_dec j a); [subst; auto|apply C; lia].
        * intros j J. destruct (Nat.eq_dec j a); [subst; auto|apply IHk; lia].
  Qed.
  Lemma first_loop_spec : forall l a size, let f := first_loop W a l size in
    (exists i, f = a + i /\ bit l i = true /\ forall j, j < i -> bit l j = false) \/
    (f = size /\ forall j, j < length l * W -> bit l j = false).
  Proof.
    induction l as [|x l IH]; intros a size; cbn.
    - right. split; auto. intros; lia.
    - unfold countr_zero. pose proof (find_seq (fun i => N.testbit x (N.of_nat i)) W 0) as F.
      destruct (find (fun i => N.testbit x (N.of_nat i)) (seq 0 W)) as [i|].
      + destruct F as (R & T & M). replace (Nat.eqb i W) with false by (symmetry; apply Nat.eqb_neq; lia).
        left. exists i. split; auto. split.
        * replace i with (0 * W + i) by lia. rewrite bit_at by lia. exact T.
        * intros j J. replace j with (0 * W + j) by lia. rewrite bit_at by lia. apply M. lia.
      + rewrite Nat.eqb_refl. destruct (IH (a + W) size) as [(i & E & T & M)|[E M]].
        * left. exists (W + i). split; [lia|]. split.
          -- destruct (split_i i) as (q & r & A & B & C & D). replace (W + i) with (S q * W + r) by lia. rewrite B in T. rewrite bit_at in T |- * by auto. exact T.
          -- intros j J. destruct (split_i j) as (q & r & A & B & C & D). rewrite B, bit_at by auto. destruct q as [|q]; cbn [nth].
             ++ apply F. lia.
             ++ rewrite <- bit_at by auto. apply M. lia.
        * right. split; auto. intros j J. destruct (split_i j) as (q & r & A & B & C & D). rewrite B, bit_at by auto. destruct q as [|q]; cbn [nth].
          -- apply F. lia.
          -- rewrite <- bit_at by auto. apply M. lia.
  Qed.
  Lemma first_holds : forall b n h, holds b n h ->
    match find h (seq 0 n) with Some i => bs_first W b = i | None => bs_first W b = n end.
  Proof.
    intros b n h (A & B & C & D & E). unfold bs_first. rewrite A. pose proof (find_seq h n 0) as F. pose proof (first_loop_spec (b_pages b) 0 n) as G. cbn in G.
    destruct (find h (seq 0 n)) as [i|].
    - destruct F as (R & T & M). destruct G as [(j & -> & T' & M')|[-> M']].
      + rewrite D in T'. destruct (Nat.lt_trichotomy i j) as [L|[->|L]]; auto.
        * specialize (M' i L). rewrite D in M'. congruence.
        * rewrite M in T' by lia. discriminate.
      + specialize (M' i). rewrite D in M'. rewrite T in M'. discriminate M'. rewrite B. pose proof (pages_bound n). lia.
    - destruct G as [(j & -> & T' & M')|[-> M']]; auto. rewrite D in T'. destruct (Nat.lt_ge_cases j n).
      + rewrite F in T' by lia. discriminate.
      + rewrite E in T' by auto. discriminate.
  Qed.
  (** iteration *)
  Lemma members_step : forall n h i, i < n -> h i = true -> (forall j, j < i -> h j = false) ->
    members n h = i :: members n (fun k => negb (Nat.eqb k i) && h k).
  Proof.
    intros n h i L T M. unfold members. replace n with (i + S (n - S i)) by lia. rewrite seq_app, !filter_app. cbn [seq Nat.add].
    rewrite (filter_none h (seq 0 i)) by (intros j J; apply in_seq in J; apply M; lia).
    rewrite (filter_none _ (seq 0 i)) by (intros j J; apply in_seq in J; rewrite M by lia; apply andb_false_r).
    cbn [app filter]. rewrite T, Nat.eqb_refl. cbn [negb andb]. f_equal. apply filter_ext_in.
    intros j J. apply in_seq in J. replace (Nat.eqb j i) with false by (symmetry; apply Nat.eqb_neq; lia). reflexivity.
  Qed.
  Lemma iterate_holds : forall fuel b n h, holds b n h -> length (members n h) < fuel -> bs_iterate W fuel b = Some (members n h).
  Proof.
    induction fuel as [|fuel IH]; intros b n h H L; [lia|]. cbn [bs_iterate].
    pose proof (make_holds n) as Z. assert (S : b_size b = n) by apply H. rewrite S.
    pose proof (eqb_holds _ _ _ _ _ H Z) as Q. destruct (bs_eqb b (bs_make W n)).
    - destruct Q as [Q _]. specialize (Q eq_refl). f_equal. symmetry. apply filter_none. intros; apply Q.
    - pose proof (first_holds b n h H) as F. pose proof (find_seq h n 0) as G. destruct (find h (seq 0 n)) as [i|].
      + destruct G as (R & T & M). rewrite F. rewrite (members_step n h i) in L |- * by (auto; try lia; intros; apply M; lia).
        rewrite (IH _ n (fun k => negb (Nat.eqb k i) && h k)); auto.
        * apply unset_holds; auto. lia.
        * cbn in L. lia.
      + exfalso. assert (X : false = true); [|discriminate]. apply Q. intros i. destruct (Nat.lt_ge_cases i n); [apply G; lia|apply H; auto].
  Qed.
  Lemma members_le : forall n h, length (members n h) <= n.
  Proof.
    intros n h. unfold members. rewrite <- (seq_length n 0) at 2. generalize (seq 0 n). induction l; cbn; [lia|]. destruct (h a); cbn; lia.
  Qed.
  (** binary operations *)
  Lemma pages_with_length : forall f l l', length (pages_with f l l') = length l.
  Proof. intros f. induction l; intros [|y l']; cbn; auto. Qed.
  Lemma pages_with_nth : forall f l l' p, length l = length l' -> p < length l -> nth p (pages_with f l l') 0%N = f (nth p l 0%N) (nth p l' 0%N).
  Proof. intros f. induction l; intros [|y l'] [|p] E H; cbn in *; auto; try lia. apply IHl; lia. Qed.
  Lemma pages_with_small : forall f l l', (forall x y, small x -> small y -> small (f x y)) -> Forall small l -> Forall small l' -> Forall small (pages_with f l l').
  Proof. intros f. induction l; intros [|y l'] F H H'; cbn; auto; inversion H; inversion H'; subst; constructor; auto. Qed.
  Lemma with_holds : forall f g b b' n h h', (forall x y r, tb (f x y) r = g (tb x r) (tb y r)) -> (g false false = false) ->
    holds b n h -> holds b' n h' -> holds (mk_bs (b_size b) (pages_with f (b_pages b) (b_pages b'))) n (fun k => g (h k) (h' k)).
  Proof.
    intros f g b b' n h h' G G0 (A & B & C & D & E) (A' & B' & C' & D' & E'). split; [|split; [|split; [|split]]]; cbn [b_size b_pages]; auto.
    - rewrite pages_with_length. auto.
    - apply pages_with_small; auto. intros x y X Y r L. rewrite G, X, Y; auto.
    - intros i. rewrite <- D, <- D'. unfold bit. destruct (Nat.lt_ge_cases (i / W) (length (b_pages b))).
      + rewrite pages_with_nth by (auto; congruence). apply G.
      + rewrite !nth_overflow by (rewrite ?pages_with_length; auto; congruence). rewrite tb_zero. auto.
    - intros i L. rewrite E, E'; auto.
  Qed.
  Lemma and_holds : forall b b' n h h', holds b n h -> holds b' n h' -> holds (bs_and b b') n (fun k => h k && h' k).
  Proof. intros. apply (with_holds N.land andb); auto. apply tb_land. Qed.
  Lemma or_holds : forall b b' n h h', holds b n h -> holds b' n h' -> holds (bs_or b b') n (fun k => h k || h' k).
  Proof. intros. apply (with_holds N.lor orb); auto. apply tb_lor. Qed.
  (** complement *)
  Lemma invert_length : forall m l, length (invert_pages W m l) = length l.
  Proof. intros m. induction l as [|x [|y l] IH]; cbn [invert_pages length] in *; auto. Qed.
  Lemma invert_nth : forall m l p, p < length l -> nth p (invert_pages W m l) 0%N = if Nat.eqb (S p) (length l) then N.land (page_not W (nth p l 0%N)) m else page_not W (nth p l 0%N).
  Proof.
    intros m. induction l as [|x [|y l] IH]; intros p H; cbn [length] in H.
    - lia.
    - assert (p = 0) by lia. subst. reflexivity.
    - destruct p as [|p]; [reflexivity|]. cbn [invert_pages]. specialize (IH p ltac:(cbn; lia)). cbn [nth length Nat.eqb] in *. exact IH.
  Qed.
  Lemma invert_small : forall m l, Forall small l -> Forall small (invert_pages W m l).
  Proof.
    intros m l F. apply Forall_forall. intros x I. apply (In_nth _ _ 0%N) in I. destruct I as (p & L & <-). rewrite invert_length in L.
    rewrite invert_nth by auto. pose proof (small_not _ (small_nth l p F)). destruct (Nat.eqb (S p) (length l)); auto. apply small_land; auto.
  Qed.
  Lemma invert_holds : forall b n h, holds b n h -> holds (bs_invert W b) n (fun k => (k <? n) && negb (h k)).
  Proof.
    intros b n h (A & B & C & D & E). unfold bs_invert. split; [|split; [|split; [|split]]]; cbn [b_size b_pages]; auto.
    - rewrite invert_length. auto.
    - apply invert_small; auto.
    - intros i. rewrite <- D. unfold bit. destruct (split_i i) as (q & r & R & -> & X & Y). rewrite X, Y.
      destruct (Nat.lt_ge_cases q (length (b_pages b))) as [L|G].
      + rewrite invert_nth by auto. rewrite A. destruct (Nat.eqb_spec (S q) (length (b_pages b))) as [Q|Q].
        * rewrite tb_land, tb_not. rewrite (mask_cut n q r) by congruence. replace (r <? W) with true by (symmetry; apply Nat.ltb_lt; auto).
          rewrite xorb_true_r. apply andb_comm.
        * rewrite tb_not. replace (r <? W) with true by (symmetry; apply Nat.ltb_lt; auto). rewrite xorb_true_r.
          replace (q * W + r <? n) with true; auto. symmetry. apply Nat.ltb_lt. destruct (length (b_pages b)) as [|k]; [lia|].
          apply (inner_page n k); auto; lia.
      + rewrite nth_overflow by (rewrite invert_length; auto). rewrite tb_zero.
        replace (q * W + r <? n) with false; auto. symmetry. apply Nat.ltb_ge. pose proof (pages_bound n). nia.
    - intros i L. replace (i <? n) with false; auto. symmetry. apply Nat.ltb_ge; auto.
  Qed.
  Lemma not_invert : forall b n h, holds b n h -> 0 < n -> bs_not W b = Some (bs_invert W b).
  Proof.
    intros b n h (A & B & C & D & E) N0. unfold bs_not, bs_invert. pose proof (in_pages n 0 N0). destruct (b_pages b); auto. cbn in B. lia.
  Qed.
  (** subsets *)
  Lemma pg_small : forall b p n h, holds b n h -> small (pg b p).
  Proof. intros b p n h H. apply small_nth, H. Qed.
  Lemma pg_bit : forall b n h q r, holds b n h -> r < W -> tb (pg b q) r = h (q * W + r).
  Proof. intros b n h q r H R. destruct H as (_ & _ & _ & D & _). rewrite <- D. rewrite bit_at by auto. reflexivity. Qed.
  (** the [p]-th page of the result when it is read from two neighbouring pages *)
  Definition joined (b : bitset) (offset q : nat) : N := N.lor (N.shiftr (pg b q) (N.of_nat offset)) (page W (N.shiftl (pg b (q + 1)) (N.of_nat (W - offset)))).
  Lemma joined_bit : forall b n h offset q r, holds b n h -> offset < W -> 0 < offset -> r < W -> tb (joined b offset q) r = h (q * W + offset + r).
  Proof.
    intros b n h offset q r H O O1 R. unfold joined. rewrite tb_lor, tb_shiftr, tb_page, tb_shiftl.
    replace (r <? W) with true by (symmetry; apply Nat.ltb_lt; auto). rewrite andb_true_r. destruct (Nat.leb_spec (W - offset) r).
    - rewrite (pg_small b q n h H (r + offset)) by lia. cbn [orb andb]. rewrite (pg_bit b n h) by (auto; lia). f_equal. lia.
    - cbn [andb]. rewrite orb_false_r. rewrite (pg_bit b n h) by (auto; lia). f_equal. lia.
  Qed.
  Lemma joined_small : forall b n h offset q, holds b n h -> small (joined b offset q).
  Proof. intros. unfold joined. apply small_lor; [apply small_shiftr; eapply pg_small; eauto | apply small_page]. Qed.
  Lemma shifted_bit : forall b n h offset q r, holds b n h -> offset < W -> n <= (q + 1) * W -> r < W ->
    tb (N.shiftr (pg b q) (N.of_nat offset)) r = h (q * W + offset + r).
  Proof.
    intros b n h offset q r H O L R. rewrite tb_shiftr. destruct (Nat.lt_ge_cases (r + offset) W).
    - rewrite (pg_bit b n h) by auto. f_equal. lia.
    - rewrite (pg_small b q n h H) by auto. symmetry. apply H. nia.
  Qed.
  Lemma mask_last_app : forall m l x, mask_last m (l ++ [x]) = l ++ [N.land x m].
  Proof. intros m. induction l as [|y l IH]; intros x; cbn [app]; auto. rewrite <- IH. destruct (l ++ [x]) eqn:E; auto. destruct l; discriminate. Qed.
  (** a page list given by a function, its last page masked *)
  Lemma from_pages : forall len k f h last, pages_required W len = S k -> (forall p, p < k -> small (f p)) ->
    (forall p r, p < k -> r < W -> tb (f p) r = h (p * W + r)) -> (forall r, r < W -> k * W + r < len -> tb last r = h (k * W + r)) ->
    holds (mk_bs len (map f (seq 0 k) ++ [N.land last (final_mask W len)])) len (fun i => (i <? len) && h i).
  Proof.
    intros len k f h last P S F L. split; [|split; [|split; [|split]]]; cbn [b_size b_pages]; auto.
    - rewrite app_length, map_length, seq_length. cbn. lia.
    - apply Forall_app. split.
      + apply Forall_forall. intros x I. apply in_map_iff in I. destruct I as (p & <- & I). apply in_seq in I. apply S. lia.
      + constructor; auto. apply small_land_r, small_mask.
    - intros i. destruct (split_i i) as (q & r & R & -> & X & Y). rewrite bit_at by auto. destruct (Nat.lt_trichotomy q k) as [G|[->|G]].
      + rewrite app_nth1 by (rewrite map_length, seq_length; auto). rewrite (nth_indep _ 0%N (f 0)) by (rewrite map_length, seq_length; auto).
        rewrite map_nth, seq_nth by auto. cbn [Nat.add]. rewrite F by auto.
        replace (q * W + r <? len) with true; auto. symmetry. apply Nat.ltb_lt. eapply inner_page; eauto.
      + rewrite app_nth2 by (rewrite map_length, seq_length; auto). rewrite map_length, seq_length, Nat.sub_diag. cbn [nth].
        rewrite tb_land, (mask_cut len k r P R). destruct (Nat.ltb_spec (k * W + r) len); [|apply andb_false_r]. rewrite L by auto. apply andb_true_r.
      + rewrite nth_overflow by (rewrite app_length, map_length, seq_length; cbn; lia). rewrite tb_zero.
        replace (q * W + r <? len) with false; auto. symmetry. apply Nat.ltb_ge. pose proof (pages_bound len). nia.
    - intros i I. replace (i <? len) with false; auto. symmetry. apply Nat.ltb_ge; auto.
  Qed.
  Lemma subset_holds : forall b n h first len, holds b n h -> first + len <= n ->
    holds (bs_subset W b first len) len (fun k => (k <? len) && h (first + k)).
  Proof.
    intros b n h first len H L. unfold bs_subset. destruct (Nat.eqb_spec len 0) as [->|N0].
    { eapply holds_ext; [apply make_holds|]. intros i. reflexivity. }
    destruct (pages_required W len) as [|k] eqn:P; [pose proof (in_pages len 0 ltac:(lia)); lia|].
    destruct (split_i first) as (q & o & O & E & Q & M). rewrite Q, M.
    destruct (Nat.eqb_spec o 0) as [->|O0].
    - destruct (pages_spec len) as (ql & rl & A & B & C & D & F). rewrite P in F.
      assert (X : (first + len) / W = q + ql /\ (first + len) mod W = rl) by (replace (first + len) with ((q + ql) * W + rl) by nia; apply dm; auto).
      destruct X as [-> ->]. replace (q + ql - q) with ql by lia. destruct (Nat.eqb_spec rl 0) as [R0|R0].
      + assert (ql = S k) by lia. clear D; subst ql. rewrite seq_S, map_app. cbn [map Nat.add].
        replace (pg b (q + k)) with (N.land (pg b (q + k)) (final_mask W len)).
        * apply (from_pages len k (fun p => pg b (q + p)) (fun i => h (first + i)) (pg b (q + k))); auto.
          -- intros; eapply pg_small; eauto.
          -- intros p r _ R. rewrite (pg_bit b n h) by auto. f_equal. lia.
          -- intros r R _. rewrite (pg_bit b n h) by auto. f_equal. lia.
        * apply tb_ext. intros r. rewrite tb_land, tb_mask, C, R0. cbn [Nat.eqb]. destruct (Nat.ltb_spec r W); [apply andb_true_r|].
          rewrite (pg_small b _ n h H r) by auto. reflexivity.
      + assert (ql = k) by lia. clear D; subst ql.
        apply (from_pages len k (fun p => pg b (q + p)) (fun i => h (first + i)) (pg b (q + k))); auto.
        * intros; eapply pg_small; eauto.
        * intros p r _ R. rewrite (pg_bit b n h) by auto. f_equal. lia.
        * intros r R _. rewrite (pg_bit b n h) by auto. f_equal. lia.
    - change (fun p => N.lor (N.shiftr (pg b (q + p)) (N.of_nat o)) (page W (N.shiftl (pg b (q + p + 1)) (N.of_nat (W - o))))) with (fun p => joined b o (q + p)).
      destruct (Nat.ltb_spec (q + S k) (length (b_pages b))) as [G|G].
      + rewrite seq_S, map_app. cbn [map]. rewrite mask_last_app. cbn [Nat.add].
        apply (from_pages len k (fun p => joined b o (q + p)) (fun i => h (first + i)) (joined b o (q + k))); auto.
        * intros; eapply joined_small; eauto.
        * intros p r _ R. rewrite (joined_bit b n h) by (auto; lia). f_equal. lia.
        * intros r R _. rewrite (joined_bit b n h) by (auto; lia). f_equal. lia.
      + replace (S k - 1) with k by lia. replace (q + S k - 1) with (q + k) by lia.
        apply (from_pages len k (fun p => joined b o (q + p)) (fun i => h (first + i)) (N.shiftr (pg b (q + k)) (N.of_nat o))); auto.
        * intros; eapply joined_small; eauto.
        * intros p r _ R. rewrite (joined_bit b n h) by (auto; lia). f_equal. lia.
        * intros r R _. rewrite (shifted_bit b n h); auto; [f_equal; lia|].
          assert (B : length (b_pages b) = pages_required W n) by apply H. pose proof (pages_bound n). nia.
  Qed.
  Lemma small_subset_holds : forall b n h first len, holds b n h -> first + len <= n -> len <= W ->
    forall k, tb (bs_small_subset W b first len) k = (k <? len) && h (first + k).
  Proof.
    intros b n h first len H L LW k. unfold bs_small_subset. destruct (Nat.eqb_spec len 0) as [->|N0]; [apply tb_zero|].
    assert (M : forall x, (k < len -> tb x k = h (first + k)) -> tb (N.land x (final_mask W len)) k = (k <? len) && h (first + k)).
    { intros x X. rewrite tb_land, tb_mask. replace (if Nat.eqb (len mod W) 0 then k <? W else k <? len mod W) with (k <? len).
      - destruct (Nat.ltb_spec k len); [rewrite X by auto; apply andb_true_r | apply andb_false_r].
      - destruct (Nat.eq_dec len W) as [->|]; [rewrite Nat.mod_same by lia; reflexivity|]. rewrite Nat.mod_small by lia.
        destruct (Nat.eqb_spec len 0); [lia|reflexivity]. }
    destruct (split_i first) as (q & o & O & E & Q & R). rewrite Q, R. destruct (Nat.eqb_spec o 0) as [->|O0].
    - apply M. intros K. rewrite (pg_bit b n h) by (auto; lia). f_equal. lia.
    - destruct (Nat.leb_spec (o + len) W).
      + apply M. intros K. rewrite tb_shiftr, (pg_bit b n h) by (auto; lia). f_equal. lia.
      + apply M. intros K. change (tb (joined b o q) k = h (first + k)). rewrite (joined_bit b n h) by (auto; lia). f_equal. lia.
  Qed.
  (** every chain of operations *)
  Lemma eval_holds : forall e, e_ok e -> e_nonempty e -> exists b, bs_eval W e = Some b /\ holds b (e_size e) (e_has e).
  Proof.
    induction e; cbn [e_ok e_nonempty e_size e_has bs_eval]; intros O Z.
    - eexists; split; [reflexivity|]. eapply holds_ext; [apply make_holds|reflexivity].
    - apply make_all_holds; auto.
    - destruct O as [O I]. destruct (IHe O Z) as (b & -> & H). eexists; split; [reflexivity|]. eapply holds_ext; [apply set_holds; eauto|reflexivity].
    - destruct O as [O I]. destruct (IHe O Z) as (b & -> & H). eexists; split; [reflexivity|]. eapply holds_ext; [apply unset_holds; eauto|reflexivity].
    - destruct (IHe O Z) as (b & -> & H). eexists; split; [reflexivity|]. eapply holds_ext; [eapply clear_holds; eauto|reflexivity].
    - destruct O as (O & O' & I), Z as [Z Z']. destruct (IHe1 O Z) as (b & -> & H), (IHe2 O' Z') as (b' & -> & H'). eexists; split; [reflexivity|].
      rewrite <- I in H'. eapply holds_ext; [apply and_holds; eauto|reflexivity].
    - destruct O as (O & O' & I), Z as [Z Z']. destruct (IHe1 O Z) as (b & -> & H), (IHe2 O' Z') as (b' & -> & H'). eexists; split; [reflexivity|].
      rewrite <- I in H'. eapply holds_ext; [apply or_holds; eauto|reflexivity].
    - destruct (IHe O Z) as (b & -> & H). eexists; split; [reflexivity|]. eapply holds_ext; [eapply invert_holds; eauto|reflexivity].
    - destruct Z as [P Z]. destruct (IHe O Z) as (b & -> & H). cbn [obind]. rewrite (not_invert b _ _ H P). eexists; split; [reflexivity|].
      eapply holds_ext; [eapply invert_holds; eauto|reflexivity].
    - destruct O as (O & F & L). destruct (IHe O Z) as (b & -> & H). eexists; split; [reflexivity|]. eapply holds_ext; [eapply subset_holds; eauto|reflexivity].
  Qed.

  Lemma bitset_test : forall e, e_ok e -> e_nonempty e ->
    exists b, bs_eval W e = Some b /\ b_size b = e_size e /\ forall i, i < e_size e -> bs_test W b i = e_has e i.
  Proof.
    intros e O Z. destruct (eval_holds e O Z) as (b & E & H). exists b. split; auto. split; [apply H|]. intros i _. eapply test_holds; eauto.
  Qed.
  Lemma bitset_queries : forall e b, e_ok e -> e_nonempty e -> bs_eval W e = Some b -> let ms := members (e_size e) (e_has e) in
    (bs_empty b = true <-> ms = []) /\ bs_count W b = length ms /\ bs_first W b = hd (e_size e) ms /\
    forall fuel, e_size e < fuel -> bs_iterate W fuel b = Some ms.
  Proof.
    intros e b O Z E ms. destruct (eval_holds e O Z) as (b' & E' & H). rewrite E in E'. injection E' as <-. repeat split.
    - intros Y. apply (empty_holds _ _ _ H) in Y || (pose proof (proj1 (empty_holds _ _ _ H) Y) as Y'). apply filter_none. auto.
    - intros M. apply (empty_holds _ _ _ H). intros i. destruct (Nat.lt_ge_cases i (e_size e)) as [L|L]; [|apply H; auto].
      destruct (e_has e i) eqn:T; auto. exfalso. assert (I : In i ms) by (apply filter_In; split; auto; apply in_seq; lia). rewrite M in I. destruct I.
    - apply count_holds; auto.
    - pose proof (first_holds _ _ _ H) as F. pose proof (find_seq (e_has e) (e_size e) 0) as G. destruct (find (e_has e) (seq 0 (e_size e))) as [i|]; rewrite F.
      + destruct G as (R & T & M). unfold ms. rewrite (members_step _ _ i); auto; try lia. intros; apply M; lia.
      + unfold ms, members. rewrite filter_none; auto. intros j J. apply in_seq in J. apply G. lia.
    - intros fuel L. apply iterate_holds; auto. pose proof (members_le (e_size e) (e_has e)). lia.
  Qed.
  Lemma bitset_equality : forall e e' b b', e_ok e -> e_ok e' -> e_nonempty e -> e_nonempty e' -> e_size e = e_size e' ->
    bs_eval W e = Some b -> bs_eval W e' = Some b' -> (bs_eqb b b' = true <-> forall i, i < e_size e -> e_has e i = e_has e' i).
  Proof.
    intros e e' b b' O O' Z Z' S E E'. destruct (eval_holds e O Z) as (c & D & H), (eval_holds e' O' Z') as (c' & D' & H').
    rewrite E in D; injection D as <-. rewrite E' in D'; injection D' as <-. rewrite <- S in H'. rewrite (eqb_holds _ _ _ _ _ H H'). split; intros Q i; auto.
    destruct (Nat.lt_ge_cases i (e_size e)); auto. destruct H as (_ & _ & _ & _ & X), H' as (_ & _ & _ & _ & X'). rewrite X, X'; auto.
  Qed.
  Lemma bitset_small_subset : forall e b first len, e_ok e -> e_nonempty e -> bs_eval W e = Some b -> first + len <= e_size e -> len <= W ->
    forall k, N.testbit (bs_small_subset W b first len) (N.of_nat k) = (k <? len) && e_has e (first + k).
  Proof.
    intros e b first len O Z E L LW k. destruct (eval_holds e O Z) as (c & D & H). rewrite E in D; injection D as <-. eapply small_subset_holds; eauto.
  Qed.
End BitsetProofs.
Lemma empty_complement : forall W, 0 < W -> bs_eval W (ENot (EMake 0)) = None /\ bs_eval W (EAll 0) = None.
Proof.
  intros W H. assert (P : pages_required W 0 = 0) by (unfold pages_required; rewrite Nat.mod_0_l, Nat.div_0_l by lia; reflexivity).
  split; cbn [bs_eval obind]; unfold bs_not, bs_make, bs_make_all; cbn [b_pages]; rewrite P; reflexivity.
Qed.
