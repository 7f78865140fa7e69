(** Bits of hashes. *)
From Coq Require Import List NArith ZArith Arith Bool Lia Sorted.
From Verif Require Import CoreModel SiteModel SiteSpec.
Import ListNotations.

Definition tb (x : N) (j : nat) : bool := N.testbit x (N.of_nat j).
Definition bit (d : datum) (i : nat) : bool := tb (nth (i / 64) d 0%N) (i mod 64).
Definition small (x : N) : Prop := (x < 2 ^ 64)%N.

Lemma tb_ext x y : (forall j, tb x j = tb y j) -> x = y.
Proof.
  intros H. apply N.bits_inj. intros k. specialize (H (N.to_nat k)). unfold tb in H. rewrite N2Nat.id in H. exact H.
Qed.
Lemma tb_lor x y j : tb (N.lor x y) j = tb x j || tb y j. Proof. apply N.lor_spec. Qed.
Lemma tb_land x y j : tb (N.land x y) j = tb x j && tb y j. Proof. apply N.land_spec. Qed.
Lemma tb_0 j : tb 0 j = false. Proof. apply N.bits_0. Qed.
Lemma tb_mod x m j : tb (x mod 2 ^ N.of_nat m) j = (j <? m) && tb x j.
Proof.
  unfold tb. destruct (Nat.ltb_spec j m).
  - rewrite N.mod_pow2_bits_low by lia. reflexivity.
  - rewrite N.mod_pow2_bits_high by lia. reflexivity.
Qed.
Lemma tb_mod64 x j : tb (x mod two64) j = (j <? 64) && tb x j.
Proof. apply (tb_mod x 64 j). Qed.
Lemma tb_small x j : small x -> 64 <= j -> tb x j = false.
Proof.
  intros Hx Hj. rewrite <- (N.mod_small x (2 ^ N.of_nat 64)) by exact Hx.
  rewrite tb_mod. destruct (Nat.ltb_spec j 64); [lia|reflexivity].
Qed.
Lemma small_tb x : (forall j, 64 <= j -> tb x j = false) -> small x.
Proof.
  intros H. unfold small. assert (E : x = (x mod 2 ^ N.of_nat 64)%N).
  { apply tb_ext. intros j. rewrite tb_mod. destruct (Nat.ltb_spec j 64); [reflexivity|]. now apply H. }
  rewrite E. apply N.mod_lt. vm_compute. discriminate.
Qed.
Lemma tb_shiftl x k j : tb (N.shiftl x (N.of_nat k)) j = (k <=? j) && tb x (j - k).
Proof.
  unfold tb. destruct (Nat.leb_spec k j).
  - rewrite N.shiftl_spec_high' by lia. f_equal. cbn. f_equal. lia.
  - rewrite N.shiftl_spec_low by lia. reflexivity.
Qed.
Lemma tb_shr x k j : tb (shr_in x k) j = tb x (j + k).
Proof. unfold tb, shr_in. rewrite N.shiftr_spec'. f_equal. lia. Qed.
Lemma tb_shl x k j : tb (shl_in x k) j = (j <? 64) && ((k <=? j) && tb x (j - k)).
Proof. unfold shl_in. rewrite tb_mod64, tb_shiftl. reflexivity. Qed.
Lemma tb_ones m j : tb (N.ones (N.of_nat m)) j = (j <? m).
Proof.
  unfold tb. destruct (Nat.ltb_spec j m).
  - rewrite N.ones_spec_low by lia. reflexivity.
  - rewrite N.ones_spec_high by lia. reflexivity.
Qed.
Lemma pow4 m : (4 ^ m = 2 ^ (2 * m))%N.
Proof. rewrite N.pow_mul_r. reflexivity. Qed.
Lemma tb_mask4 m j : tb (4 ^ N.of_nat m - 1) j = (j <? 2 * m).
Proof.
  rewrite pow4. replace (2 ^ (2 * N.of_nat m) - 1)%N with (N.ones (N.of_nat (2 * m))).
  - apply tb_ones.
  - rewrite N.ones_equiv. replace (2 * N.of_nat m)%N with (N.of_nat (2 * m)) by lia. rewrite N.sub_1_r. reflexivity.
Qed.
Lemma small_mask4 m : m <= 32 -> small (4 ^ N.of_nat m - 1).
Proof. intros H. apply small_tb. intros j Hj. rewrite tb_mask4. destruct (Nat.ltb_spec j (2 * m)); [lia|reflexivity]. Qed.

Lemma add_lor x y : (forall j, tb x j && tb y j = false) -> (x + y)%N = N.lor x y.
Proof.
  intros H. apply N.bits_inj. intros k. rewrite N.add_nocarry_lxor.
  - rewrite N.lxor_spec, N.lor_spec. specialize (H (N.to_nat k)). unfold tb in H. rewrite N2Nat.id in H.
    destruct (N.testbit x k), (N.testbit y k); cbn in *; congruence.
  - apply tb_ext. intros j. rewrite tb_land, tb_0. apply H.
Qed.
Lemma small_lor x y : small x -> small y -> small (N.lor x y).
Proof. intros A B. apply small_tb. intros j Hj. rewrite tb_lor, (tb_small x), (tb_small y) by assumption. reflexivity. Qed.
Lemma small_land x y : small x -> small (N.land x y).
Proof. intros A. apply small_tb. intros j Hj. rewrite tb_land, (tb_small x) by assumption. reflexivity. Qed.
Lemma small_shl x k : small (shl_in x k).
Proof. apply small_tb. intros j Hj. rewrite tb_shl. destruct (Nat.ltb_spec j 64); [lia|reflexivity]. Qed.
Lemma small_shr x k : small x -> small (shr_in x k).
Proof. intros A. apply small_tb. intros j Hj. rewrite tb_shr. apply tb_small; [exact A|lia]. Qed.
Lemma small_0 : small 0. Proof. reflexivity. Qed.
Lemma small_mod x : small (x mod two64).
Proof. apply N.mod_lt. vm_compute. discriminate. Qed.

Lemma small_at d a : Forall small d -> small (at_slide d a).
Proof.
  intros H. unfold at_slide. destruct (Nat.lt_ge_cases a (length d)).
  - rewrite Forall_forall in H. apply H. now apply nth_In.
  - rewrite nth_overflow by assumption. exact small_0.
Qed.

Lemma bit_slide d a j : j < 64 -> bit d (64 * a + j) = tb (at_slide d a) j.
Proof.
  intros H. unfold bit, at_slide.
  replace ((64 * a + j) / 64) with a.
  2:{ apply (Nat.div_unique _ 64 a j); lia. }
  replace ((64 * a + j) mod 64) with j.
  2:{ apply (Nat.mod_unique _ 64 a j); lia. }
  reflexivity.
Qed.
Lemma bit_split i : exists a j, i = 64 * a + j /\ j < 64.
Proof.
  exists (i / 64), (i mod 64). split; [apply Nat.div_mod; lia|]. apply Nat.mod_upper_bound. lia.
Qed.
Lemma bit_overflow d i : 64 * length d <= i -> bit d i = false.
Proof.
  intros H. destruct (bit_split i) as [a [j [-> Hj]]]. rewrite bit_slide by exact Hj.
  unfold at_slide. rewrite nth_overflow by lia. apply tb_0.
Qed.
Lemma bit_ext d e : length d = length e -> Forall small d -> Forall small e -> (forall i, bit d i = bit e i) -> d = e.
Proof.
  intros L A B H. apply (nth_ext _ _ 0%N 0%N); [exact L|]. intros a Ha.
  apply tb_ext. intros j. destruct (Nat.lt_ge_cases j 64).
  - specialize (H (64 * a + j)). rewrite !bit_slide in H by assumption. exact H.
  - change (tb (at_slide d a) j = tb (at_slide e a) j).
    rewrite !tb_small; auto using small_at.
Qed.

(** sites *)
Lemma four_bits y : (y < 4)%N -> y = (N.b2n (tb y 0) + 2 * N.b2n (tb y 1))%N.
Proof. intros H. assert (y = 0 \/ y = 1 \/ y = 2 \/ y = 3)%N as [->|[->|[->| ->]]] by lia; reflexivity. Qed.
Lemma site_tb d q e : e < 2 -> tb (site d q) e = bit d (2 * q + e).
Proof.
  intros He. unfold site. rewrite pow4. change 4%N with (2 ^ N.of_nat 2)%N. rewrite tb_mod.
  replace (e <? 2) with true by (symmetry; apply Nat.ltb_lt; lia). cbn [andb].
  unfold tb at 1. rewrite N.div_pow2_bits.
  replace (2 * q + e) with (64 * (q / 32) + (2 * (q mod 32) + e)).
  2:{ pose proof (Nat.div_mod q 32 ltac:(lia)). lia. }
  pose proof (Nat.mod_upper_bound q 32 ltac:(lia)).
  rewrite bit_slide by lia. unfold tb, at_slide. f_equal. lia.
Qed.
Lemma site_bits d q : site d q = (N.b2n (bit d (2 * q)) + 2 * N.b2n (bit d (2 * q + 1)))%N.
Proof.
  rewrite (four_bits (site d q)).
  - rewrite !site_tb by lia. do 3 f_equal; lia.
  - unfold site. apply N.mod_lt. discriminate.
Qed.
Lemma even_or_odd i : exists q e, i = 2 * q + e /\ e < 2.
Proof. exists (i / 2), (i mod 2). split; [apply Nat.div_mod; lia|]. apply Nat.mod_upper_bound. lia. Qed.
Lemma site_ext d e : length d = length e -> Forall small d -> Forall small e -> (forall q, site d q = site e q) -> d = e.
Proof.
  intros L A B H. apply bit_ext; auto. intros i. destruct (even_or_odd i) as [q [r [-> Hr]]].
  rewrite <- !site_tb by exact Hr. now rewrite H.
Qed.
Lemma site_lt d q : (site d q < 4)%N.
Proof. unfold site. apply N.mod_lt. discriminate. Qed.

(** packed hashes, by bits *)
Lemma packed_bits h d : packed h d <-> length d = h_slides h /\ Forall small d /\ forall i, 2 * h_qubits h <= i -> bit d i = false.
Proof.
  unfold packed. split; intros (A & B & C).
  - repeat split; [exact A|rewrite Forall_forall; exact B|].
    intros i Hi. destruct (even_or_odd i) as [q [r [-> Hr]]]. rewrite <- site_tb by exact Hr. rewrite C by lia. apply tb_0.
  - repeat split; [exact A|rewrite Forall_forall in B; exact B|].
    intros q Hq. rewrite site_bits, !C by lia. reflexivity.
Qed.
Lemma packed_ext h d e : packed h d -> packed h e -> (forall q, q < h_qubits h -> site d q = site e q) -> d = e.
Proof.
  intros A B H. pose proof A as A'. pose proof B as B'. apply packed_bits in A', B'. apply site_ext; try tauto.
  - destruct A', B'. congruence.
  - intros q. destruct (Nat.lt_ge_cases q (h_qubits h)); [now apply H|].
    destruct A as (_ & _ & A), B as (_ & _ & B). rewrite A, B by assumption. reflexivity.
Qed.

(** updates *)
Lemma upd_length i f d : length (upd i f d) = length d.
Proof. revert i. induction d as [|x d IH]; intros [|i]; cbn; auto. Qed.
Lemma at_upd i f d a : i < length d -> at_slide (upd i f d) a = if Nat.eqb a i then f (at_slide d a) else at_slide d a.
Proof.
  unfold at_slide. revert i a. induction d as [|x d IH]; intros [|i] [|a] H; cbn in *; try lia; auto.
  rewrite IH by lia. reflexivity.
Qed.
Lemma upd_small i f d : Forall small d -> (forall x, small x -> small (f x)) -> Forall small (upd i f d).
Proof.
  intros H Hf. revert i. induction H as [|x d Hx H IH]; intros [|i]; cbn; constructor; auto.
Qed.
Lemma at_map f n a : a < n -> at_slide (map f (seq 0 n)) a = f a.
Proof.
  intros H. unfold at_slide. rewrite (nth_indep _ _ (f 0)) by (rewrite map_length, seq_length; exact H).
  rewrite map_nth, seq_nth by exact H. reflexivity.
Qed.

Lemma shl_value wide x k : k < 64 -> shl wide x (N.of_nat k) = SOk (shl_in x k).
Proof. intros H. unfold shl. destruct (N.ltb_spec (N.of_nat k) 64); [reflexivity|lia]. Qed.
Lemma shr_value wide x k : k < 64 -> shr wide x (N.of_nat k) = SOk (shr_in x k).
Proof. intros H. unfold shr. destruct (N.ltb_spec (N.of_nat k) 64); [reflexivity|lia]. Qed.
Lemma sub64_value a b : b <= a -> (N.of_nat a < two64)%N -> sub64 (N.of_nat a) (N.of_nat b) = N.of_nat (a - b).
Proof.
  intros H L. unfold sub64. replace (N.of_nat a + two64 - N.of_nat b)%N with (N.of_nat (a - b) + 1 * two64)%N by lia.
  rewrite N.mod_add by (vm_compute; discriminate). apply N.mod_small. lia.
Qed.
Lemma mask_bits_value wide b : 0 < b <= 64 -> exists m, mask_bits wide b = SOk m /\ small m /\ forall j, tb m j = (j <? b).
Proof.
  intros H. unfold mask_bits. destruct (Nat.eqb_spec b 64) as [->|N1].
  - cbn [orb]. eexists. split; [reflexivity|]. split; [reflexivity|]. intros j. apply (tb_ones 64 j).
  - destruct (Nat.eqb_spec b 0) as [->|N2]; [lia|]. cbn [orb]. rewrite shl_value by lia. cbn [sbind].
    eexists. split; [reflexivity|].
    assert (E : sub64 (shl_in 1 b) 1 = N.ones (N.of_nat b)).
    { unfold shl_in. rewrite N.shiftl_1_l. assert (2 ^ N.of_nat b < two64)%N.
      { unfold two64. apply N.pow_lt_mono_r; lia. }
      assert (0 < 2 ^ N.of_nat b)%N by (apply N.neq_0_lt_0, N.pow_nonzero; discriminate).
      rewrite N.mod_small by assumption. unfold sub64.
      replace (2 ^ N.of_nat b + two64 - 1)%N with ((2 ^ N.of_nat b - 1) + 1 * two64)%N by lia.
      rewrite N.mod_add by (vm_compute; discriminate). rewrite N.mod_small by lia. rewrite N.ones_equiv. lia. }
    rewrite E. split; [|intros; apply tb_ones]. apply small_tb. intros j Hj. rewrite tb_ones. apply Nat.ltb_ge. lia.
Qed.
