(** Cyclic shifts of hashes. *)
From Coq Require Import List NArith ZArith Arith Bool Lia.
From Verif Require Import CoreModel SiteModel SiteSpec SiteBitProofs.
Import ListNotations.

(** [e] is [d] rotated upwards by [k] of [n] qubits *)
Definition rotated (n k : nat) (d e : datum) : Prop :=
  forall i, i < 2 * n -> bit e i = if i <? 2 * k then bit d (i + 2 * n - 2 * k) else bit d (i - 2 * k).

Ltac split_bools := repeat (match goal with
  | |- context [Nat.ltb ?a ?b] => destruct (Nat.ltb_spec a b)
  | |- context [Nat.leb ?a ?b] => destruct (Nat.leb_spec a b)
  | |- context [Nat.eqb ?a ?b] => destruct (Nat.eqb_spec a b)
  end; try lia).

Lemma front_bit d fso r a j : Forall small d -> r < 32 -> j < 64 ->
  tb (front_part d fso (r * 2) a) j = (2 * (32 * fso + r) <=? 64 * a + j) && bit d (64 * a + j - 2 * (32 * fso + r)).
Proof.
  intros Hd Hr Hj. unfold front_part. destruct (Nat.eqb_spec (r * 2) 0) as [E|E].
  - assert (r = 0) by lia. subst r. destruct (Nat.leb_spec fso a).
    + replace (64 * a + j - 2 * (32 * fso + 0)) with (64 * (a - fso) + j) by lia. rewrite bit_slide by exact Hj.
      split_bools; reflexivity.
    + rewrite tb_0. split_bools; reflexivity.
  - destruct (Nat.ltb_spec a fso).
    + rewrite tb_0. split_bools; reflexivity.
    + destruct (Nat.eqb_spec a fso) as [->|Na].
      * rewrite tb_shl. split_bools; cbn [andb]; auto.
        replace (64 * fso + j - 2 * (32 * fso + r)) with (64 * 0 + (j - r * 2)) by lia. rewrite bit_slide by lia. reflexivity.
      * rewrite tb_mod64. rewrite add_lor.
        -- rewrite tb_lor, tb_shl, tb_shr. destruct (Nat.ltb_spec j 64); [|lia]. cbn [andb].
           destruct (Nat.leb_spec (2 * (32 * fso + r)) (64 * a + j)); [|lia]. cbn [andb].
           destruct (Nat.leb_spec (r * 2) j); cbn [andb orb].
           ++ rewrite (tb_small (at_slide d (a - fso - 1))); [|now apply small_at|lia]. rewrite orb_false_r.
              replace (64 * a + j - 2 * (32 * fso + r)) with (64 * (a - fso) + (j - r * 2)) by lia. now rewrite bit_slide by lia.
           ++ replace (64 * a + j - 2 * (32 * fso + r)) with (64 * (a - fso - 1) + (j + (64 - r * 2))) by lia. now rewrite bit_slide by lia.
        -- intros i. rewrite tb_shl, tb_shr. destruct (Nat.leb_spec (r * 2) i); cbn [andb].
           ++ rewrite (tb_small (at_slide d (a - fso - 1))); [|now apply small_at|lia]. apply andb_false_r.
           ++ rewrite andb_false_r. reflexivity.
Qed.

Lemma back_bit d s bso r a j : length d = s -> Forall small d -> r < 32 -> j < 64 -> bso < s -> a < s ->
  tb (back_part s d bso (r * 2) a) j = bit d (64 * a + j + 2 * (32 * bso + r)).
Proof.
  intros L Hd Hr Hj Hs Ha. unfold back_part. destruct (Nat.eqb_spec (r * 2) 0) as [E|E].
  - assert (r = 0) by lia. subst r. destruct (Nat.ltb_spec a (s - bso)).
    + replace (64 * a + j + 2 * (32 * bso + 0)) with (64 * (a + bso) + j) by lia. rewrite bit_slide by exact Hj. reflexivity.
    + rewrite tb_0. rewrite bit_overflow by lia. reflexivity.
  - destruct (Nat.ltb_spec a (s - bso - 1)).
    + rewrite tb_lor, tb_shr, tb_shl. destruct (Nat.ltb_spec j 64); [|lia]. cbn [andb].
      destruct (Nat.leb_spec (64 - r * 2) j); cbn [andb].
      * rewrite tb_small; [|now apply small_at|lia]. cbn [orb].
        replace (64 * a + j + 2 * (32 * bso + r)) with (64 * (a + bso + 1) + (j - (64 - r * 2))) by lia. now rewrite bit_slide by lia.
      * rewrite orb_false_r. replace (64 * a + j + 2 * (32 * bso + r)) with (64 * (a + bso) + (j + r * 2)) by lia. now rewrite bit_slide by lia.
    + destruct (Nat.eqb_spec a (s - bso - 1)) as [Ea|Na].
      * rewrite tb_shr. destruct (Nat.lt_ge_cases (j + r * 2) 64).
        -- replace (64 * a + j + 2 * (32 * bso + r)) with (64 * (s - 1) + (j + r * 2)) by lia. now rewrite bit_slide by lia.
        -- rewrite tb_small; [|now apply small_at|lia]. rewrite bit_overflow by lia. reflexivity.
      * rewrite tb_0. rewrite bit_overflow by lia. reflexivity.
Qed.

Section Hasher.
  Variable wide : bool -> N -> N -> sout N.
  Variable h : hasher.
  Hypothesis Hh : hasher_ok h.
  Let n := h_qubits h.
  Let s := h_slides h.

  Lemma s_pos : 0 < s.
  Proof. unfold s. destruct Hh as (A & B & _). lia. Qed.
  Lemma tb_final j : tb (h_final h) j = (j <? 2 * (n - 32 * (s - 1))).
  Proof. destruct Hh as (_ & _ & E & _). rewrite E. apply tb_mask4. Qed.

  Lemma mask_last d a j : a < s -> j < 64 -> length d = s ->
    tb (at_slide (upd (s - 1) (fun x => N.land x (h_final h)) d) a) j = tb (at_slide d a) j && (64 * a + j <? 2 * n).
  Proof.
    intros Ha Hj L. pose proof s_pos. destruct Hh as (A & B & _). fold n s in A, B.
    rewrite at_upd by lia. destruct (Nat.eqb_spec a (s - 1)) as [->|N1].
    - rewrite tb_land, tb_final. f_equal. split_bools; auto.
    - destruct (Nat.ltb_spec (64 * a + j) (2 * n)); [now rewrite andb_true_r|lia].
  Qed.

  Lemma packed_rotated k d e : packed h d -> k <= n -> length e = s -> Forall small e ->
    (forall a j, a < s -> j < 64 -> tb (at_slide e a) j =
       ((2 * k <=? 64 * a + j) && bit d (64 * a + j - 2 * k) || bit d (64 * a + j + 2 * (n - k))) && (64 * a + j <? 2 * n)) ->
    packed h e /\ rotated n k d e.
  Proof.
    intros Pd Hk L Se H. apply packed_bits in Pd. destruct Pd as (Ld & Sd & Od). destruct Hh as (A & B & _). fold n s in A, B, Od.
    assert (Hb : forall i, bit e i = ((2 * k <=? i) && bit d (i - 2 * k) || bit d (i + 2 * (n - k))) && (i <? 2 * n)).
    { intros i. destruct (Nat.lt_ge_cases i (64 * s)).
      - destruct (bit_split i) as [a [j [-> Hj]]]. rewrite bit_slide by exact Hj. apply H; lia.
      - rewrite bit_overflow by lia. destruct (Nat.ltb_spec i (2 * n)); [lia|]. now rewrite andb_false_r. }
    split.
    - apply packed_bits. repeat split; auto. intros i Hi. rewrite Hb. fold n in Hi. destruct (Nat.ltb_spec i (2 * n)); [lia|apply andb_false_r].
    - intros i Hi. rewrite Hb. destruct (Nat.ltb_spec i (2 * n)); [|lia]. rewrite andb_true_r.
      destruct (Nat.leb_spec (2 * k) i); cbn [andb orb].
      + rewrite (Od (i + 2 * (n - k))) by lia. rewrite orb_false_r. destruct (Nat.ltb_spec i (2 * k)); [lia|reflexivity].
      + destruct (Nat.ltb_spec i (2 * k)); [|lia]. f_equal. lia.
  Qed.

  Lemma rotated_0 d : packed h d -> rotated n 0 d d.
  Proof. intros _ i Hi. destruct (Nat.ltb_spec i (2 * 0)); [lia|]. f_equal. lia. Qed.

  Lemma cyclic_n_correct d offset : packed h d ->
    exists e, cyclic_n h d offset = SOk e /\ packed h e /\ rotated n (offset mod n) d e.
  Proof.
    intros Pd. unfold cyclic_n. fold n s. pose proof s_pos as Sp. pose proof Hh as (A & B & _). fold n s in A, B.
    pose proof (Nat.mod_upper_bound offset n ltac:(lia)) as Hk. set (k := offset mod n) in *.
    destruct (Nat.eqb_spec k 0) as [E|E].
    - exists d. rewrite E. split; [reflexivity|split; [exact Pd|now apply rotated_0]].
    - eexists. split; [reflexivity|].
      pose proof Pd as Pb. apply packed_bits in Pb. destruct Pb as (Ld & Sd & Od).
      assert (Df : k = 32 * (k / per_slide) + k mod per_slide) by (apply Nat.div_mod; discriminate).
      assert (Db : n - k = 32 * ((n - k) / per_slide) + (n - k) mod per_slide) by (apply Nat.div_mod; discriminate).
      assert (Rf : k mod per_slide < 32) by (apply Nat.mod_upper_bound; discriminate).
      assert (Rb : (n - k) mod per_slide < 32) by (apply Nat.mod_upper_bound; discriminate).
      set (out := map _ _). assert (Lo : length out = s) by (unfold out; now rewrite map_length, seq_length).
      assert (To : forall a j, a < s -> j < 64 -> tb (at_slide out a) j =
                   (2 * k <=? 64 * a + j) && bit d (64 * a + j - 2 * k) || bit d (64 * a + j + 2 * (n - k))).
      { intros a j Ha Hj. unfold out. rewrite at_map by exact Ha. rewrite tb_lor, front_bit, back_bit by (try assumption; lia).
        rewrite <- Df, <- Db. reflexivity. }
      apply packed_rotated; [exact Pd|lia|now rewrite upd_length| |].
      + apply upd_small; [|intros; now apply small_land]. unfold out. apply Forall_forall. intros x Hx. apply in_map_iff in Hx.
        destruct Hx as [a [<- Ha]]. apply in_seq in Ha. apply small_lor.
        * unfold front_part. repeat (match goal with |- context [if ?c then _ else _] => destruct c end);
            auto using small_at, small_0, small_shl, small_mod.
        * unfold back_part. repeat (match goal with |- context [if ?c then _ else _] => destruct c end);
            auto using small_at, small_0, small_shl, small_shr, small_lor.
      + intros a j Ha Hj. rewrite mask_last by assumption. rewrite To by assumption. reflexivity.
  Qed.

  Lemma cyclic_1_correct d offset : s = 1 -> packed h d -> offset <= n ->
    exists e, cyclic_1 wide h d offset = SOk e /\ packed h e /\ rotated n (offset mod n) d e.
  Proof.
    intros S1 Pd Ho. unfold cyclic_1. fold n. pose proof Hh as (A & B & _). fold n s in A, B. rewrite S1 in B.
    assert (Z : offset mod n = 0 -> exists e, SOk d = SOk e /\ packed h e /\ rotated n (offset mod n) d e).
    { intros E. exists d. rewrite E. split; [reflexivity|split; [exact Pd|now apply rotated_0]]. }
    destruct (Nat.eqb_spec (2 * (offset mod per_slide)) 0) as [E|E].
    - apply Z. assert (O : offset mod 32 = 0) by (unfold per_slide in E; lia).
      destruct (Nat.eq_dec offset n) as [->|No]; [apply Nat.mod_same; lia|].
      rewrite Nat.mod_small in O by lia. subst offset. apply Nat.mod_small. lia.
    - assert (offset < 32) as Lo.
      { destruct (Nat.lt_ge_cases offset 32); [assumption|]. assert (offset = 32) as -> by lia. exfalso. apply E. reflexivity. }
      replace (offset mod per_slide) with offset in * by (symmetry; now apply Nat.mod_small).
      pose proof Pd as Pb. apply packed_bits in Pb. destruct Pb as (Ld & Sd & Od). fold n s in Ld, Od.
      rewrite shl_value by lia. cbn [sbind].
      replace (2 * N.of_nat n)%N with (N.of_nat (2 * n)) by lia. rewrite sub64_value by (try lia; unfold two64; lia).
      rewrite shr_value by lia. cbn [sbind].
      assert (Hs : small (at_slide d 0)) by now apply small_at.
      set (e := [_]).
      assert (R : packed h e /\ rotated n offset d e).
      { apply packed_rotated; [exact Pd|lia|rewrite S1; reflexivity| |].
        - repeat constructor. apply small_lor; [apply small_land, small_shl|now apply small_shr].
        - intros a j Ha Hj. assert (a = 0) as -> by lia. unfold e. cbn [at_slide nth].
          change (at_slide [?x] 0) with x. unfold at_slide at 1. cbn [nth].
          rewrite tb_lor, tb_land, tb_shl, tb_shr, tb_final, S1.
          change (64 * 0 + j) with (0 + j). cbn [Nat.add].
          replace (2 * (n - 32 * (1 - 1))) with (2 * n) by lia.
          destruct (Nat.ltb_spec j 64); [|lia]. cbn [andb].
          assert (B1 : forall i, bit d i = tb (at_slide d 0) i).
          { intros i. destruct (Nat.lt_ge_cases i 64).
            - rewrite <- (bit_slide d 0) by assumption. reflexivity.
            - rewrite bit_overflow by lia. rewrite tb_small by assumption. reflexivity. }
          rewrite !B1. replace (j + (2 * n - 2 * offset)) with (j + 2 * (n - offset)) by lia.
          destruct (Nat.ltb_spec j (2 * n)).
          + rewrite !andb_true_r. reflexivity.
          + rewrite !andb_false_r. cbn [orb]. rewrite <- B1. apply Od. lia. }
      destruct R as [R1 R2]. exists e. split; [reflexivity|]. split; [exact R1|].
      destruct (Nat.eq_dec offset n) as [->|No].
      + rewrite Nat.mod_same by lia. intros i Hi. rewrite R2 by exact Hi.
        destruct (Nat.ltb_spec i (2 * n)); [|lia]. destruct (Nat.ltb_spec i (2 * 0)); [lia|]. f_equal. lia.
      + rewrite Nat.mod_small by lia. exact R2.
  Qed.

  Lemma cyclic_2_correct d offset : s = 2 -> packed h d ->
    exists e, cyclic_2 h d offset = SOk e /\ packed h e /\ rotated n (offset mod n) d e.
  Proof.
    intros S2 Pd. unfold cyclic_2. fold n. pose proof Hh as (A & B & _). fold n s in A, B. rewrite S2 in B.
    pose proof (Nat.mod_upper_bound offset n ltac:(lia)) as Hk. set (k := offset mod n) in *.
    destruct (Nat.eqb_spec k 0) as [E|E].
    - exists d. rewrite E. split; [reflexivity|split; [exact Pd|now apply rotated_0]].
    - eexists. split; [reflexivity|].
      pose proof Pd as Pb. apply packed_bits in Pb. destruct Pb as (Ld & Sd & Od). fold n s in Ld, Od.
      set (i0 := at_slide d 0). set (i1 := at_slide d 1).
      assert (Hi0 : small i0) by now apply small_at. assert (Hi1 : small i1) by now apply small_at.
      set (o0 := if n - k <? per_slide then _ else _). set (o1 := if n - k <? per_slide then _ else _).
      assert (So0 : small o0).
      { unfold o0. repeat (match goal with |- context [if ?c then _ else _] => destruct c end);
          auto 8 using small_at, small_0, small_shl, small_shr, small_lor. }
      assert (So1 : small o1).
      { unfold o1. repeat (match goal with |- context [if ?c then _ else _] => destruct c end);
          auto 8 using small_at, small_0, small_shl, small_shr, small_lor. }
      change [o0; N.land o1 (h_final h)] with (upd 1 (fun x => N.land x (h_final h)) [o0; o1]).
      apply packed_rotated; [exact Pd|lia|now rewrite upd_length| |].
      + apply upd_small; [repeat constructor; assumption|intros; now apply small_land].
      + assert (B0 : forall i, i < 64 -> bit d i = tb i0 i) by (intros i Hi; apply (bit_slide d 0); exact Hi).
        assert (B1 : forall i, 64 <= i -> bit d i = tb i1 (i - 64)).
        { intros i Hi. destruct (Nat.lt_ge_cases i 128).
          - replace i with (64 * 1 + (i - 64)) at 1 by lia. apply bit_slide. lia.
          - rewrite bit_overflow by lia. rewrite tb_small by (try assumption; lia). reflexivity. }
        intros a j Ha Hj. replace (upd 1 (fun x => N.land x (h_final h)) [o0; o1]) with (upd (s - 1) (fun x => N.land x (h_final h)) [o0; o1]) by (f_equal; lia). rewrite mask_last; [|exact Ha|exact Hj|cbn; lia]. f_equal.
        unfold per_slide in *.
        assert (F0 : tb (if k <? 32 then shl_in i0 (2 * k) else 0%N) j = (2 * k <=? j) && bit d (j - 2 * k)).
        { destruct (Nat.ltb_spec k 32).
          - rewrite tb_shl. destruct (Nat.ltb_spec j 64); [|lia]. cbn [andb]. rewrite B0 by lia. reflexivity.
          - rewrite tb_0. destruct (Nat.leb_spec (2 * k) j); [lia|reflexivity]. }
        assert (F1 : tb (if k <? 32 then N.lor (shr_in i0 (64 - 2 * k)) (shl_in i1 (2 * k)) else shl_in i0 (2 * (k - 32))) j
                     = (2 * k <=? 64 + j) && bit d (64 + j - 2 * k)).
        { destruct (Nat.ltb_spec k 32).
          - rewrite tb_lor, tb_shr, tb_shl. destruct (Nat.ltb_spec j 64); [|lia]. cbn [andb].
            destruct (Nat.leb_spec (2 * k) (64 + j)); [|lia]. cbn [andb].
            destruct (Nat.leb_spec (2 * k) j); cbn [andb].
            + rewrite (tb_small i0) by (try assumption; lia). cbn [orb]. rewrite B1 by lia. f_equal. lia.
            + rewrite orb_false_r. rewrite B0 by lia. f_equal. lia.
          - rewrite tb_shl. destruct (Nat.ltb_spec j 64); [|lia]. cbn [andb].
            destruct (Nat.leb_spec (2 * (k - 32)) j); destruct (Nat.leb_spec (2 * k) (64 + j)); try lia; cbn [andb]; try reflexivity.
            rewrite B0 by lia. f_equal. lia. }
        assert (a = 0 \/ a = 1) as [-> | ->] by lia; unfold at_slide; cbn [nth].
        * replace (64 * 0 + j) with j by lia. unfold o0.
          destruct (Nat.ltb_spec (n - k) 32); rewrite tb_lor, F0; f_equal.
          -- rewrite tb_lor, tb_shl, tb_shr. destruct (Nat.ltb_spec j 64); [|lia]. cbn [andb].
             destruct (Nat.leb_spec (64 - (n - k) * 2) j); cbn [andb orb].
             ++ rewrite (tb_small i0) by (try assumption; lia). rewrite orb_false_r. rewrite B1 by lia. f_equal. lia.
             ++ rewrite B0 by lia. f_equal. lia.
          -- rewrite tb_shr, B1 by lia. f_equal. lia.
        * replace (64 * 1 + j) with (64 + j) by lia. unfold o1.
          destruct (Nat.ltb_spec (n - k) 32).
          -- rewrite tb_lor, F1, tb_shr. f_equal. rewrite B1 by lia. f_equal. lia.
          -- rewrite F1, (bit_overflow d (64 + j + 2 * (n - k))) by lia. now rewrite orb_false_r.
  Qed.

  Lemma cyclic_correct d offset : packed h d -> offset <= n \/ s <> 1 ->
    exists e, cyclic_shift wide h d offset = SOk e /\ packed h e /\ rotated n (offset mod n) d e.
  Proof.
    intros Pd Ho. unfold cyclic_shift. fold s. pose proof s_pos. destruct s as [|[|[|s']]] eqn:E; try lia.
    - apply cyclic_1_correct; auto. destruct Ho; [assumption|congruence].
    - apply cyclic_2_correct; auto.
    - apply cyclic_n_correct; auto.
  Qed.

  Lemma rotated_site k d e q : k <= n -> rotated n k d e -> q < n -> site e q = if q <? k then site d (q + n - k) else site d (q - k).
  Proof.
    intros Hk R Hq. rewrite (site_bits e), !R by lia.
    destruct (Nat.ltb_spec q k).
    - destruct (Nat.ltb_spec (2 * q) (2 * k)); [|lia]. destruct (Nat.ltb_spec (2 * q + 1) (2 * k)); [|lia].
      rewrite (site_bits d). replace (2 * q + 2 * n - 2 * k) with (2 * (q + n - k)) by lia.
      replace (2 * q + 1 + 2 * n - 2 * k) with (2 * (q + n - k) + 1) by lia. reflexivity.
    - destruct (Nat.ltb_spec (2 * q) (2 * k)); [lia|]. destruct (Nat.ltb_spec (2 * q + 1) (2 * k)); [lia|].
      rewrite (site_bits d). replace (2 * q - 2 * k) with (2 * (q - k)) by lia.
      replace (2 * q + 1 - 2 * k) with (2 * (q - k) + 1) by lia. reflexivity.
  Qed.
  Lemma rotated_fwd k d e q : k <= n -> rotated n k d e -> q < n -> site e ((q + k) mod n) = site d q.
  Proof.
    intros Hk R Hq. destruct (Nat.lt_ge_cases (q + k) n).
    - rewrite Nat.mod_small by assumption. rewrite (rotated_site k d) by assumption.
      destruct (Nat.ltb_spec (q + k) k); [lia|]. f_equal. lia.
    - assert (E : (q + k) mod n = q + k - n).
      { symmetry. apply (Nat.mod_unique _ n 1); lia. }
      rewrite E. rewrite (rotated_site k d) by (try assumption; lia). destruct (Nat.ltb_spec (q + k - n) k); [|lia]. f_equal. lia.
  Qed.
End Hasher.
