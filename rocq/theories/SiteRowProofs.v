(** Rotation of the rows of a lattice inside a hash. *)
From Coq Require Import List NArith ZArith Arith Bool Lia.
From Verif Require Import CoreModel SiteModel SiteSpec SiteBitProofs SiteShiftProofs.
Import ListNotations.

Section Rows.
  Variable wide : bool -> N -> N -> sout N.
  Variable h : hasher.
  Hypothesis Hh : hasher_ok h.
  Let n := h_qubits h.
  Let s := h_slides h.
  Let ch := h_col h.
  Let rw := h_row h.
  Hypothesis Hc : ch <= 32.

  Lemma n_eq : n = ch * rw. Proof. reflexivity. Qed.
  Lemma ch_pos : 0 < ch. Proof. clear Hc. destruct Hh as (A & _). fold n in A. rewrite n_eq in A. nia. Qed.
  Lemma rw_pos : 0 < rw. Proof. clear Hc. destruct Hh as (A & _). fold n in A. rewrite n_eq in A. nia. Qed.
  Lemma n_fits : n <= 32 * s. Proof. clear Hc. destruct Hh as (_ & A & _). fold n s in A. lia. Qed.
  Lemma col_in c : c < rw -> c * ch + ch <= n.
  Proof. clear Hc Hh. intros H. rewrite n_eq. nia. Qed.
  Lemma tb_colmask j : tb (h_mask h) j = (j <? 2 * ch).
  Proof. destruct Hh as (_ & _ & _ & E). rewrite E by exact Hc. apply tb_mask4. Qed.

  (** bit [i] after every column was rotated by [k] rows *)
  Definition rowbit (k : nat) (d : datum) (i : nat) : bool :=
    if i mod (2 * ch) <? 2 * k then bit d (i + 2 * ch - 2 * k) else bit d (i - 2 * k).
  Definition col_word (d : datum) (c : nat) (x : N) : Prop :=
    small x /\ forall j, tb x j = (j <? 2 * ch) && bit d (2 * (c * ch) + j).
  Definition rot_word (k : nat) (d : datum) (c : nat) (y : N) : Prop :=
    small y /\ forall j, tb y j = (j <? 2 * ch) && rowbit k d (2 * (c * ch) + j).

  Lemma in_col c j : j < 2 * ch -> (2 * (c * ch) + j) mod (2 * ch) = j.
  Proof. intros H. symmetry. apply (Nat.mod_unique _ (2 * ch) c j); [exact H|nia]. Qed.
  Lemma rowbit_in k d c j : j < 2 * ch ->
    rowbit k d (2 * (c * ch) + j) = if j <? 2 * k then bit d (2 * (c * ch) + j + 2 * ch - 2 * k) else bit d (2 * (c * ch) + j - 2 * k).
  Proof. intros H. unfold rowbit. rewrite in_col by exact H. reflexivity. Qed.

  Lemma rotate_correct d c x k : col_word d c x -> 0 < k -> k <= ch -> k < 32 ->
    exists y, rotate wide h x (2 * N.of_nat k) (sub64 (N.of_nat (h_col h) * 2) (2 * N.of_nat k)) = SOk y /\ rot_word k d c y.
  Proof.
    intros [Sx Hx] K0 K1 K2. unfold rotate. fold ch. replace (2 * N.of_nat k)%N with (N.of_nat (2 * k)) by lia.
    replace (N.of_nat ch * 2)%N with (N.of_nat (2 * ch)) by lia.
    rewrite sub64_value by (try lia; unfold two64; lia).
    rewrite shl_value by lia. cbn [sbind]. rewrite shr_value by lia. cbn [sbind].
    eexists. split; [reflexivity|]. split.
    - apply small_land, small_lor; [apply small_shl|now apply small_shr].
    - intros j. rewrite tb_land, tb_lor, tb_shl, tb_shr, tb_colmask, !Hx.
      destruct (Nat.ltb_spec j (2 * ch)); [|rewrite andb_false_r; reflexivity]. rewrite andb_true_r. cbn [andb].
      rewrite rowbit_in by assumption. destruct (Nat.ltb_spec j 64); [|lia]. cbn [andb].
      destruct (Nat.ltb_spec j (2 * k)).
      + destruct (Nat.leb_spec (2 * k) j); [lia|]. cbn [andb orb].
        destruct (Nat.ltb_spec (j + (2 * ch - 2 * k)) (2 * ch)); [|lia]. cbn [andb]. f_equal. lia.
      + destruct (Nat.leb_spec (2 * k) j); [|lia]. cbn [andb].
        destruct (Nat.ltb_spec (j + (2 * ch - 2 * k)) (2 * ch)); [lia|]. cbn [andb]. rewrite orb_false_r.
        destruct (Nat.ltb_spec (j - 2 * k) (2 * ch)); [|lia]. cbn [andb]. f_equal. lia.
  Qed.

  (** hashes in which the columns below [c] have been written *)
  Definition done_cols (k : nat) (d : datum) (c : nat) (out : datum) : Prop :=
    length out = s /\ Forall small out /\ forall i, bit out i = (i <? 2 * (c * ch)) && rowbit k d i.

  Lemma done_step k d c out out' y : done_cols k d c out -> rot_word k d c y -> length out' = s -> Forall small out' ->
    (forall i, bit out' i = bit out i || ((2 * (c * ch) <=? i) && tb y (i - 2 * (c * ch)))) -> done_cols k d (S c) out'.
  Proof.
    intros (L & So & Ho) [Sy Hy] L' S' H'. split; [exact L'|]. split; [exact S'|]. intros i. rewrite H', Ho, Hy.
    replace (S c * ch) with (c * ch + ch) by lia.
    destruct (Nat.ltb_spec i (2 * (c * ch))).
    - destruct (Nat.leb_spec (2 * (c * ch)) i); [lia|]. cbn [andb]. rewrite orb_false_r.
      destruct (Nat.ltb_spec i (2 * (c * ch + ch))); [reflexivity|lia].
    - destruct (Nat.leb_spec (2 * (c * ch)) i); [|lia]. cbn [andb orb].
      replace (2 * (c * ch) + (i - 2 * (c * ch))) with i by lia. f_equal.
      destruct (Nat.ltb_spec (i - 2 * (c * ch)) (2 * ch)); destruct (Nat.ltb_spec i (2 * (c * ch + ch))); try lia; reflexivity.
  Qed.

  Lemma columns_seq k d (f : nat -> datum -> sout datum) m : forall c out, done_cols k d c out ->
    (forall c out, c < rw -> done_cols k d c out -> exists out', f c out = SOk out' /\ done_cols k d (S c) out') ->
    c + m <= rw -> exists out', columns f (seq c m) out = SOk out' /\ done_cols k d (c + m) out'.
  Proof.
    induction m as [|m IH]; intros c out D Hf L; cbn [seq columns].
    - exists out. rewrite Nat.add_0_r. auto.
    - destruct (Hf c out ltac:(lia) D) as [o [-> Do]]. cbn [sbind]. destruct (IH (S c) o Do Hf ltac:(lia)) as [o' [E D']].
      exists o'. rewrite E. split; [reflexivity|]. replace (c + S m) with (S c + m) by lia. exact D'.
  Qed.

  Lemma columns_seq_from k d (f : nat -> datum -> sout datum) m : forall c out lo, done_cols k d c out ->
    (forall c out, lo <= c -> c < rw -> done_cols k d c out -> exists out', f c out = SOk out' /\ done_cols k d (S c) out') ->
    lo <= c -> c + m <= rw -> exists out', columns f (seq c m) out = SOk out' /\ done_cols k d (c + m) out'.
  Proof.
    induction m as [|m IH]; intros c out lo D Hf Hl L; cbn [seq columns].
    - exists out. rewrite Nat.add_0_r. auto.
    - destruct (Hf c out Hl ltac:(lia) D) as [o [-> Do]]. cbn [sbind]. destruct (IH (S c) o lo Do Hf ltac:(lia) ltac:(lia)) as [o' [E D']].
      exists o'. rewrite E. split; [reflexivity|]. replace (c + S m) with (S c + m) by lia. exact D'.
  Qed.
  Lemma columns_seq_upto k d (f : nat -> datum -> sout datum) m : forall c out hi, done_cols k d c out ->
    (forall c out, c < hi -> done_cols k d c out -> exists out', f c out = SOk out' /\ done_cols k d (S c) out') ->
    c + m <= hi -> exists out', columns f (seq c m) out = SOk out' /\ done_cols k d (c + m) out'.
  Proof.
    induction m as [|m IH]; intros c out hi D Hf L; cbn [seq columns].
    - exists out. rewrite Nat.add_0_r. auto.
    - destruct (Hf c out ltac:(lia) D) as [o [-> Do]]. cbn [sbind]. destruct (IH (S c) o hi Do Hf ltac:(lia)) as [o' [E D']].
      exists o'. rewrite E. split; [reflexivity|]. replace (c + S m) with (S c + m) by lia. exact D'.
  Qed.

  (** the result of a rotation of rows *)
  Definition row_rotated (k : nat) (d e : datum) : Prop := forall i, i < 2 * n -> bit e i = rowbit k d i.
  Lemma done_all k d out : done_cols k d rw out -> packed h out /\ row_rotated k d out.
  Proof.
    intros (L & So & Ho). assert (E : 2 * (rw * ch) = 2 * n) by (rewrite n_eq; lia). rewrite E in Ho. split.
    - apply packed_bits. repeat split; auto. intros i Hi. rewrite Ho. fold n in Hi. destruct (Nat.ltb_spec i (2 * n)); [lia|reflexivity].
    - intros i Hi. rewrite Ho. destruct (Nat.ltb_spec i (2 * n)); [reflexivity|lia].
  Qed.
  Lemma empty_done k d : done_cols k d 0 (repeat 0%N s).
  Proof.
    split; [apply repeat_length|]. split; [apply Forall_forall; intros x Hx; apply repeat_spec in Hx; subst; exact small_0|].
    intros i. cbn [Nat.mul andb Nat.ltb Nat.leb]. unfold bit.
    replace (nth (i / 64) (repeat 0%N s) 0%N) with 0%N; [apply tb_0|].
    destruct (Nat.lt_ge_cases (i / 64) s).
    - symmetry. apply (repeat_spec s). apply nth_In. now rewrite repeat_length.
    - rewrite nth_overflow by (rewrite repeat_length; assumption). reflexivity.
  Qed.
  Lemma row_rotated_0 d : row_rotated 0 d d.
  Proof. intros i Hi. unfold rowbit. destruct (Nat.ltb_spec (i mod (2 * ch)) (2 * 0)); [lia|]. f_equal. lia. Qed.

  (** writing a word at its place *)
  Lemma write_one out a o y : length out = s -> Forall small out -> a < s -> small y -> o < 64 -> (forall j, 64 <= o + j -> tb y j = false) ->
    let out' := upd a (fun x => N.lor x (shl_in y o)) out in
    length out' = s /\ Forall small out' /\ forall i, bit out' i = bit out i || ((64 * a + o <=? i) && tb y (i - (64 * a + o))).
  Proof.
    intros L So Ha Sy Ho Hy. cbn zeta. split; [now rewrite upd_length|].
    split; [apply upd_small; [exact So|]; intros; apply small_lor; [assumption|apply small_shl]|].
    intros i. destruct (bit_split i) as [b [j [-> Hj]]]. rewrite !bit_slide by exact Hj. rewrite at_upd by lia.
    destruct (Nat.eqb_spec b a) as [->|Nb].
    - rewrite tb_lor, tb_shl. f_equal. destruct (Nat.ltb_spec j 64); [|lia]. cbn [andb].
      destruct (Nat.leb_spec o j); destruct (Nat.leb_spec (64 * a + o) (64 * a + j)); try lia; cbn [andb]; try reflexivity. f_equal. lia.
    - destruct (Nat.leb_spec (64 * a + o) (64 * b + j)); cbn [andb]; [|now rewrite orb_false_r].
      rewrite Hy by lia. now rewrite orb_false_r.
  Qed.

  (** one slide *)
  Lemma extract_1_correct d c : s = 1 -> packed h d -> c < rw -> exists x, extract_1 wide h d c = SOk x /\ col_word d c x.
  Proof.
    intros S1 Pd Hcc. apply packed_bits in Pd. destruct Pd as (Ld & Sd & Od). unfold extract_1. fold ch.
    pose proof (col_in c Hcc). pose proof n_fits. pose proof ch_pos. rewrite shr_value by lia. cbn [sbind]. eexists. split; [reflexivity|].
    assert (S0 : small (at_slide d 0)) by now apply small_at.
    split; [now apply small_land, small_shr|]. intros j. rewrite tb_land, tb_shr, tb_colmask, andb_comm. f_equal.
    destruct (Nat.lt_ge_cases (j + c * ch * 2) 64).
    - replace (2 * (c * ch) + j) with (64 * 0 + (j + c * ch * 2)) by lia. now rewrite bit_slide.
    - rewrite tb_small by assumption. fold s in Ld. rewrite bit_overflow by lia. reflexivity.
  Qed.
  Lemma row_1_correct d offset : s = 1 -> packed h d ->
    exists e, row_1 wide h d offset = SOk e /\ packed h e /\ row_rotated (offset mod ch) d e.
  Proof.
    intros S1 Pd. unfold row_1. fold ch rw. pose proof ch_pos. pose proof (Nat.mod_upper_bound offset ch ltac:(lia)) as Hk.
    set (k := offset mod ch) in *. destruct (Nat.eqb_spec k 0) as [E|E].
    - exists d. rewrite E. split; [reflexivity|]. split; [exact Pd|]. apply row_rotated_0.
    - destruct (columns_seq k d (fun c out => sbind (extract_1 wide h d c) (fun word =>
           sbind (rotate wide h word (2 * N.of_nat k) (sub64 (N.of_nat ch * 2) (2 * N.of_nat k))) (fun word1 =>
           sbind (shl wide word1 (N.of_nat (c * ch * 2))) (fun x => SOk (upd 0 (N.lor x) out))))) rw 0 [0%N]) as [e [Ee De]].
      + pose proof (empty_done k d) as D. rewrite S1 in D. exact D.
      + intros c out Hcc D. destruct (extract_1_correct d c S1 Pd Hcc) as [x [-> Cx]]. cbn [sbind].
        destruct (rotate_correct d c x k Cx ltac:(lia) ltac:(lia) ltac:(lia)) as [y [Ey Ry]]. fold ch in Ey. rewrite Ey. cbn [sbind].
        pose proof (col_in c Hcc). pose proof n_fits. rewrite shl_value by lia. cbn [sbind]. eexists. split; [reflexivity|].
        destruct D as (L & So & Ho). pose proof Ry as [Sy Hy].
        destruct (write_one out 0 (c * ch * 2) y L So ltac:(lia) Sy ltac:(lia)) as (A & B & C).
        { intros j Hj. rewrite Hy. destruct (Nat.ltb_spec j (2 * ch)); [lia|reflexivity]. }
        assert (U : upd 0 (N.lor (shl_in y (c * ch * 2))) out = upd 0 (fun x => N.lor x (shl_in y (c * ch * 2))) out).
        { destruct out; cbn; [reflexivity|]. now rewrite N.lor_comm. }
        rewrite U. apply (done_step k d c out _ y); auto; [split; auto|].
        intros i. rewrite C. replace (64 * 0 + c * ch * 2) with (2 * (c * ch)) by lia. reflexivity.
      + lia.
      + exists e. split; [exact Ee|]. now apply done_all.
  Qed.

  (** the position of a column on the slides *)
  Lemma place c : 2 * (c * ch) = 64 * first_slide h c + offset_one h c /\ offset_one h c < 64.
  Proof.
    unfold first_slide, offset_one, per_slide. fold ch. pose proof (Nat.div_mod (c * ch) 32 ltac:(lia)).
    pose proof (Nat.mod_upper_bound (c * ch) 32 ltac:(lia)). lia.
  Qed.
  Lemma straddle_iff c : (straddles h c = true /\ 64 < offset_one h c + 2 * ch /\ offset_two h c = offset_one h c + 2 * ch - 64)
                         \/ (straddles h c = false /\ offset_one h c + 2 * ch <= 64).
  Proof.
    unfold straddles. unfold offset_two, offset_one, per_slide. fold ch. pose proof ch_pos.
    replace ((c + 1) * ch) with (c * ch + ch) by lia.
    pose proof (Nat.div_mod (c * ch) 32 ltac:(lia)) as D1. pose proof (Nat.mod_upper_bound (c * ch) 32 ltac:(lia)).
    pose proof (Nat.div_mod (c * ch + ch) 32 ltac:(lia)) as D2. pose proof (Nat.mod_upper_bound (c * ch + ch) 32 ltac:(lia)).
    set (r1 := (c * ch) mod 32) in *. set (r2 := (c * ch + ch) mod 32) in *.
    set (q1 := (c * ch) / 32) in *. set (q2 := (c * ch + ch) / 32) in *.
    destruct (Nat.leb_spec (2 * r2) (2 * r1)); destruct (Nat.eqb_spec (2 * r2) 0); cbn [andb negb]; try (right; split; [reflexivity|lia]).
    left. split; [reflexivity|]. lia.
  Qed.
  Lemma remainder_value c : straddles h c = true -> remainder_bits h c = N.of_nat (64 - offset_one h c).
  Proof.
    intros E. destruct (straddle_iff c) as [(A & B & C)|[A B]]; [|congruence]. unfold remainder_bits. fold ch.
    pose proof (place c) as [_ P].
    assert (Ev : exists m, offset_one h c = 2 * m) by (eexists; reflexivity). destruct Ev as [m Em].
    assert (E2 : offset_two h c / 2 = m + ch - 32).
    { rewrite C, Em. replace (2 * m + 2 * ch - 64) with ((m + ch - 32) * 2) by lia. apply Nat.div_mul. lia. }
    rewrite E2. rewrite sub64_value by (try lia; unfold two64; lia). rewrite N.mod_small by (unfold two64; lia). lia.
  Qed.
  Lemma extract_n_correct d c : packed h d -> c < rw -> exists x, extract_n wide h d c = SOk x /\ col_word d c x.
  Proof.
    intros Pd Hcc. apply packed_bits in Pd. destruct Pd as (Ld & Sd & Od). fold s in Ld. unfold extract_n.
    pose proof (place c) as [P Q]. pose proof ch_pos.
    rewrite shr_value by lia. cbn [sbind].
    set (a := first_slide h c) in *. set (o := offset_one h c) in *.
    assert (Sa : small (at_slide d a)) by now apply small_at. assert (Sb : small (at_slide d (a + 1))) by now apply small_at.
    destruct (straddle_iff c) as [(E & B & C)|[E B]]; rewrite E.
    - fold o in B, C. destruct (mask_bits_value wide (offset_two h c) ltac:(lia)) as [m [-> [Sm Hm]]]. cbn [sbind].
      rewrite remainder_value by exact E. fold o. assert (o <> 0) by lia. rewrite shl_value by lia. cbn [sbind].
      eexists. split; [reflexivity|]. split; [apply small_lor; [now apply small_land, small_shr|apply small_shl]|].
      intros j. rewrite tb_lor, tb_land, tb_shr, tb_colmask, tb_shl, tb_land, Hm.
      replace (2 * (c * ch) + j) with (64 * a + (o + j)) by lia.
      destruct (Nat.ltb_spec j (2 * ch)).
      + rewrite andb_true_r. cbn [andb]. destruct (Nat.ltb_spec j 64); [|lia]. cbn [andb].
        destruct (Nat.leb_spec (64 - o) j); cbn [andb].
        * rewrite tb_small by (try assumption; lia). cbn [orb].
          destruct (Nat.ltb_spec (j - (64 - o)) (offset_two h c)); [|lia]. rewrite andb_true_r.
          replace (64 * a + (o + j)) with (64 * (a + 1) + (j - (64 - o))) by lia. now rewrite bit_slide by lia.
        * rewrite orb_false_r. rewrite bit_slide by lia. f_equal. lia.
      + rewrite andb_false_r. cbn [andb orb]. destruct (Nat.leb_spec (64 - o) j); cbn [andb]; [|now rewrite andb_false_r].
        destruct (Nat.ltb_spec (j - (64 - o)) (offset_two h c)); [lia|]. now rewrite !andb_false_r.
    - fold o in B. eexists. split; [reflexivity|]. split; [now apply small_land, small_shr|].
      intros j. rewrite tb_land, tb_shr, tb_colmask, andb_comm. destruct (Nat.ltb_spec j (2 * ch)); cbn [andb]; [|reflexivity].
      replace (2 * (c * ch) + j) with (64 * a + (o + j)) by lia. rewrite bit_slide by lia. f_equal. lia.
  Qed.

  Lemma row_n_correct d offset : packed h d -> offset mod rw <= ch -> offset mod rw < 32 ->
    exists e, row_n wide h d offset = SOk e /\ packed h e /\ row_rotated (offset mod rw) d e.
  Proof.
    intros Pd Hk Hk2. unfold row_n. fold ch rw. pose proof ch_pos.
    set (k := offset mod rw) in *. destruct (Nat.eqb_spec k 0) as [E|E].
    - exists d. rewrite E. split; [reflexivity|]. split; [exact Pd|]. apply row_rotated_0.
    - match goal with |- exists e, columns ?f _ _ = _ /\ _ => destruct (columns_seq k d f rw 0 (repeat 0%N s)) as [e [Ee De]] end.
      + apply empty_done.
      + intros c out Hcc D. destruct (extract_n_correct d c Pd Hcc) as [x [-> Cx]]. cbn [sbind].
        destruct (rotate_correct d c x k Cx ltac:(lia) ltac:(lia) ltac:(lia)) as [y [Ey Ry]]. fold ch in Ey. rewrite Ey. cbn [sbind].
        pose proof (col_in c Hcc). pose proof n_fits. pose proof (place c) as [P Q]. rewrite shl_value by lia. cbn [sbind].
        set (a := first_slide h c) in *. set (o := offset_one h c) in *.
        pose proof D as (L & So & Ho). pose proof Ry as [Sy Hy]. assert (Ha : a < s) by lia.
        destruct (straddle_iff c) as [(Es & B & C)|[Es B]]; rewrite Es; fold o in B; try fold o in C.
        * rewrite remainder_value by exact Es. fold o. assert (o <> 0) by lia. rewrite shr_value by lia. cbn [sbind].
          eexists. split; [reflexivity|]. apply (done_step k d c out _ y); auto.
          -- now rewrite !upd_length.
          -- apply upd_small; [apply upd_small; [exact So|intros; apply small_lor; [assumption|apply small_shl]]|].
             intros. now apply small_shr.
          -- intros i. destruct (bit_split i) as [b [j [-> Hj]]]. rewrite !bit_slide by exact Hj.
             rewrite at_upd by (rewrite upd_length; lia).
             destruct (Nat.eqb_spec b (a + 1)) as [->|Nb].
             ++ rewrite tb_shr. rewrite <- (bit_slide out) by exact Hj. rewrite Ho.
                destruct (Nat.ltb_spec (64 * (a + 1) + j) (2 * (c * ch))); [lia|]. cbn [andb orb].
                destruct (Nat.leb_spec (2 * (c * ch)) (64 * (a + 1) + j)); [|lia]. cbn [andb]. f_equal. lia.
             ++ rewrite at_upd by lia. destruct (Nat.eqb_spec b a) as [->|Nb2].
                ** rewrite tb_lor, tb_shl. f_equal. destruct (Nat.ltb_spec j 64); [|lia]. cbn [andb].
                   destruct (Nat.leb_spec o j); destruct (Nat.leb_spec (2 * (c * ch)) (64 * a + j)); try lia; cbn [andb]; try reflexivity.
                   f_equal. lia.
                ** destruct (Nat.leb_spec (2 * (c * ch)) (64 * b + j)); cbn [andb]; [|now rewrite orb_false_r].
                   rewrite Hy. destruct (Nat.ltb_spec (64 * b + j - 2 * (c * ch)) (2 * ch)); [lia|]. cbn [andb]. now rewrite orb_false_r.
        * eexists. split; [reflexivity|]. destruct (write_one out a o y L So Ha Sy Q) as (A1 & A2 & A3).
          { intros j Hj. rewrite Hy. destruct (Nat.ltb_spec j (2 * ch)); [lia|reflexivity]. }
          apply (done_step k d c out _ y); auto. intros i. rewrite A3, P. reflexivity.
      + lia.
      + exists e. split; [exact Ee|]. now apply done_all.
  Qed.

  (** two slides *)
  Section Two.
    Hypothesis S2 : s = 2.
    Hypothesis Hw : 32 mod ch <> 0 \/ benign wide.
    Let wc := 32 / ch.
    Lemma wc_le : wc * ch <= 32 < wc * ch + ch.
    Proof. clear Hw. unfold wc. pose proof ch_pos. pose proof (Nat.div_mod 32 ch ltac:(lia)). pose proof (Nat.mod_upper_bound 32 ch ltac:(lia)). lia. Qed.
    Lemma wc_rw : wc < rw.
    Proof. clear Hw. destruct Hh as (_ & B & _). fold n s in B. rewrite S2, n_eq in B. pose proof wc_le. nia. Qed.
    Lemma wc_pos : 0 < wc.
    Proof. clear Hw. pose proof wc_le. pose proof ch_pos. nia. Qed.

    Lemma two_bits d : packed h d -> small (at_slide d 0) /\ small (at_slide d 1) /\
      (forall i, i < 64 -> bit d i = tb (at_slide d 0) i) /\ (forall i, 64 <= i -> bit d i = tb (at_slide d 1) (i - 64)).
    Proof.
      clear Hw. intros Pd. apply packed_bits in Pd. destruct Pd as (Ld & Sd & Od). fold s in Ld. rewrite S2 in Ld.
      assert (S0 : small (at_slide d 0)) by now apply small_at. assert (S1 : small (at_slide d 1)) by now apply small_at.
      repeat split; auto.
      - intros i Hi. apply (bit_slide d 0). exact Hi.
      - intros i Hi. destruct (Nat.lt_ge_cases i 128).
        + replace i with (64 * 1 + (i - 64)) at 1 by lia. apply bit_slide. lia.
        + rewrite bit_overflow by lia. rewrite tb_small by (try assumption; lia). reflexivity.
    Qed.

    Lemma not64_tb x j : small x -> tb (not64 x) j = (j <? 64) && negb (tb x j).
    Proof.
      intros Sx. unfold not64, tb. rewrite N.lxor_spec. fold (tb x j). change (N.testbit (N.ones 64) (N.of_nat j)) with (tb (N.ones (N.of_nat 64)) j). rewrite (tb_ones 64 j).
      destruct (Nat.ltb_spec j 64); cbn [andb]; [apply xorb_true_r|]. rewrite tb_small by assumption. reflexivity.
    Qed.

    Lemma boundary_correct : exists b, make_boundary wide ch = SOk b /\ wrap_column b = wc /\
      (forall d, packed h d -> exists x, evaluate wide b d = SOk x /\ col_word d wc x) /\
      (forall k d out y, done_cols k d wc out -> rot_word k d wc y -> exists out', splice_in wide b out y = SOk out' /\ done_cols k d (S wc) out').
    Proof.
      pose proof wc_le as W. pose proof wc_pos. pose proof ch_pos. unfold make_boundary, per_slide.
      assert (El : 32 mod ch = 32 - wc * ch).
      { pose proof (Nat.div_mod 32 ch ltac:(lia)) as D. fold wc in D. nia. }
      destruct (Nat.ltb_spec 0 (32 mod ch)) as [Hl|Hl].
      - rewrite El in *. destruct (mask_bits_value wide (2 * (32 - (32 - wc * ch)))) as [m [-> [Sm Hm]]]; [nia|]. cbn [sbind].
        unfold mask_qubits. destruct (mask_bits_value wide (2 * (ch - (32 - wc * ch)))) as [r [-> [Sr Hr]]]; [lia|]. cbn [sbind].
        eexists. split; [reflexivity|]. split; [reflexivity|].
        replace (2 * (32 - (32 - wc * ch))) with (2 * (wc * ch)) in * by lia.
        set (p := 2 * (wc * ch)) in *. assert (Hp : 0 < p < 64) by nia. replace (2 * (32 - wc * ch)) with (64 - p) by lia.
        assert (Hrw : forall j, tb r j = (64 - p + j <? 2 * ch)).
        { intros j. rewrite Hr. destruct (Nat.ltb_spec j (2 * (ch - (32 - wc * ch)))); destruct (Nat.ltb_spec (64 - p + j) (2 * ch)); try lia; reflexivity. }
        assert (Hnm : forall j, tb (not64 m) j = (j <? 64) && (p <=? j)).
        { intros j. rewrite not64_tb by exact Sm. rewrite Hm. f_equal. destruct (Nat.ltb_spec j p); destruct (Nat.leb_spec p j); try lia; reflexivity. }
        split.
        + intros d Pd. destruct (two_bits d Pd) as (D0 & D1 & B0 & B1). unfold evaluate. cbn [lhs_mask lhs_anti rhs_mask rhs_offset].
          rewrite shr_value by lia. cbn [sbind]. rewrite shl_value by lia. cbn [sbind]. eexists. split; [reflexivity|].
          split; [apply small_lor; [apply small_shr; now apply small_land|apply small_shl]|].
          intros j. rewrite tb_lor, tb_shr, tb_shl, !tb_land, Hnm, Hrw. fold p.
          destruct (Nat.ltb_spec j (2 * ch)); cbn [andb].
          * destruct (Nat.ltb_spec j 64); [|lia]. cbn [andb]. destruct (Nat.leb_spec (64 - p) j); cbn [andb].
            -- destruct (Nat.ltb_spec (j + p) 64); [lia|]. cbn [andb]. rewrite andb_false_r. cbn [orb].
               destruct (Nat.ltb_spec (64 - p + (j - (64 - p))) (2 * ch)); [|lia]. rewrite andb_true_r. rewrite B1 by lia. f_equal. lia.
            -- rewrite orb_false_r. destruct (Nat.ltb_spec (j + p) 64); [|lia]. destruct (Nat.leb_spec p (j + p)); [|lia]. cbn [andb].
               rewrite andb_true_r. rewrite B0 by lia. f_equal. lia.
          * destruct (Nat.ltb_spec (j + p) 64); [lia|]. cbn [andb]. rewrite andb_false_r. cbn [orb].
            destruct (Nat.leb_spec (64 - p) j); cbn [andb]; [|now rewrite andb_false_r].
            destruct (Nat.ltb_spec (64 - p + (j - (64 - p))) (2 * ch)); [lia|]. now rewrite !andb_false_r.
        + intros k d out y D Ry. pose proof D as (L & So & Ho). pose proof Ry as [Sy Hy]. unfold splice_in. cbn [lhs_mask lhs_anti rhs_mask rhs_offset].
          rewrite shl_value by lia. cbn [sbind]. rewrite shr_value by lia. cbn [sbind]. eexists. split; [reflexivity|].
          apply (done_step k d wc out _ y); auto.
          * now rewrite !upd_length.
          * apply upd_small; [apply upd_small; [exact So|]|]; intros; apply small_lor; auto.
            -- apply small_land, small_shl.
            -- now apply small_land, small_shr.
          * intros i. fold p. rewrite S2 in L. destruct (bit_split i) as [b [j [-> Hj]]]. rewrite !bit_slide by exact Hj.
            rewrite at_upd by (rewrite upd_length; lia). rewrite at_upd by lia.
            destruct (Nat.eqb_spec b 1) as [->|N1]; [|destruct (Nat.eqb_spec b 0) as [->|N0]].
            -- cbn [Nat.eqb]. rewrite tb_lor, tb_land, tb_shr, Hrw. f_equal. destruct (Nat.leb_spec p (64 * 1 + j)); [|lia]. cbn [andb].
               replace (64 * 1 + j - p) with (j + (64 - p)) by lia. rewrite Hy.
               destruct (Nat.ltb_spec (j + (64 - p)) (2 * ch)); destruct (Nat.ltb_spec (64 - p + j) (2 * ch)); try lia; cbn [andb]; auto using andb_true_r.
            -- rewrite tb_lor, tb_land, tb_shl, Hnm. f_equal. destruct (Nat.ltb_spec j 64); [|lia]. cbn [andb].
               replace (64 * 0 + j) with j by lia. destruct (Nat.leb_spec p j); cbn [andb]; [now rewrite andb_true_r|reflexivity].
            -- rewrite Hy. destruct (Nat.leb_spec p (64 * b + j)); cbn [andb]; [|now rewrite orb_false_r].
               destruct (Nat.ltb_spec (64 * b + j - p) (2 * ch)); [|cbn [andb]; now rewrite orb_false_r]. exfalso. lia.
      - assert (Ea : 32 mod ch = 0) by lia. destruct Hw as [Hw'|[Hw1 Hw2]]; [contradiction|].
        unfold mask_qubits. destruct (mask_bits_value wide (2 * ch)) as [r [-> [Sr Hr]]]; [lia|]. cbn [sbind].
        eexists. split; [reflexivity|]. split; [reflexivity|].
        assert (Hp : 2 * (wc * ch) = 64) by lia. split.
        + intros d Pd. destruct (two_bits d Pd) as (D0 & D1 & B0 & B1). unfold evaluate. cbn [lhs_mask lhs_anti rhs_mask rhs_offset].
          rewrite N.land_0_r. unfold shr at 1. change (64 <? 64)%N with false. cbn [sbind]. rewrite Hw2. cbn [sbind].
          rewrite (shl_value wide (N.land (at_slide d 1) r) 0 ltac:(lia) : shl wide (N.land (at_slide d 1) r) 0%N = _). cbn [sbind]. eexists. split; [reflexivity|].
          split; [apply small_lor; [exact small_0|apply small_shl]|].
          intros j. rewrite tb_lor, tb_0, tb_shl, tb_land, Hr, Hp. cbn [orb]. rewrite Nat.sub_0_r. cbn [Nat.leb andb].
          rewrite B1 by lia. replace (64 + j - 64) with j by lia.
          destruct (Nat.ltb_spec j (2 * ch)); [|now rewrite !andb_false_r].
          destruct (Nat.ltb_spec j 64); [|lia]. now rewrite andb_true_r.
        + intros k d out y D Ry. pose proof D as (L & So & Ho). pose proof Ry as [Sy Hy]. unfold splice_in. cbn [lhs_mask lhs_anti rhs_mask rhs_offset].
          unfold shl at 1. change (64 <? 64)%N with false. cbn [sbind]. destruct (Hw1 true y 64%N) as [z [Sz ->]]. cbn [sbind].
          rewrite (shr_value wide y 0 ltac:(lia) : shr wide y 0%N = _). cbn [sbind]. eexists. split; [reflexivity|].
          apply (done_step k d wc out _ y); auto.
          * now rewrite !upd_length.
          * apply upd_small; [apply upd_small; [exact So|]|]; intros; apply small_lor; auto.
            -- apply small_land. exact Sz.
            -- now apply small_land, small_shr.
          * intros i. rewrite Hp. rewrite S2 in L. destruct (bit_split i) as [b [j [-> Hj]]]. rewrite !bit_slide by exact Hj.
            rewrite at_upd by (rewrite upd_length; lia). rewrite at_upd by lia.
            destruct (Nat.eqb_spec b 1) as [->|N1]; [|destruct (Nat.eqb_spec b 0) as [->|N0]].
            -- cbn [Nat.eqb]. rewrite tb_lor, tb_land, tb_shr, Hr. f_equal. destruct (Nat.leb_spec 64 (64 * 1 + j)); [|lia]. cbn [andb].
               replace (64 * 1 + j - 64) with j by lia. rewrite Nat.add_0_r, !Hy. destruct (Nat.ltb_spec j (2 * ch)); cbn [andb]; auto using andb_true_r.
            -- rewrite tb_lor, N.land_0_r, tb_0. f_equal. destruct (Nat.leb_spec 64 (64 * 0 + j)); [lia|reflexivity].
            -- rewrite Hy. destruct (Nat.leb_spec 64 (64 * b + j)); cbn [andb]; [|now rewrite orb_false_r].
               destruct (Nat.ltb_spec (64 * b + j - 64) (2 * ch)); [lia|]. cbn [andb]. now rewrite orb_false_r.
    Qed.

    Lemma zero_slide x : N.eqb x 0 = true -> forall j, tb x j = false.
    Proof. intros E j. apply N.eqb_eq in E. subst. apply tb_0. Qed.

    Lemma row_2_correct d offset : packed h d ->
      exists e, row_2 wide h d offset = SOk e /\ packed h e /\ row_rotated (offset mod ch) d e.
    Proof.
      intros Pd. unfold row_2. fold ch rw. pose proof ch_pos. pose proof (Nat.mod_upper_bound offset ch ltac:(lia)) as Hk.
      set (k := offset mod ch) in *. destruct (Nat.eqb_spec k 0) as [E|E].
      - exists d. rewrite E. split; [reflexivity|]. split; [exact Pd|]. apply row_rotated_0.
      - destruct boundary_correct as (b & -> & Wb & Ev & Sp). cbn [sbind]. rewrite Wb.
        destruct (two_bits d Pd) as (D0 & D1 & B0 & B1). pose proof wc_le as W. pose proof wc_rw as Wr. pose proof n_fits as Nf.
        assert (E0 : done_cols k d 0 [0%N; 0%N]) by (pose proof (empty_done k d) as D; rewrite S2 in D; exact D).
        (* left columns *)
        match goal with |- context [if _ then SOk [0%N; 0%N] else columns ?f _ _] => set (fl := f) end.
        assert (Left : exists out, (if N.eqb (at_slide d 0) 0 then SOk [0%N; 0%N] else columns fl (seq 0 wc) [0%N; 0%N]) = SOk out /\ done_cols k d wc out).
        { destruct (N.eqb (at_slide d 0) 0) eqn:Z.
          - exists [0%N; 0%N]. split; [reflexivity|]. destruct E0 as (L & So & Ho). split; [exact L|]. split; [exact So|].
            intros i. replace (bit [0%N; 0%N] i) with false by (rewrite Ho; reflexivity). destruct (Nat.ltb_spec i (2 * (wc * ch))); [|reflexivity]. cbn [andb].
            unfold rowbit. pose proof (zero_slide _ Z) as Zb.
            assert (Hi : i + 2 * ch <= 2 * (wc * ch) + i mod (2 * ch)).
            { pose proof (Nat.div_mod i (2 * ch) ltac:(lia)) as Dm. pose proof (Nat.mod_upper_bound i (2 * ch) ltac:(lia)).
              assert (i / (2 * ch) < wc) by (apply Nat.div_lt_upper_bound; nia). nia. }
            destruct (Nat.ltb_spec (i mod (2 * ch)) (2 * k)).
            + rewrite B0 by lia. now rewrite Zb.
            + rewrite B0 by lia. now rewrite Zb.
          - apply (columns_seq_upto k d fl wc 0 [0%N; 0%N] wc E0); [|lia].
            intros c out Hcc D. unfold fl. assert (Lc : c * ch + ch <= 32) by nia.
            rewrite shr_value by lia. cbn [sbind].
            assert (Cx : col_word d c (N.land (shr_in (at_slide d 0) (c * ch * 2)) (h_mask h))).
            { split; [now apply small_land, small_shr|]. intros j. rewrite tb_land, tb_shr, tb_colmask, andb_comm.
              destruct (Nat.ltb_spec j (2 * ch)); cbn [andb]; [|reflexivity]. rewrite B0 by lia. f_equal. lia. }
            destruct (rotate_correct d c _ k Cx ltac:(lia) ltac:(lia) ltac:(lia)) as [y [Ey Ry]]. fold ch in Ey. rewrite Ey. cbn [sbind].
            rewrite shl_value by lia. cbn [sbind]. eexists. split; [reflexivity|].
            pose proof D as (L & So & Ho). pose proof Ry as [Sy Hy].
            destruct (write_one out 0 (c * ch * 2) y L So ltac:(lia) Sy ltac:(lia)) as (A1 & A2 & A3).
            { intros j Hj. rewrite Hy. destruct (Nat.ltb_spec j (2 * ch)); [lia|reflexivity]. }
            apply (done_step k d c out _ y); auto. intros i. rewrite A3. replace (64 * 0 + c * ch * 2) with (2 * (c * ch)) by lia. reflexivity. }
        destruct Left as [out1 [-> Do1]]. cbn [sbind].
        (* middle *)
        destruct (Ev d Pd) as [x [-> Cx]]. cbn [sbind].
        destruct (rotate_correct d wc x k Cx ltac:(lia) ltac:(lia) ltac:(lia)) as [y [Ey Ry]]. fold ch in Ey. rewrite Ey. cbn [sbind].
        destruct (Sp k d out1 y Do1 Ry) as [out2 [-> Do2]]. cbn [sbind].
        (* right columns *)
        match goal with |- context [columns ?f _ _] => set (fr := f) end.
        assert (Right : exists e, (if N.eqb (at_slide d 1) 0 then SOk out2 else columns fr (seq (wc + 1) (rw - (wc + 1))) out2) = SOk e /\ done_cols k d rw e).
        { destruct (N.eqb (at_slide d 1) 0) eqn:Z.
          - exists out2. split; [reflexivity|]. destruct Do2 as (L & So & Ho). split; [exact L|]. split; [exact So|].
            intros i. rewrite Ho. replace (S wc * ch) with (wc * ch + ch) by lia.
            destruct (Nat.ltb_spec i (2 * (wc * ch + ch))).
            + destruct (Nat.ltb_spec i (2 * (rw * ch))); [reflexivity|]. exfalso. nia.
            + cbn [andb]. destruct (Nat.ltb_spec i (2 * (rw * ch))); [|reflexivity]. cbn [andb]. unfold rowbit.
              pose proof (zero_slide _ Z) as Zb.
              assert (Hi : 2 * (wc * ch + ch) + i mod (2 * ch) <= i).
              { pose proof (Nat.div_mod i (2 * ch) ltac:(lia)) as Dm. 
                assert (wc + 1 <= i / (2 * ch)) by (apply Nat.div_le_lower_bound; nia). nia. }
              destruct (Nat.ltb_spec (i mod (2 * ch)) (2 * k)); rewrite B1 by lia; now rewrite Zb.
          - assert (Q : exists e, columns fr (seq (wc + 1) (rw - (wc + 1))) out2 = SOk e /\ done_cols k d (wc + 1 + (rw - (wc + 1))) e).
            { apply (columns_seq_from k d fr (rw - (wc + 1)) (wc + 1) out2 (wc + 1)).
              - replace (wc + 1) with (S wc) by lia. exact Do2.
              - intros c out Hlo Hcc D. unfold fr. assert (Lc : 32 <= c * ch) by nia.
                pose proof (col_in c Hcc). rewrite S2 in Nf.
                replace 64%N with (N.of_nat 64) by reflexivity. rewrite !sub64_value by (try lia; unfold two64; lia).
                rewrite shr_value by lia. cbn [sbind].
                assert (Cy : col_word d c (N.land (shr_in (at_slide d 1) (c * ch * 2 - 64)) (h_mask h))).
                { split; [now apply small_land, small_shr|]. intros j. rewrite tb_land, tb_shr, tb_colmask, andb_comm.
                  destruct (Nat.ltb_spec j (2 * ch)); cbn [andb]; [|reflexivity]. rewrite B1 by lia. f_equal. lia. }
                destruct (rotate_correct d c _ k Cy ltac:(lia) ltac:(lia) ltac:(lia)) as [z [Ez Rz]]. fold ch in Ez. rewrite Ez. cbn [sbind].
                rewrite shl_value by lia. cbn [sbind]. eexists. split; [reflexivity|].
                pose proof D as (L & So & Ho). pose proof Rz as [Sz Hz].
                destruct (write_one out 1 (c * ch * 2 - 64) z L So ltac:(lia) Sz ltac:(lia)) as (A1 & A2 & A3).
                { intros j Hj. rewrite Hz. destruct (Nat.ltb_spec j (2 * ch)); [lia|reflexivity]. }
                apply (done_step k d c out _ z); auto. intros i. rewrite A3. replace (64 * 1 + (c * ch * 2 - 64)) with (2 * (c * ch)) by lia. reflexivity.
              - lia.
              - lia. }
            destruct Q as [e [Ee De]]. exists e. split; [exact Ee|]. replace (wc + 1 + (rw - (wc + 1))) with rw in De by lia. exact De. }
        destruct Right as [e [Ee De]]. exists e. split; [exact Ee|]. now apply done_all.
    Qed.

    Lemma extract_2_correct d c : packed h d -> c < rw -> exists x, extract_2 wide h d c = SOk x /\ col_word d c x.
    Proof.
      intros Pd Hcc. unfold extract_2. fold ch. destruct boundary_correct as (b & -> & Wb & Ev & Sp). cbn [sbind]. rewrite Wb.
      destruct (two_bits d Pd) as (D0 & D1 & B0 & B1). pose proof wc_le as W. pose proof n_fits as Nf. rewrite S2 in Nf. pose proof (col_in c Hcc).
      destruct (Nat.ltb_spec c wc).
      - assert (Lc : c * ch + ch <= 32) by nia. rewrite shr_value by lia. cbn [sbind]. eexists. split; [reflexivity|].
        split; [now apply small_land, small_shr|]. intros j. rewrite tb_land, tb_shr, tb_colmask, andb_comm.
        destruct (Nat.ltb_spec j (2 * ch)); cbn [andb]; [|reflexivity]. rewrite B0 by lia. f_equal. lia.
      - destruct (Nat.ltb_spec wc c).
        + assert (Lc : 32 <= c * ch) by nia. replace 64%N with (N.of_nat 64) by reflexivity.
          rewrite sub64_value by (try lia; unfold two64; lia). pose proof ch_pos. rewrite shr_value by lia. cbn [sbind]. eexists. split; [reflexivity|].
          split; [now apply small_land, small_shr|]. intros j. rewrite tb_land, tb_shr, tb_colmask, andb_comm.
          destruct (Nat.ltb_spec j (2 * ch)); cbn [andb]; [|reflexivity]. rewrite B1 by lia. f_equal. lia.
        + assert (c = wc) as -> by lia. now apply Ev.
    Qed.
  End Two.
End Rows.
