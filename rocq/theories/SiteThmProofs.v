(** Further statements about hashers and the wrapping simplifiers. *)
From Coq Require Import List NArith ZArith Arith Bool Lia Sorted.
From Verif Require Import CoreModel SiteModel SiteSpec SiteBitProofs SiteShiftProofs SiteRowProofs SiteWordProofs SiteCanonProofs SiteFinalProofs.
Import ListNotations.

(** construction *)
Lemma mask_qubits_value wide m : 0 < m <= 32 -> mask_qubits wide m = SOk (4 ^ N.of_nat m - 1)%N.
Proof.
  intros H. unfold mask_qubits. destruct (mask_bits_value wide (2 * m) ltac:(lia)) as (x & -> & _ & T). f_equal.
  apply tb_ext. intros j. now rewrite T, tb_mask4.
Qed.
Lemma mask_qubits_any wide m : benign wide -> exists x, mask_qubits wide m = SOk x.
Proof.
  intros [B _]. unfold mask_qubits, mask_bits. destruct (Nat.eqb (2 * m) 64 || Nat.eqb (2 * m) 0); [eauto|].
  unfold shl. destruct (N.of_nat (2 * m) <? 64)%N; [cbn [sbind]; eauto|]. destruct (B true 1%N (N.of_nat (2 * m))) as (y & _ & ->). cbn [sbind]. eauto.
Qed.
Lemma last_count_value n s : 0 < n -> n <= 32 * s < n + 32 -> last_count n = n - 32 * (s - 1) /\ 0 < last_count n <= 32.
Proof.
  intros Hn Hs. unfold last_count, per_slide. destruct (Nat.eqb_spec n 0); [lia|].
  assert (E : (n - 1) mod 32 = n - 1 - 32 * (s - 1)) by (symmetry; apply (Nat.mod_unique _ 32 (s - 1)); lia).
  rewrite E. lia.
Qed.
Lemma slides_for_value n : 0 < n -> n <= 32 * slides_for n < n + 32.
Proof.
  intros Hn. unfold slides_for, per_slide. pose proof (Nat.div_mod n 32 ltac:(lia)) as D. pose proof (Nat.mod_upper_bound n 32 ltac:(lia)).
  destruct (Nat.eqb_spec (n mod 32) 0) as [E|E].
  - destruct (n / 32 + 0) as [|m] eqn:Em; lia.
  - destruct (n / 32 + 1) as [|m] eqn:Em; lia.
Qed.
Lemma construct_ok wide col row : 0 < col * row -> col <= 32 \/ benign wide ->
  exists h, make_hasher wide (slides_for (col * row)) col row = SOk h /\ hasher_ok h /\ h_col h = col /\ h_row h = row.
Proof.
  intros Hn Hc. pose proof (slides_for_value _ Hn) as Sl. destruct (last_count_value _ _ Hn Sl) as [L1 L2].
  assert (Hcol : 0 < col) by nia.
  unfold make_hasher. rewrite mask_qubits_value by exact L2. cbn [sbind].
  assert (M : exists m, mask_qubits wide col = SOk m /\ (col <= 32 -> m = (4 ^ N.of_nat col - 1)%N)).
  { destruct (Nat.le_gt_cases col 32) as [H|H].
    - exists (4 ^ N.of_nat col - 1)%N. split; [apply mask_qubits_value; lia|auto].
    - destruct Hc as [Hc|Hc]; [lia|]. destruct (mask_qubits_any wide col Hc) as [x E]. exists x. split; [exact E|lia]. }
  destruct M as (m & -> & Hm). cbn [sbind]. eexists. split; [reflexivity|]. split; [|split; reflexivity].
  unfold hasher_ok, h_qubits. cbn [h_col h_row h_slides h_final h_mask]. repeat split; auto; try lia. rewrite L1. reflexivity.
Qed.

(** order of hashes of words *)
Lemma less_words h w w' : hasher_ok h -> pauli_word (h_qubits h) w -> pauli_word (h_qubits h) w' ->
  exists d d', site_hash h w = SOk d /\ site_hash h w' = SOk d' /\
  (less d d' = true <-> exists q, q < h_qubits h /\ (letter w q < letter w' q)%N /\ forall t, q < t -> letter w t = letter w' t) /\
  (d = d' <-> w = w').
Proof.
  intros Hh W W'. destruct (site_hash_correct h w Hh W) as (d & E & P & L). destruct (site_hash_correct h w' Hh W') as (d' & E' & P' & L').
  exists d, d'. split; [exact E|]. split; [exact E'|]. split.
  - rewrite (less_sites h d d' P P'). split; intros (q & Hq & A & B); exists q.
    + rewrite <- L, <- L'. split; [exact Hq|]. split; [exact A|]. intros t Ht. rewrite <- L, <- L'. now apply B.
    + rewrite L, L'. split; [exact Hq|]. split; [exact A|]. intros t Ht. rewrite L, L'. now apply B.
  - split; intros Eq; [|congruence]. subst d'. apply (word_unique (h_qubits h)); auto. intros q _. now rewrite <- L, <- L'.
Qed.
Lemma unhash_hash h w : hasher_ok h -> pauli_word (h_qubits h) w -> sbind (site_hash h w) unhash = SOk w.
Proof.
  intros Hh W. destruct (site_hash_correct h w Hh W) as (d & -> & P & L). cbn [sbind].
  destruct (unhash_correct h d P) as (w0 & -> & W0 & L0). f_equal. apply (word_unique (h_qubits h)); auto. intros q _. now rewrite L0, L.
Qed.
Lemma hash_unhash h d : hasher_ok h -> packed h d -> sbind (unhash d) (site_hash h) = SOk d.
Proof.
  intros Hh P. destruct (unhash_correct h d P) as (w & -> & W & L). cbn [sbind].
  destruct (site_hash_correct h w Hh W) as (d' & -> & P' & L'). f_equal. apply (packed_ext h); auto. intros q _. now rewrite L', L.
Qed.

(** columns *)
Lemma extract_ok wide h d c : hasher_ok h -> h_col h <= 32 -> (h_slides h = 2 -> 32 mod h_col h <> 0 \/ benign wide) -> packed h d -> c < h_row h ->
  exists x, extract_column wide h d c = SOk x /\ (x < 4 ^ N.of_nat (h_col h))%N /\
            forall row, row < h_col h -> ((x / 4 ^ N.of_nat row) mod 4)%N = site d (c * h_col h + row).
Proof.
  intros Hh H32 Hw P Hc. pose proof (s_pos h Hh).
  assert (X : exists x, extract_column wide h d c = SOk x /\ col_word h d c x).
  { unfold extract_column. destruct (h_slides h) as [|[|[|s']]] eqn:Es; [lia| | |].
    - now apply extract_1_correct.
    - apply extract_2_correct; auto.
    - now apply extract_n_correct. }
  destruct X as (x & E & [Sx T]). exists x. split; [exact E|].
  assert (Bits : forall j, 2 * h_col h <= j -> tb x j = false).
  { intros j Hj. rewrite T. destruct (Nat.ltb_spec j (2 * h_col h)); [lia|reflexivity]. }
  split.
  - assert (Ex : x = (x mod 4 ^ N.of_nat (h_col h))%N).
    { rewrite pow4. replace (2 * N.of_nat (h_col h))%N with (N.of_nat (2 * h_col h)) by lia. apply tb_ext. intros j. rewrite tb_mod.
      destruct (Nat.ltb_spec j (2 * h_col h)); [reflexivity|]. now apply Bits. }
    rewrite Ex. apply N.mod_lt. apply N.pow_nonzero. discriminate.
  - intros row Hr. rewrite pow4, <- N.shiftr_div_pow2. rewrite nib_mod.
    replace (2 * N.of_nat row)%N with (N.of_nat (row * 2)) by lia. rewrite nib_shift, Nat.add_0_r.
    unfold nib. rewrite !T. rewrite site_bits. destruct (Nat.ltb_spec (2 * row) (2 * h_col h)); [|lia].
    destruct (Nat.ltb_spec (2 * row + 1) (2 * h_col h)); [|lia]. cbn [andb].
    replace (2 * (c * h_col h) + 2 * row) with (2 * (c * h_col h + row)) by lia.
    replace (2 * (c * h_col h) + (2 * row + 1)) with (2 * (c * h_col h + row) + 1) by lia. reflexivity.
Qed.

(** periods *)
Lemma alias_ok wide h d : hasher_ok h -> packed h d ->
  exists k, first_chain_alias wide h d = SOk k /\ 0 < k <= h_qubits h /\
    (forall q, q < h_qubits h -> site d ((q + k) mod h_qubits h) = site d q) /\
    forall j, 0 < j < k -> exists q, q < h_qubits h /\ site d ((q + j) mod h_qubits h) <> site d q.
Proof.
  intros Hh P. set (n := h_qubits h). assert (Hn : 0 < n) by apply Hh.
  assert (Step : forall j, j <= n -> exists e, cyclic_shift wide h d j = SOk e /\
            (datum_eqb d e = true <-> forall q, q < n -> site d ((q + j) mod n) = site d q)).
  { intros j Hj. destruct (cyclic_sites wide h Hh d j P ltac:(left; exact Hj)) as (e & E & Pe & S). exists e. split; [exact E|].
    rewrite datum_eqb_spec. split.
    - intros <- q Hq. now apply S.
    - intros H. apply (packed_ext h); auto. intros p Hp. fold n in Hp, S.
      destruct (mod_inv h j n Hn) as [g Hg]. destruct (Hg p Hp) as [_ I]. assert (Hq : (p + g) mod n < n) by (apply Nat.mod_upper_bound; lia).
      rewrite <- I. rewrite H, S by exact Hq. reflexivity. }
  assert (Loop : forall count offset, offset + count = n -> 0 < offset ->
            (forall j, 0 < j < offset -> exists q, q < n /\ site d ((q + j) mod n) <> site d q) ->
            exists k, alias_from wide h d offset count = SOk k /\ 0 < k <= n /\
              (forall q, q < n -> site d ((q + k) mod n) = site d q) /\
              forall j, 0 < j < k -> exists q, q < n /\ site d ((q + j) mod n) <> site d q).
  { induction count as [|count IH]; intros offset E Ho Hj; cbn [alias_from].
    - exists n. split; [reflexivity|]. split; [lia|]. split.
      + intros q Hq. f_equal. replace (q + n) with (q + 1 * n) by lia. rewrite Nat.mod_add by lia. now apply Nat.mod_small.
      + intros j Hj'. apply Hj. lia.
    - destruct (Step offset ltac:(lia)) as (e & -> & Eq). cbn [sbind]. destruct (datum_eqb d e) eqn:De.
      + exists offset. split; [reflexivity|]. split; [lia|]. split; [now apply Eq|exact Hj].
      + apply IH; [lia|lia|]. intros j Hj'. destruct (Nat.eq_dec j offset) as [->|Nj]; [|apply Hj; lia].
        assert (Dec : (forall q, q < n -> site d ((q + offset) mod n) = site d q) \/ exists q, q < n /\ site d ((q + offset) mod n) <> site d q).
        { clear. generalize n at 1 3. intros m. induction m as [|m IHm]; [left; intros; lia|].
          destruct IHm as [A|[q [B C]]]; [|right; exists q; split; [lia|exact C]].
          destruct (N.eq_dec (site d ((m + offset) mod n)) (site d m)) as [E|E].
          - left. intros q Hq. destruct (Nat.eq_dec q m) as [->|N]; [exact E|]. apply A. lia.
          - right. exists m. split; [lia|exact E]. }
        destruct Dec as [A|A]; [|exact A]. apply Eq in A. congruence. }
  apply (Loop (n - 1) 1); [lia|lia|]. intros j Hj. lia.
Qed.

(** offsets *)
Lemma wrap_offset_value n off : 0 < n -> (- 2 ^ 63 <= off < 2 ^ 63)%Z -> (0 <= off)%Z \/ (2 ^ 64 mod Z.of_nat n = 0)%Z ->
  wrap_offset n off = Z.to_nat (off mod Z.of_nat n) /\ wrap_offset n off < n.
Proof.
  intros Hn Hr H. unfold wrap_offset.
  assert (E : ((off mod 2 ^ 64) mod Z.of_nat n = off mod Z.of_nat n)%Z).
  { destruct H as [H|H].
    - rewrite (Z.mod_small off) by lia. reflexivity.
    - apply Z.mod_divide in H; [|lia]. destruct H as [m Hm].
      rewrite (Z.mod_eq off (2 ^ 64)) by lia. rewrite Hm at 1.
      replace (off - m * Z.of_nat n * (off / 2 ^ 64))%Z with (off + (- m * (off / 2 ^ 64)) * Z.of_nat n)%Z by ring.
      apply Z.mod_add. lia. }
  rewrite E. split; [reflexivity|]. pose proof (Z.mod_pos_bound off (Z.of_nat n) ltac:(lia)). lia.
Qed.
Lemma chain_offset_ok wide h w off : hasher_ok h -> pauli_word (h_qubits h) w -> (- 2 ^ 63 <= off < 2 ^ 63)%Z ->
  (0 <= off)%Z \/ (2 ^ 64 mod Z.of_nat (h_qubits h) = 0)%Z ->
  exists w', wrap_chain_offset wide h w off = SOk w' /\ chain_moved (h_qubits h) (Z.to_nat (off mod Z.of_nat (h_qubits h))) w w'.
Proof.
  intros Hh W Hr H. pose proof (n_pos h Hh) as Hn. destruct (wrap_offset_value _ off Hn Hr H) as [E L].
  destruct (site_hash_correct h w Hh W) as (d & Ed & P & Ld). unfold wrap_chain_offset. rewrite Ed. cbn [sbind].
  destruct (cyclic_sites wide h Hh d (wrap_offset (h_qubits h) off) P ltac:(left; lia)) as (e & -> & Pe & S). cbn [sbind].
  destruct (unhash_correct h e Pe) as (w' & -> & W' & Lw'). exists w'. split; [reflexivity|]. split; [exact W'|].
  intros q Hq. rewrite <- E, Lw', S by exact Hq. apply Ld.
Qed.
Lemma lattice_offset_ok wide h w r c : hasher_ok h -> rows_ok wide h -> pauli_word (h_qubits h) w ->
  (- 2 ^ 63 <= r < 2 ^ 63)%Z -> (- 2 ^ 63 <= c < 2 ^ 63)%Z ->
  (0 <= r /\ 0 <= c)%Z \/ (2 ^ 64 mod Z.of_nat (h_qubits h) = 0)%Z ->
  (h_slides h <= 2 \/ h_col h = h_row h \/ (0 <= r <= Z.of_nat (h_col h))%Z) ->
  exists w', wrap_lattice_offset wide h w r c = SOk w' /\
    lattice_moved (h_col h) (h_row h) (Z.to_nat (r mod Z.of_nat (h_col h))) (Z.to_nat (c mod Z.of_nat (h_row h))) w w'.
Proof.
  intros Hh Rok W Hr Hc H Ho. pose proof (n_pos h Hh) as Hn.
  destruct (wrap_offset_value _ r Hn Hr ltac:(tauto)) as [Er Lr]. destruct (wrap_offset_value _ c Hn Hc ltac:(tauto)) as [Ec Lc].
  pose proof (chp h Hh) as Cp. pose proof (rwp h Hh) as Rp.
  destruct (site_hash_correct h w Hh W) as (d & Ed & P & Ld). unfold wrap_lattice_offset. rewrite Ed. cbn [sbind].
  assert (Ro : row_offset_ok h (wrap_offset (h_qubits h) r)).
  { unfold row_offset_ok. destruct Ho as [Ho|[Ho|Ho]]; [tauto|tauto|]. left. rewrite Er.
    assert (r mod Z.of_nat (h_qubits h) <= r)%Z by (apply Z.mod_le; lia). lia. }
  destruct (lattice_shift_sites wide h Hh Rok d (wrap_offset (h_qubits h) r) (wrap_offset (h_qubits h) c) P Ro) as (e & -> & [Pe S]). cbn [sbind].
  destruct (unhash_correct h e Pe) as (w' & -> & W' & Lw'). exists w'. split; [reflexivity|]. split; [exact W'|].
  intros row col Hrow Hcol. assert (Hq : col * h_col h + row < h_qubits h) by (unfold h_qubits; nia).
  specialize (S _ Hq). unfold lat_act in S. cbn [fst snd] in S. destruct (lat_parts h col row Hrow) as [A B]. rewrite A, B in S.
  assert (Mr : forall z m k, 0 < m -> (m * k)%nat = h_qubits h -> Z.to_nat (z mod Z.of_nat (h_qubits h)) mod m = Z.to_nat (z mod Z.of_nat m)).
  { intros z m k Hm Hmk. apply Nat2Z.inj. rewrite Nat2Z.inj_mod. rewrite !Z2Nat.id by (apply Z.mod_pos_bound; lia).
    rewrite <- Hmk, Nat2Z.inj_mul. rewrite Z.rem_mul_r by nia. rewrite (Z.mul_comm (Z.of_nat m) ((_ / _) mod _)), Z.mod_add by lia. apply Z.mod_mod. lia. }
  rewrite Lw'. rewrite <- (Mr r (h_col h) (h_row h)) by (try exact Cp; reflexivity).
  rewrite <- (Mr c (h_row h) (h_col h)) by (try exact Rp; unfold h_qubits; lia).
  rewrite <- Er, <- Ec. rewrite !Nat.add_mod_idemp_r by lia. rewrite S. apply Ld.
Qed.

(** the hash of the canonical sequence *)
Lemma presorted_ok r w s : length w <= 16 -> presorted r w s = mk_hseq (hash r w) w s.
Proof. intros H. unfold presorted. apply Nat.leb_le in H. now rewrite H. Qed.
