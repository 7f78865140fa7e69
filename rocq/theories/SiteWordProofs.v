(** Words and their hashes. *)
From Coq Require Import List NArith ZArith Arith Bool Lia Sorted.
From Verif Require Import CoreModel SiteModel SiteSpec SiteBitProofs SiteShiftProofs.
Import ListNotations.

(** letters of a word *)
Lemma letter_cons op w q : letter (op :: w) q = if Nat.eqb (op / 3) q then N.of_nat (op mod 3 + 1) else letter w q.
Proof. unfold letter. cbn [find]. destruct (Nat.eqb (op / 3) q); reflexivity. Qed.
Lemma letter_none w q : (forall op, In op w -> op / 3 <> q) -> letter w q = 0%N.
Proof.
  intros H. unfold letter. destruct (find _ w) as [op|] eqn:E; [|reflexivity].
  apply find_some in E. destruct E as [E1 E2]. apply Nat.eqb_eq in E2. now apply H in E1.
Qed.
Lemma letter_in w op : StronglySorted (fun a b => a / 3 < b / 3) w -> In op w -> letter w (op / 3) = N.of_nat (op mod 3 + 1).
Proof.
  induction 1 as [|x w S IH F]; intros Hin; [destruct Hin|]. rewrite letter_cons. destruct Hin as [->|Hin].
  - now rewrite Nat.eqb_refl.
  - rewrite Forall_forall in F. specialize (F _ Hin). destruct (Nat.eqb_spec (x / 3) (op / 3)); [lia|]. now apply IH.
Qed.
Lemma letter_some w q : letter w q <> 0%N -> exists op, In op w /\ op / 3 = q /\ letter w q = N.of_nat (op mod 3 + 1).
Proof.
  unfold letter. destruct (find _ w) as [op|] eqn:E; [|congruence]. intros _. apply find_some in E.
  destruct E as [E1 E2]. apply Nat.eqb_eq in E2. eauto.
Qed.
Lemma letter_lt w q : (letter w q < 4)%N.
Proof.
  unfold letter. destruct (find _ w) as [op|]; [|reflexivity]. pose proof (Nat.mod_upper_bound op 3 ltac:(lia)). lia.
Qed.
Lemma op_eq a b : a / 3 = b / 3 -> a mod 3 = b mod 3 -> a = b.
Proof. intros A B. rewrite (Nat.div_mod a 3), (Nat.div_mod b 3) by lia. congruence. Qed.

Lemma in_letter w op : StronglySorted (fun a b => a / 3 < b / 3) w -> (In op w <-> letter w (op / 3) = N.of_nat (op mod 3 + 1)).
Proof.
  intros S. split; [now apply letter_in|]. intros E.
  destruct (letter_some w (op / 3)) as (o & Ho & Eq & El); [rewrite E; lia|].
  replace op with o; [exact Ho|]. apply op_eq; [exact Eq|]. rewrite E in El. lia.
Qed.
Lemma sorted_unique w : forall w', StronglySorted (fun a b => a / 3 < b / 3) w -> StronglySorted (fun a b => a / 3 < b / 3) w' ->
  (forall op, In op w <-> In op w') -> w = w'.
Proof.
  induction w as [|x w IH]; intros [|y w'] S S' H.
  - reflexivity.
  - exfalso. apply (H y). now left.
  - exfalso. apply (H x). now left.
  - inversion S as [|? ? S1 F1]; subst. inversion S' as [|? ? S2 F2]; subst. rewrite Forall_forall in F1, F2.
    assert (x = y) as ->.
    { destruct (proj1 (H x) (or_introl eq_refl)) as [E|Hx]; [congruence|].
      destruct (proj2 (H y) (or_introl eq_refl)) as [E|Hy]; [congruence|].
      specialize (F1 _ Hy). specialize (F2 _ Hx). lia. }
    f_equal. apply IH; auto. intros op. split; intros Hin.
    + destruct (proj1 (H op) (or_intror Hin)) as [E|E]; [|exact E]. subst. specialize (F1 _ Hin). lia.
    + destruct (proj2 (H op) (or_intror Hin)) as [E|E]; [|exact E]. subst. specialize (F2 _ Hin). lia.
Qed.
Lemma word_unique n w w' : pauli_word n w -> pauli_word n w' -> (forall q, q < n -> letter w q = letter w' q) -> w = w'.
Proof.
  intros [S B] [S' B'] H. apply sorted_unique; auto.
  intros op. split; intros Hin.
  - pose proof (B _ Hin). apply in_letter; [exact S'|]. rewrite <- H by (apply Nat.div_lt_upper_bound; lia). now apply letter_in.
  - pose proof (B' _ Hin). apply in_letter; [exact S|]. rewrite H by (apply Nat.div_lt_upper_bound; lia). now apply letter_in.
Qed.

(** one operator added to a hash *)
Lemma add_op out op : Forall small out -> op / 3 / 32 < length out -> site out (op / 3) = 0%N ->
  let e := upd (op / 3 / per_slide) (fun x => ((x + N.shiftl (N.of_nat (op mod 3) + 1) (N.of_nat (op / 3 mod per_slide * 2))) mod two64)%N) out in
  Forall small e /\ forall q, site e q = if Nat.eqb (op / 3) q then N.of_nat (op mod 3 + 1) else site out q.
Proof.
  intros So L Z. cbn zeta. unfold per_slide. set (q0 := op / 3) in *. set (p := (N.of_nat (op mod 3) + 1)%N).
  assert (Hp : (p < 4)%N) by (unfold p; pose proof (Nat.mod_upper_bound op 3 ltac:(lia)); lia).
  assert (Hp2 : forall j, 2 <= j -> tb p j = false).
  { intros j Hj. replace p with (p mod 2 ^ N.of_nat 2)%N by (apply N.mod_small; exact Hp). rewrite tb_mod.
    destruct (Nat.ltb_spec j 2); [lia|reflexivity]. }
  pose proof (Nat.div_mod q0 32 ltac:(lia)) as D. pose proof (Nat.mod_upper_bound q0 32 ltac:(lia)) as R.
  split; [apply upd_small; [exact So|intros; apply small_mod]|].
  set (e := upd _ _ _).
  assert (Z0 : forall r, r < 2 -> tb (at_slide out (q0 / 32)) (q0 mod 32 * 2 + r) = false).
  { intros r Hr. rewrite <- bit_slide by lia. replace (64 * (q0 / 32) + (q0 mod 32 * 2 + r)) with (2 * q0 + r) by lia.
    rewrite <- site_tb by exact Hr. rewrite Z. apply tb_0. }
  assert (Hb : forall i, bit e i = bit out i || ((2 * q0 <=? i) && tb p (i - 2 * q0))).
  { intros i. destruct (bit_split i) as [a [j [-> Hj]]]. rewrite !bit_slide by exact Hj. unfold e. rewrite at_upd by exact L.
    destruct (Nat.eqb_spec a (q0 / 32)) as [->|Na].
    - rewrite tb_mod64. destruct (Nat.ltb_spec j 64); [|lia]. cbn [andb]. rewrite add_lor.
      + rewrite tb_lor, tb_shiftl. f_equal.
        destruct (Nat.leb_spec (q0 mod 32 * 2) j); destruct (Nat.leb_spec (2 * q0) (64 * (q0 / 32) + j)); try lia; cbn [andb]; try reflexivity.
        f_equal. lia.
      + intros i. rewrite tb_shiftl. destruct (Nat.leb_spec (q0 mod 32 * 2) i); cbn [andb]; [|apply andb_false_r].
        destruct (Nat.lt_ge_cases (i - q0 mod 32 * 2) 2).
        * replace i with (q0 mod 32 * 2 + (i - q0 mod 32 * 2)) at 1 by lia. now rewrite Z0.
        * rewrite Hp2 by assumption. apply andb_false_r.
    - destruct (Nat.leb_spec (2 * q0) (64 * a + j)); cbn [andb]; [|now rewrite orb_false_r].
      rewrite Hp2 by lia. now rewrite orb_false_r. }
  intros q. rewrite (site_bits e), !Hb. destruct (Nat.eqb_spec q0 q) as [E|Nq].
  - rewrite <- E. rewrite <- !site_tb by lia. replace (2 * q0) with (2 * q0 + 0) at 1 by lia. rewrite <- site_tb by lia.
    rewrite Z, !tb_0. cbn [orb]. destruct (Nat.leb_spec (2 * q0) (2 * q0)); [|lia]. destruct (Nat.leb_spec (2 * q0) (2 * q0 + 1)); [|lia].
    cbn [andb]. replace (2 * q0 - 2 * q0) with 0 by lia. replace (2 * q0 + 1 - 2 * q0) with 1 by lia.
    rewrite <- four_bits by exact Hp. unfold p. lia.
  - rewrite (site_bits out).
    assert (A : forall r, r < 2 -> (2 * q0 <=? 2 * q + r) && tb p (2 * q + r - 2 * q0) = false).
    { intros r Hr. destruct (Nat.leb_spec (2 * q0) (2 * q + r)); cbn [andb]; [|reflexivity]. apply Hp2. lia. }
    pose proof (A 0 ltac:(lia)) as A0. rewrite Nat.add_0_r in A0. rewrite A0, (A 1) by lia. now rewrite !orb_false_r.
Qed.

Lemma hash_from_correct w : forall out, Forall small out -> StronglySorted (fun a b => a / 3 < b / 3) w ->
  (forall op, In op w -> op / 3 / 32 < length out /\ site out (op / 3) = 0%N) ->
  exists e, hash_from out w = SOk e /\ length e = length out /\ Forall small e /\
            forall q, site e q = if N.eqb (letter w q) 0 then site out q else letter w q.
Proof.
  induction w as [|op w IH]; intros out So S H; cbn [hash_from].
  - exists out. repeat split; auto.
  - inversion S as [|? ? S1 F1]; subst. rewrite Forall_forall in F1. destruct (H op (or_introl eq_refl)) as [L Z].
    destruct (Nat.ltb_spec (op / 3 / per_slide) (length out)) as [_|C]; [|unfold per_slide in C; lia].
    destruct (add_op out op So L Z) as [Se He]. set (e := upd _ _ _) in *.
    destruct (IH e Se S1) as (f & Ef & Lf & Sf & Hf).
    { intros o Ho. unfold e. rewrite upd_length. destruct (H o (or_intror Ho)) as [A B]. split; [exact A|].
      specialize (He (o / 3)). unfold e in He. rewrite He. specialize (F1 _ Ho). destruct (Nat.eqb_spec (op / 3) (o / 3)); [lia|exact B]. }
    exists f. split; [exact Ef|]. split; [rewrite Lf; apply upd_length|]. split; [exact Sf|].
    intros q. rewrite Hf, He, letter_cons. destruct (Nat.eqb_spec (op / 3) q) as [E|Nq]; [|reflexivity].
    rewrite (letter_none w q); [|intros o Ho; specialize (F1 _ Ho); lia]. cbn [N.eqb].
    destruct (N.eqb_spec (N.of_nat (op mod 3 + 1)) 0); [lia|reflexivity].
Qed.

Lemma site_zero m q : site (repeat 0%N m) q = 0%N.
Proof.
  unfold site. replace (nth (q / 32) (repeat 0%N m) 0%N) with 0%N.
  - rewrite N.div_0_l; [reflexivity|]. apply N.pow_nonzero. discriminate.
  - destruct (Nat.lt_ge_cases (q / 32) m).
    + symmetry. apply (repeat_spec m). apply nth_In. now rewrite repeat_length.
    + rewrite nth_overflow by (rewrite repeat_length; assumption). reflexivity.
Qed.
Lemma zero_small m : Forall small (repeat 0%N m).
Proof. apply Forall_forall. intros x Hx. apply repeat_spec in Hx. subst. exact small_0. Qed.
Lemma empty_packed h : packed h (empty_hash h).
Proof.
  split; [apply repeat_length|]. split.
  - intros x Hx. apply repeat_spec in Hx. subst. exact small_0.
  - intros q _. apply site_zero.
Qed.
Lemma op_qubit n op : op < 3 * n -> op / 3 < n.
Proof. intros H. apply Nat.div_lt_upper_bound; lia. Qed.

Lemma site_hash_correct h w : hasher_ok h -> pauli_word (h_qubits h) w ->
  exists d, site_hash h w = SOk d /\ packed h d /\ forall q, site d q = letter w q.
Proof.
  intros (A & B & _) [S W]. unfold site_hash.
  destruct (hash_from_correct w (empty_hash h) (zero_small (h_slides h)) S) as (d & E & L & Sd & Hd).
  - intros op Hop. specialize (W _ Hop). unfold empty_hash. rewrite repeat_length, site_zero. split; [|reflexivity].
    apply op_qubit in W. apply Nat.div_lt_upper_bound; lia.
  - assert (Hs : forall q, site d q = letter w q).
    { intros q. rewrite Hd. unfold empty_hash. rewrite site_zero. destruct (N.eqb_spec (letter w q) 0); congruence. }
    exists d. split; [exact E|]. split; [|exact Hs]. split; [rewrite L; apply repeat_length|]. split.
    + rewrite Forall_forall in Sd. exact Sd.
    + intros q Hq. rewrite Hs. apply letter_none. intros op Hop Eq. specialize (W _ Hop). apply op_qubit in W. lia.
Qed.

(** digits in base four *)
Definition nib (x : N) (j : nat) : N := (N.b2n (tb x (2 * j)) + 2 * N.b2n (tb x (2 * j + 1)))%N.
Lemma nib_shift x m j : nib (N.shiftr x (N.of_nat (m * 2))) j = nib x (m + j).
Proof.
  unfold nib. change (N.shiftr x (N.of_nat (m * 2))) with (shr_in x (m * 2)). rewrite !tb_shr.
  replace (2 * j + m * 2) with (2 * (m + j)) by lia. replace (2 * j + 1 + m * 2) with (2 * (m + j) + 1) by lia. reflexivity.
Qed.
Lemma nib_land x : N.land x 3 = nib x 0.
Proof.
  change 3%N with (N.ones 2). rewrite N.land_ones. rewrite (four_bits (x mod 2 ^ 2)).
  - unfold nib. rewrite !(tb_mod x 2). reflexivity.
  - apply N.mod_lt. discriminate.
Qed.
Lemma nib_lt x j : (nib x j < 4)%N.
Proof. unfold nib. destruct (tb x (2 * j)), (tb x (2 * j + 1)); reflexivity. Qed.
Lemma site_nib d q : site d q = nib (nth (q / 32) d 0%N) (q mod 32).
Proof.
  rewrite site_bits. unfold nib. pose proof (Nat.div_mod q 32 ltac:(lia)). pose proof (Nat.mod_upper_bound q 32 ltac:(lia)).
  replace (2 * q) with (64 * (q / 32) + 2 * (q mod 32)) by lia.
  replace (64 * (q / 32) + 2 * (q mod 32) + 1) with (64 * (q / 32) + (2 * (q mod 32) + 1)) by lia.
  rewrite !bit_slide by lia. reflexivity.
Qed.
Lemma ctz_spec p : tb (Npos p) (ctz p) = true /\ forall j, j < ctz p -> tb (Npos p) j = false.
Proof.
  induction p as [p IH|p IH|]; cbn [ctz].
  - split; [reflexivity|]. intros j Hj. lia.
  - destruct IH as [A B].
    assert (E : forall j, tb (Npos (xO p)) (S j) = tb (Npos p) j).
    { intros j. unfold tb. rewrite Nat2N.inj_succ. change (N.pos p~0) with (2 * N.pos p)%N. rewrite N.testbit_even_succ by lia. reflexivity. }
    split; [now rewrite E|]. intros [|j] Hj; [reflexivity|]. rewrite E. apply B. lia.
  - split; [reflexivity|]. intros j Hj. lia.
Qed.
Lemma nib_first x : x <> 0%N -> let off := countr_zero x / 2 in nib x off <> 0%N /\ forall j, j < off -> nib x j = 0%N.
Proof.
  intros Hx. cbn zeta. destruct x as [|p]; [congruence|]. cbn [countr_zero]. destruct (ctz_spec p) as [A B].
  set (c := ctz p) in *. pose proof (Nat.div_mod c 2 ltac:(lia)) as D. pose proof (Nat.mod_upper_bound c 2 ltac:(lia)) as R. split.
  - unfold nib. assert (c mod 2 = 0 \/ c mod 2 = 1) as [E|E] by lia.
    + replace (2 * (c / 2)) with c by lia. rewrite A. cbn [N.b2n]. lia.
    + replace (2 * (c / 2) + 1) with c by lia. rewrite A. cbn [N.b2n]. lia.
  - intros j Hj. unfold nib. rewrite !B by lia. reflexivity.
Qed.
Lemma nib_small x j m : (x < 4 ^ N.of_nat m)%N -> m <= j -> nib x j = 0%N.
Proof.
  intros Hx Hj. rewrite pow4 in Hx. replace (2 * N.of_nat m)%N with (N.of_nat (2 * m)) in Hx by lia.
  unfold nib. rewrite <- (N.mod_small x (2 ^ N.of_nat (2 * m))) by exact Hx. rewrite !tb_mod.
  destruct (Nat.ltb_spec (2 * j) (2 * m)); [lia|]. destruct (Nat.ltb_spec (2 * j + 1) (2 * m)); [lia|]. reflexivity.
Qed.
Lemma op_parts q p : p < 3 -> (q * 3 + p) / 3 = q /\ (q * 3 + p) mod 3 = p.
Proof.
  intros H. split.
  - symmetry. apply (Nat.div_unique _ 3 q p); lia.
  - symmetry. apply (Nat.mod_unique _ 3 q p); lia.
Qed.

Lemma unhash_slide_correct fuel : forall q x, (x < 4 ^ N.of_nat fuel)%N ->
  exists w, unhash_slide fuel q x = SOk w /\ StronglySorted (fun a b => a / 3 < b / 3) w /\
            (forall op, In op w -> q <= op / 3) /\ forall j, letter w (q + j) = nib x j.
Proof.
  induction fuel as [|fuel IH]; intros q x Hx; cbn [unhash_slide].
  - assert (x = 0)%N as -> by (cbn in Hx; lia). cbn [N.eqb]. exists []. repeat split; [constructor|intros op []].
  - destruct (N.eqb_spec x 0) as [->|Nx].
    + exists []. repeat split; [constructor|intros op []].
    + destruct (nib_first x Nx) as [F1 F2]. cbn zeta in F1, F2. set (off := countr_zero x / 2) in *.
      assert (Hx' : (N.shiftr (N.shiftr x (N.of_nat (off * 2))) 2 < 4 ^ N.of_nat fuel)%N).
      { rewrite N.shiftr_shiftr. rewrite N.shiftr_div_pow2. apply N.div_lt_upper_bound; [apply N.pow_nonzero; discriminate|].
        eapply N.lt_le_trans; [exact Hx|]. rewrite Nat2N.inj_succ, N.pow_succ_r'. apply N.mul_le_mono_r.
        rewrite N.pow_add_r. change 4%N with (1 * 2 ^ 2)%N. apply N.mul_le_mono_r.
        pose proof (N.pow_nonzero 2 (N.of_nat (off * 2)) ltac:(discriminate)). lia. }
      destruct (IH (q + off + 1) _ Hx') as (w & -> & S & B & L). cbn [sbind]. eexists. split; [reflexivity|].
      rewrite nib_land, nib_shift, Nat.add_0_r.
      pose proof (nib_lt x off) as Lt. set (p := N.to_nat (nib x off - 1)). assert (Hp : p < 3) by (unfold p; lia).
      destruct (op_parts (q + off) p Hp) as [P1 P2]. split; [|split].
      * constructor; [exact S|]. apply Forall_forall. intros o Ho. rewrite P1. specialize (B _ Ho). lia.
      * intros op [<-|Ho]; [rewrite P1; lia|]. specialize (B _ Ho). lia.
      * intros j. rewrite letter_cons, P1, P2. destruct (Nat.eqb_spec (q + off) (q + j)) as [E|Nj].
        -- assert (j = off) as -> by lia. unfold p. lia.
        -- destruct (Nat.lt_ge_cases j off).
           ++ rewrite F2 by assumption. apply letter_none. intros op Ho Eq. specialize (B _ Ho). lia.
           ++ specialize (L (j - off - 1)). replace (q + off + 1 + (j - off - 1)) with (q + j) in L by lia. rewrite L.
              change 2%N with (N.of_nat (1 * 2)). rewrite !nib_shift. f_equal. lia.
Qed.

Lemma unhash_from_correct d : forall k, Forall small d ->
  exists w, unhash_from k d = SOk w /\ StronglySorted (fun a b => a / 3 < b / 3) w /\
            (forall op, In op w -> 32 * k <= op / 3) /\ forall q, letter w (32 * k + q) = site d q.
Proof.
  induction d as [|x d IH]; intros k Sd; cbn [unhash_from].
  - exists []. repeat split; [constructor|intros op []|]. intros q. pose proof (site_zero 0 q) as Z. cbn [repeat] in Z. now rewrite Z.
  - inversion Sd as [|? ? Sx Sd']; subst.
    assert (Hx : (x < 4 ^ N.of_nat 64)%N).
    { eapply N.lt_le_trans; [exact Sx|]. vm_compute. discriminate. }
    assert (Hx32 : (x < 4 ^ N.of_nat 32)%N) by exact Sx.
    destruct (unhash_slide_correct 64 (k * per_slide) x Hx) as (a & -> & Sa & Ba & La). cbn [sbind].
    destruct (IH (S k) Sd') as (b & -> & Sb & Bb & Lb). cbn [sbind]. unfold per_slide in *.
    assert (Ua : forall op, In op a -> op / 3 < 32 * S k).
    { intros op Ho. pose proof (Ba _ Ho). specialize (La (op / 3 - k * 32)). replace (k * 32 + (op / 3 - k * 32)) with (op / 3) in La by lia.
      rewrite (letter_in a op Sa Ho) in La. destruct (Nat.lt_ge_cases (op / 3) (32 * S k)); [assumption|].
      rewrite (nib_small x _ 32 Hx32) in La by lia. lia. }
    exists (a ++ b). split; [reflexivity|]. split; [|split].
    + clear - Sa Sb Ua Bb. induction a as [|y a IHa]; [exact Sb|]. inversion Sa as [|? ? S1 F1]; subst. cbn [app]. constructor.
      * apply IHa; auto. intros op Ho. apply Ua. now right.
      * apply Forall_app. split; [exact F1|]. apply Forall_forall. intros o Ho.
        specialize (Bb _ Ho). specialize (Ua y (or_introl eq_refl)). lia.
    + intros op Ho. apply in_app_or in Ho. destruct Ho as [Ho|Ho]; [apply Ba in Ho; lia|apply Bb in Ho; lia].
    + intros q.
      assert (Lapp : forall t, letter (a ++ b) t = if N.eqb (letter a t) 0 then letter b t else letter a t).
      { intros t. clear. induction a as [|y a IHa]; [reflexivity|]. cbn [app]. rewrite !letter_cons.
        destruct (Nat.eqb (y / 3) t); [|exact IHa]. destruct (N.eqb_spec (N.of_nat (y mod 3 + 1)) 0); [lia|reflexivity]. }
      rewrite Lapp. rewrite site_nib. destruct (Nat.lt_ge_cases q 32).
      * rewrite (Nat.div_small q), (Nat.mod_small q) by assumption. cbn [nth].
        replace (32 * k + q) with (k * 32 + q) by lia. rewrite La. destruct (N.eqb_spec (nib x q) 0) as [E|E]; [|reflexivity].
        rewrite E. apply letter_none. intros op Ho Eq. apply Bb in Ho. lia.
      * assert (Za : letter a (32 * k + q) = 0%N).
        { apply letter_none. intros op Ho Eq. apply Ua in Ho. lia. }
        rewrite Za. cbn [N.eqb]. specialize (Lb (q - 32)). replace (32 * S k + (q - 32)) with (32 * k + q) in Lb by lia. rewrite Lb, site_nib.
        replace (q / 32) with (S ((q - 32) / 32)).
        -- cbn [nth]. f_equal. replace q with (q - 32 + 1 * 32) at 2 by lia. now rewrite Nat.mod_add by lia.
        -- replace q with (q - 32 + 1 * 32) at 2 by lia. rewrite Nat.div_add by lia. lia.
Qed.
Lemma unhash_correct h d : packed h d ->
  exists w, unhash d = SOk w /\ pauli_word (h_qubits h) w /\ forall q, letter w q = site d q.
Proof.
  intros P. pose proof P as Pb. apply packed_bits in Pb. destruct Pb as (L & Sd & _). destruct P as (_ & _ & O).
  destruct (unhash_from_correct d 0 Sd) as (w & E & S & _ & Lw). cbn [Nat.mul Nat.add] in Lw. exists w. split; [exact E|]. split; [|exact Lw].
  split; [exact S|]. intros op Ho. pose proof (letter_in w op S Ho) as Lo. rewrite Lw in Lo.
  destruct (Nat.lt_ge_cases (op / 3) (h_qubits h)) as [Hq|Hq].
  - pose proof (Nat.div_mod op 3 ltac:(lia)). pose proof (Nat.mod_upper_bound op 3 ltac:(lia)). lia.
  - rewrite O in Lo by exact Hq. lia.
Qed.

(** the order of hashes *)
Fixpoint val (d : datum) : N := match d with [] => 0 | x :: d' => x + two64 * val d' end%N.
Lemma val_app a b : val (a ++ b) = (val a + two64 ^ N.of_nat (length a) * val b)%N.
Proof.
  induction a as [|x a IH]; cbn [app val length].
  - change (two64 ^ N.of_nat 0)%N with 1%N. lia.
  - rewrite IH, Nat2N.inj_succ, N.pow_succ_r'. lia.
Qed.
Lemma val_bound d : Forall small d -> (val d < two64 ^ N.of_nat (length d))%N.
Proof.
  induction 1 as [|x d Hx Hd IH]; cbn [val length]; [reflexivity|]. rewrite Nat2N.inj_succ, N.pow_succ_r'. unfold small in Hx. fold two64 in Hx. nia.
Qed.
Lemma less_val a : forall b, length a = length b -> Forall small a -> Forall small b -> less a b = (val a <? val b)%N.
Proof.
  induction a as [|x a IH] using rev_ind; intros b L Sa Sb.
  - destruct b; [reflexivity|discriminate].
  - destruct b as [|y b _] using rev_ind; [rewrite app_length in L; cbn in L; lia|].
    rewrite !app_length in L. cbn in L. apply Forall_app in Sa, Sb. destruct Sa as [Sa Sx], Sb as [Sb Sy].
    assert (La : length a = length b) by lia. unfold less. rewrite !rev_app_distr. cbn [rev app less_rev].
    fold (less a b). rewrite IH by auto. rewrite !val_app, La. cbn [val]. rewrite N.mul_0_r, !N.add_0_r.
    pose proof (val_bound a Sa) as Va. pose proof (val_bound b Sb) as Vb. rewrite La in Va.
    set (M := (two64 ^ N.of_nat (length b))%N) in *.
    destruct (N.ltb_spec x y); [symmetry; apply N.ltb_lt; nia|].
    destruct (N.ltb_spec y x); [symmetry; apply N.ltb_ge; nia|].
    assert (x = y) as -> by lia. destruct (N.ltb_spec (val a) (val b)); symmetry; [apply N.ltb_lt|apply N.ltb_ge]; nia.
Qed.
Lemma bit_cons x d i : bit (x :: d) i = if i <? 64 then tb x i else bit d (i - 64).
Proof.
  unfold bit. destruct (Nat.ltb_spec i 64).
  - now rewrite Nat.div_small, Nat.mod_small by assumption.
  - replace (i / 64) with (S ((i - 64) / 64)).
    + cbn [nth]. f_equal. replace i with (i - 64 + 1 * 64) at 1 by lia. now rewrite Nat.mod_add by lia.
    + replace i with (i - 64 + 1 * 64) at 2 by lia. rewrite Nat.div_add by lia. lia.
Qed.
Lemma val_tb d : Forall small d -> forall i, tb (val d) i = bit d i.
Proof.
  induction 1 as [|x d Hx Hd IH]; intros i; cbn [val].
  - unfold bit. destruct (i / 64); apply tb_0.
  - rewrite bit_cons. assert (E : (two64 * val d)%N = N.shiftl (val d) (N.of_nat 64)).
    { rewrite N.shiftl_mul_pow2. unfold two64. change (N.of_nat 64) with 64%N. lia. }
    rewrite E, add_lor.
    + rewrite tb_lor, tb_shiftl. destruct (Nat.ltb_spec i 64).
      * destruct (Nat.leb_spec 64 i); [lia|]. cbn [andb]. apply orb_false_r.
      * destruct (Nat.leb_spec 64 i); [|lia]. cbn [andb]. rewrite tb_small by assumption. cbn [orb]. apply IH.
    + intros j. rewrite tb_shiftl. destruct (Nat.leb_spec 64 j); cbn [andb]; [|apply andb_false_r]. now rewrite tb_small by assumption.
Qed.
Lemma val_nib d q : Forall small d -> nib (val d) q = site d q.
Proof. intros S. unfold nib. rewrite !val_tb by exact S. symmetry. apply site_bits. Qed.
Lemma val_inj a b : length a = length b -> Forall small a -> Forall small b -> val a = val b -> a = b.
Proof. intros L A B E. apply bit_ext; auto. intros i. now rewrite <- !val_tb, E by assumption. Qed.

(** comparison of numbers by their digits *)
Lemma nib_ext x y : (forall j, nib x j = nib y j) -> x = y.
Proof.
  intros H. apply tb_ext. intros i. destruct (even_or_odd i) as [q [r [-> Hr]]]. specialize (H q). unfold nib in H.
  assert (r = 0 \/ r = 1) as [-> | ->] by lia.
  - rewrite Nat.add_0_r. destruct (tb x (2 * q)), (tb y (2 * q)), (tb x (2 * q + 1)), (tb y (2 * q + 1)); cbn in H; congruence.
  - destruct (tb x (2 * q)), (tb y (2 * q)), (tb x (2 * q + 1)), (tb y (2 * q + 1)); cbn in H; congruence.
Qed.
Lemma nib_div x j : nib (x / 4) j = nib x (S j).
Proof.
  change 4%N with (2 ^ 2)%N. rewrite <- N.shiftr_div_pow2. exact (nib_shift x 1 j).
Qed.
Lemma nib_mod x : (x mod 4)%N = nib x 0.
Proof. rewrite <- nib_land. change 3%N with (N.ones 2). rewrite N.land_ones. reflexivity. Qed.
Lemma nib_lt_num j : forall x y, (nib x j < nib y j)%N -> (forall t, j < t -> nib x t = nib y t) -> (x < y)%N.
Proof.
  induction j as [|j IH]; intros x y L H.
  - assert (E : (x / 4 = y / 4)%N) by (apply nib_ext; intros t; rewrite !nib_div; apply H; lia).
    rewrite <- !nib_mod in L. pose proof (N.div_mod x 4 ltac:(discriminate)). pose proof (N.div_mod y 4 ltac:(discriminate)). nia.
  - assert (E : (x / 4 < y / 4)%N) by (apply IH; [rewrite !nib_div; exact L|intros t Ht; rewrite !nib_div; apply H; lia]).
    pose proof (N.div_mod x 4 ltac:(discriminate)). pose proof (N.div_mod y 4 ltac:(discriminate)).
    pose proof (N.mod_lt x 4 ltac:(discriminate)). pose proof (N.mod_lt y 4 ltac:(discriminate)).
    revert E H0 H1 H2 H3. generalize (x / 4)%N (y / 4)%N (x mod 4)%N (y mod 4)%N. clear. intros a b c d. lia.
Qed.
Lemma nib_differ m : forall x y, (x < 4 ^ N.of_nat m)%N -> (y < 4 ^ N.of_nat m)%N -> x <> y ->
  exists j, nib x j <> nib y j /\ forall t, j < t -> nib x t = nib y t.
Proof.
  induction m as [|m IH]; intros x y Hx Hy Ne.
  - cbn in Hx, Hy. lia.
  - rewrite Nat2N.inj_succ, N.pow_succ_r' in Hx, Hy. destruct (N.eq_dec (x / 4) (y / 4)) as [E|E].
    + exists 0. split.
      * rewrite <- !nib_mod. intros E'. apply Ne. pose proof (N.div_mod x 4 ltac:(discriminate)). pose proof (N.div_mod y 4 ltac:(discriminate)). congruence.
      * intros [|t] Ht; [lia|]. now rewrite <- !nib_div, E.
    + destruct (IH (x / 4)%N (y / 4)%N) as (j & Dj & Hj); auto; try (apply N.div_lt_upper_bound; [discriminate|lia]).
      exists (S j). rewrite <- !nib_div. split; [exact Dj|]. intros [|t] Ht; [lia|]. rewrite <- !nib_div. apply Hj. lia.
Qed.
Lemma less_sites h a b : packed h a -> packed h b ->
  (less a b = true <-> exists q, q < h_qubits h /\ (site a q < site b q)%N /\ forall t, q < t -> site a t = site b t).
Proof.
  intros Pa Pb. pose proof Pa as (_ & _ & Oa). pose proof Pb as (_ & _ & Ob). apply packed_bits in Pa, Pb. destruct Pa as (La & Sa & _), Pb as (Lb & Sb & _).
  rewrite less_val by (try assumption; congruence). rewrite N.ltb_lt. split.
  - intros L. assert (Va := val_bound a Sa). assert (Vb := val_bound b Sb). rewrite La in Va. rewrite Lb in Vb.
    assert (E : (two64 ^ N.of_nat (h_slides h) = 4 ^ N.of_nat (32 * h_slides h))%N).
    { unfold two64. rewrite pow4. rewrite <- N.pow_mul_r. f_equal. lia. }
    rewrite E in Va, Vb. destruct (nib_differ _ _ _ Va Vb ltac:(lia)) as (j & Dj & Hj).
    rewrite !val_nib in Dj by assumption. exists j. split.
    { destruct (Nat.lt_ge_cases j (h_qubits h)); [assumption|]. exfalso. apply Dj. now rewrite Oa, Ob by assumption. }
    split; [|intros t Ht; specialize (Hj t Ht); now rewrite !val_nib in Hj by assumption].
    destruct (N.lt_trichotomy (site a j) (site b j)) as [C|[C|C]]; [exact C|contradiction|]. exfalso.
    assert (val b < val a)%N; [|lia]. apply (nib_lt_num j); [now rewrite !val_nib by assumption|]. intros t Ht. symmetry. now apply Hj.
  - intros (q & _ & C & Hq). apply (nib_lt_num q); [now rewrite !val_nib by assumption|]. intros t Ht. rewrite !val_nib by assumption. now apply Hq.
Qed.

Lemma datum_eqb_spec a : forall b, datum_eqb a b = true <-> a = b.
Proof.
  induction a as [|x a IH]; intros [|y b]; cbn [datum_eqb]; split; intros H; try congruence; try reflexivity.
  - apply andb_true_iff in H. destruct H as [A B]. apply N.eqb_eq in A. apply IH in B. congruence.
  - injection H as -> ->. rewrite N.eqb_refl. cbn. now apply IH.
Qed.
