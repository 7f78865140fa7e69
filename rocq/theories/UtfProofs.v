From Coq Require Import List NArith ZArith Arith Bool Lia.
From Verif Require Import UtfModel UtfSpec.
Import ListNotations.
Local Open Scope N_scope.

(** all numbers with [k] more bits below the prefix [p] *)
Fixpoint sweep (k : nat) (p : N) (f : N -> bool) : bool := match k with O => f p | S k' => sweep k' (2 * p) f && sweep k' (2 * p + 1) f end.
Lemma sweep_spec f : forall k p, sweep k p f = true -> forall c, p * 2 ^ N.of_nat k <= c < (p + 1) * 2 ^ N.of_nat k -> f c = true.
Proof.
  induction k as [|k IH]; intros p H c B.
  - cbn in *. replace c with p by lia. exact H.
  - cbn [sweep] in H. apply andb_true_iff in H as [H1 H2]. rewrite Nat2N.inj_succ, N.pow_succ_r' in B.
    destruct (N.lt_ge_cases c ((2 * p + 1) * 2 ^ N.of_nat k)); [apply (IH _ H1)|apply (IH _ H2)]; nia.
Qed.
Fixpoint list_eqb (l m : list N) : bool := match l, m with [], [] => true | x :: l', y :: m' => (x =? y) && list_eqb l' m' | _, _ => false end.
Lemma list_eqb_eq : forall l m, list_eqb l m = true -> l = m.
Proof. induction l as [|x l IH]; intros [|y m] H; try discriminate; auto. cbn in H. apply andb_true_iff in H as [H1 H2]. apply N.eqb_eq in H1. subst. f_equal. auto. Qed.
Definition is_surrogate (c : N) : bool := (0xd800 <=? c) && (c <? 0xe000).

(** one scalar value *)
Definition bmp_ok (c : N) : bool :=
  is_surrogate c || (match direct_bytes c with Some b => list_eqb b (utf8 c) | None => false end
    && (length (utf8 c) + (if N.eqb c 0x7f then 1 else 0) =? unit_size_in_utf8 c)%nat).
Lemma bmp_sweep : sweep 16 0 bmp_ok = true.
Proof. vm_compute. reflexivity. Qed.

(** surrogate pairs: 2^10 high ones (those of planes 1 to 15 here) and 2^10 low ones, joined in the third byte *)
Definition high_ok (k : N) : bool :=
  let h := k / 16 in let q := k mod 16 in (960 <=? h) ||
  (let s := 0xd800 + h in let high := N.land s 0x3ff + 0x40 in
   match direct_bytes s with None => true | Some _ => false end && (N.land s 0xfc00 =? 0xd800) && (unit_size_in_utf8 s =? 2)%nat &&
   (N.lor 0xf0 (N.shiftr (N.land high 0x300) 8) =? 0xf0 + (h + 64) / 256) && (N.lor 0x80 (N.shiftr (N.land high 0xfc) 2) =? 0x80 + (h + 64) / 4 mod 64) &&
   (N.lor 0x80 (N.lor (N.shiftl (N.land high 0x3) 4) q) =? 0x80 + (16 * ((h + 64) mod 4) + q))).
Lemma high_sweep : sweep 14 0 high_ok = true.
Proof. vm_compute. reflexivity. Qed.
Definition low_ok (l : N) : bool :=
  let low := 0xdc00 + l in (N.land low 0xfc00 =? 0xdc00) && (unit_size_in_utf8 low =? 2)%nat && (N.shiftr (N.land low 0x3c0) 6 =? l / 64) && (N.lor 0x80 (N.land low 0x3f) =? 0x80 + l mod 64).
Lemma low_sweep : sweep 10 0 low_ok = true.
Proof. vm_compute. reflexivity. Qed.

Ltac euclid := zify; Z.to_euclidean_division_equations; lia.
Lemma astral c : 0x10000 <= c < 0x100000 -> exists h l, h < 960 /\ l < 1024 /\ c = (h + 64) * 1024 + l.
Proof. intros B. exists ((c - 0x10000) / 1024), ((c - 0x10000) mod 1024). repeat split; euclid. Qed.
Lemma astral_utf16 h l : h < 960 -> l < 1024 -> utf16 ((h + 64) * 1024 + l) = [0xd800 + h; 0xdc00 + l].
Proof. intros H L. unfold utf16. destruct (N.ltb_spec ((h + 64) * 1024 + l) 0x10000); [lia|]. f_equal; [euclid|]. f_equal. euclid. Qed.
Lemma astral_utf8 h l : h < 960 -> l < 1024 -> utf8 ((h + 64) * 1024 + l) =
  [0xf0 + (h + 64) / 256; 0x80 + (h + 64) / 4 mod 64; 0x80 + (16 * ((h + 64) mod 4) + l / 64); 0x80 + l mod 64].
Proof.
  intros H L. unfold utf8. set (c := (h + 64) * 1024 + l). destruct (N.ltb_spec c 0x80); [lia|]. destruct (N.ltb_spec c 0x800); [lia|]. destruct (N.ltb_spec c 0x10000); [lia|].
  assert (C1 : c / 1024 = h + 64) by (unfold c; euclid). assert (C2 : c / 64 = (h + 64) * 16 + l / 64) by (unfold c; euclid).
  replace (c / 0x40000) with (c / 1024 / 256) by (rewrite N.div_div by lia; reflexivity). replace (c / 0x1000) with (c / 1024 / 4) by (rewrite N.div_div by lia; reflexivity).
  rewrite C1. change 0x40 with 64. rewrite C2. f_equal. f_equal. f_equal; [euclid|]. f_equal. unfold c. euclid.
Qed.

Lemma bmp_direct c : c < 0x10000 -> ~ (0xd800 <= c < 0xe000) -> utf16 c = [c] /\ direct_bytes c = Some (utf8 c) /\ (length (utf8 c) + (if N.eqb c 0x7f then 1 else 0))%nat = unit_size_in_utf8 c.
Proof.
  intros B NS. assert (H : bmp_ok c = true) by (apply (sweep_spec _ 16 0 bmp_sweep); cbn; lia). unfold bmp_ok in H.
  assert (S : is_surrogate c = false) by (unfold is_surrogate; destruct (N.leb_spec 0xd800 c); auto; destruct (N.ltb_spec c 0xe000); auto; lia).
  rewrite S in H. cbn [orb] in H. apply andb_true_iff in H as [H1 H2]. apply Nat.eqb_eq in H2. split; [|split; auto].
  - unfold utf16. destruct (N.ltb_spec c 0x10000); auto. lia.
  - destruct (direct_bytes c); [|discriminate]. apply list_eqb_eq in H1. now subst.
Qed.
Lemma pair_bits h l : h < 960 -> l < 1024 -> let s := 0xd800 + h in let low := 0xdc00 + l in
  direct_bytes s = None /\ is_pair s low = true /\ pair_bytes s low = utf8 ((h + 64) * 1024 + l) /\ unit_size_in_utf8 s = 2%nat /\ unit_size_in_utf8 low = 2%nat.
Proof.
  intros H L s low. assert (HH : high_ok (h * 16 + l / 64) = true) by (apply (sweep_spec _ 14 0 high_sweep); cbn; euclid).
  assert (LL : low_ok l = true) by (apply (sweep_spec _ 10 0 low_sweep); cbn; lia).
  unfold high_ok in HH. replace ((h * 16 + l / 64) / 16) with h in HH by euclid. replace ((h * 16 + l / 64) mod 16) with (l / 64) in HH by euclid.
  destruct (N.leb_spec 960 h); [lia|]. cbn [orb] in HH. unfold low_ok in LL. fold s low in HH, LL. cbv zeta in HH, LL. rewrite !andb_true_iff, !N.eqb_eq in HH. rewrite !andb_true_iff, !N.eqb_eq in LL.
  destruct HH as (((((H1 & H2) & H3) & H4) & H5) & H6), LL as (((L1 & L2) & L3) & L4).
  split; [now destruct (direct_bytes s)|]. split; [unfold is_pair; now rewrite H2, L1|]. split; [|split; now apply Nat.eqb_eq].
  rewrite astral_utf8 by assumption. unfold pair_bytes. cbv zeta. now rewrite H4, H5, L3, H6, L4.
Qed.


Lemma encode_one c r : plain c -> utf8_bytes (utf16 c ++ r) = utf8 c ++ utf8_bytes r.
Proof.
  intros [[B NS] P]. destruct (N.lt_ge_cases c 0x10000) as [L|L].
  - destruct (bmp_direct c L NS) as (-> & D & _). cbn. now rewrite D.
  - destruct (astral c (conj L P)) as (h & l & H & LL & ->). rewrite astral_utf16 by assumption. destruct (pair_bits h l H LL) as (D & I & PB & _).
    cbn [app utf8_bytes]. now rewrite D, I, PB.
Qed.
Lemma encode_text cs : Forall plain cs -> utf8_bytes (utf16_text cs) = utf8_text cs.
Proof. unfold utf16_text, utf8_text. induction 1 as [|c cs P _ IH]; [reflexivity|]. cbn [flat_map]. now rewrite (encode_one c _ P), IH. Qed.
Lemma size_app : forall l m, size_in_utf8 (l ++ m) = (size_in_utf8 l + size_in_utf8 m)%nat.
Proof.
  intros l m. unfold size_in_utf8. rewrite fold_left_app. generalize (fold_left (fun n e => (n + unit_size_in_utf8 e)%nat) l 0%nat).
  induction m as [|e m IH]; intros n; cbn; [lia|]. rewrite IH, (IH (unit_size_in_utf8 e)). lia.
Qed.
Lemma size_one c : plain c -> size_in_utf8 (utf16 c) = (length (utf8 c) + (if N.eqb c 0x7f then 1 else 0))%nat.
Proof.
  intros [[B NS] P]. destruct (N.lt_ge_cases c 0x10000) as [L|L].
  - destruct (bmp_direct c L NS) as (-> & _ & S). unfold size_in_utf8. cbn. lia.
  - destruct (astral c (conj L P)) as (h & l & H & LL & ->). rewrite astral_utf16, astral_utf8 by assumption. destruct (pair_bits h l H LL) as (_ & _ & _ & S1 & S2).
    unfold size_in_utf8. cbn [fold_left]. rewrite S1, S2. destruct (N.eqb_spec ((h + 64) * 1024 + l) 0x7f); [lia|reflexivity].
Qed.
Lemma size_text cs : Forall plain cs -> size_in_utf8 (utf16_text cs) = (length (utf8_text cs) + dels cs)%nat.
Proof.
  unfold utf16_text, utf8_text, dels. induction 1 as [|c cs P _ IH]; [reflexivity|]. cbn [flat_map filter]. rewrite size_app, (size_one c P), IH, app_length.
  rewrite (N.eqb_sym 0x7f c). destruct (N.eqb c 0x7f); cbn [length]; lia.
Qed.
Lemma unit_size_pos e : (1 <= unit_size_in_utf8 e)%nat.
Proof. unfold unit_size_in_utf8. repeat destruct (_ && _) || destruct (_ <? _) || destruct (_ <=? _); lia. Qed.
Lemma size_ge l : (length l <= size_in_utf8 l)%nat.
Proof. induction l as [|e l IH]; [cbn; lia|]. change (e :: l) with ([e] ++ l). rewrite size_app, app_length. assert (U : size_in_utf8 [e] = unit_size_in_utf8 e) by reflexivity. rewrite U. pose proof (unit_size_pos e). cbn [length]. lia. Qed.
Lemma ascii_units l : length l = size_in_utf8 l -> as_ascii l = l /\ Forall (fun e => e < 0x7f) l.
Proof.
  induction l as [|e l IH]; [auto|]. change (e :: l) with ([e] ++ l) at 2. rewrite size_app. intros E. pose proof (size_ge l). pose proof (unit_size_pos e).
  assert (V : size_in_utf8 [e] = unit_size_in_utf8 e) by reflexivity. rewrite V in E. cbn [length] in E. assert (U : unit_size_in_utf8 e = 1%nat) by lia. destruct IH as [IH1 IH2]; [lia|].
  assert (L : e < 0x7f). { unfold unit_size_in_utf8 in U. destruct (N.ltb_spec e 0x7f); auto. destruct (e <=? 0x7ff); [discriminate|]. destruct (_ && _); discriminate. }
  split; [|constructor; auto]. cbn [as_ascii map]. f_equal; auto. change 0x7f with (N.ones 7). rewrite N.land_ones. apply N.mod_small. cbn. lia.
Qed.
Lemma utf16_ascii c : scalar c -> Forall (fun e => e < 0x7f) (utf16 c) -> utf16 c = [c] /\ utf8 c = [c].
Proof.
  intros [B NS]. unfold utf16, utf8. destruct (N.ltb_spec c 0x10000); intros F.
  - apply Forall_inv in F. destruct (N.ltb_spec c 0x80); auto. lia.
  - exfalso. revert F. generalize ((c - 0x10000) / 0x400). intros q F. apply Forall_inv in F. lia.
Qed.

Lemma some_len (b b' : list N) : Some b = Some b' -> length b' = length b.
Proof. now intros [= ->]. Qed.
Definition surrogate_ok (k : N) : bool := N.land (0xd800 + k) 0xf800 =? 0xd800.
Lemma surrogate_sweep : sweep 11 0 surrogate_ok = true. Proof. vm_compute. reflexivity. Qed.
Definition no_low_ok (k : N) : bool := negb (N.land k 0xfc00 =? 0xdc00).
Lemma no_low_sweep : sweep 7 0 no_low_ok = true. Proof. vm_compute. reflexivity. Qed.
(** UTF-16 to UTF-8 *)
Lemma to_utf8_spec cs : Forall plain cs -> to_utf8 (utf16_text cs) = Some (utf8_text cs ++ repeat 0 (dels cs)).
Proof.
  intros P. unfold to_utf8. destruct (Nat.eqb_spec (length (utf16_text cs)) (size_in_utf8 (utf16_text cs))) as [E|NE].
  - apply ascii_units in E as [-> F]. f_equal. assert (G : utf16_text cs = cs /\ utf8_text cs = cs /\ dels cs = 0%nat).
    { clear -P F. unfold utf16_text, utf8_text, dels in *. induction P as [|c cs Pc _ IH]; [auto|]. cbn [flat_map] in *. apply Forall_app in F as [F1 F2]. destruct (IH F2) as (E1 & E2 & E3).
      destruct Pc as [S _]. destruct (utf16_ascii c S F1) as [U1 U2]. rewrite U1, U2, E1, E2. cbn [filter app]. split; [reflexivity|]. split; [reflexivity|].
      rewrite U1 in F1. apply Forall_inv in F1. destruct (N.eqb_spec 0x7f c); [lia|exact E3]. }
    destruct G as (-> & -> & ->). cbn. now rewrite app_nil_r.
  - rewrite (encode_text cs P), (size_text cs P). unfold written. destruct (Nat.leb_spec (length (utf8_text cs)) (length (utf8_text cs) + dels cs)); [|lia].
    do 3 f_equal. lia.
Qed.
Lemma to_utf8_safe l : exists b, to_utf8 l = Some b /\ length b = size_in_utf8 l.
Proof.
  unfold to_utf8. destruct (Nat.eqb_spec (length l) (size_in_utf8 l)) as [E|NE].
  - exists (as_ascii l). split; auto. unfold as_ascii. now rewrite map_length.
  - assert (L : (length (utf8_bytes l) <= size_in_utf8 l)%nat).
    { clear. assert (D1 : forall s b, direct_bytes s = Some b -> (length b <= unit_size_in_utf8 s)%nat).
      { intros s b. unfold direct_bytes. destruct (N.leb_spec s 0x7f); [intros E; apply some_len in E; rewrite E; apply unit_size_pos|].
        destruct (N.eqb_spec (N.land s 0xf800) 0xd800) as [|NS]; [discriminate|]. cbn [negb]. unfold unit_size_in_utf8. destruct (N.ltb_spec s 0x7f); [lia|].
        destruct (N.leb_spec s 0x7ff); intros E; apply some_len in E; rewrite E; cbn [length]; [lia|]. destruct ((0xd800 <=? s) && (s <=? 0xdfff)) eqn:F; [|lia]. exfalso.
        apply andb_true_iff in F as [F1 F2]. apply N.leb_le in F1, F2. apply NS.
        assert (W : surrogate_ok (s - 0xd800) = true) by (apply (sweep_spec _ 11 0 surrogate_sweep); change (2 ^ N.of_nat 11) with 2048; lia). unfold surrogate_ok in W.
        apply N.eqb_eq in W. now replace (0xd800 + (s - 0xd800)) with s in W by lia. }
      assert (D2 : forall s, direct_bytes s = None -> (2 <= unit_size_in_utf8 s)%nat).
      { intros s. unfold direct_bytes. destruct (N.leb_spec s 0x7f); [discriminate|]. unfold unit_size_in_utf8. destruct (N.ltb_spec s 0x7f); [lia|].
        destruct (s <=? 0x7ff), ((0xd800 <=? s) && (s <=? 0xdfff)); lia. }
      assert (D3 : forall s low, is_pair s low = true -> (2 <= unit_size_in_utf8 low)%nat).
      { intros s low. unfold is_pair. destruct (N.land s 0xfc00 =? 0xd800); [|discriminate]. cbn [andb]. intros E. apply N.eqb_eq in E.
        unfold unit_size_in_utf8. destruct (N.ltb_spec low 0x7f).
        - exfalso. assert (W : no_low_ok low = true) by (apply (sweep_spec _ 7 0 no_low_sweep); change (2 ^ N.of_nat 7) with 128; lia).
          unfold no_low_ok in W. rewrite E in W. discriminate.
        - destruct (low <=? 0x7ff), ((0xd800 <=? low) && (low <=? 0xdfff)); lia. }
      assert (IND : forall n l, (length l <= n)%nat -> (length (utf8_bytes l) <= size_in_utf8 l)%nat).
      { induction n as [|n IH]; intros [|s r] LE; [apply Nat.le_refl|exfalso; cbn [length] in LE; lia|apply Nat.le_0_l|]. change (s :: r) with ([s] ++ r) at 2. rewrite size_app.
        assert (E1 : size_in_utf8 [s] = unit_size_in_utf8 s) by reflexivity. rewrite E1. cbn [utf8_bytes]. cbn [length] in LE.
        destruct (direct_bytes s) as [b|] eqn:D; [rewrite app_length; specialize (D1 _ _ D); specialize (IH r); lia|]. specialize (D2 s D).
        destruct r as [|low r']; [cbn; lia|]. destruct (is_pair s low) eqn:IP.
        - rewrite app_length. specialize (D3 _ _ IP). change (low :: r') with ([low] ++ r'). rewrite size_app. assert (E2 : size_in_utf8 [low] = unit_size_in_utf8 low) by reflexivity.
          rewrite E2. cbn [length] in LE. specialize (IH r'). assert (PL : length (pair_bytes s low) = 4%nat) by reflexivity. lia.
        - specialize (IH (low :: r')). cbn [length] in *. lia. }
      now apply (IND (length l)). }
    unfold written. destruct (Nat.leb_spec (length (utf8_bytes l)) (size_in_utf8 l)); [|lia]. eexists. split; [reflexivity|]. rewrite app_length, repeat_length. lia.
Qed.

(** UTF-8 to UTF-16 *)
Definition one_ok (c : N) : bool := (N.land c 0x80 =? 0) && (N.land c 0x7f =? c).
Lemma one_sweep : sweep 7 0 one_ok = true. Proof. vm_compute. reflexivity. Qed.
Definition two_ok (c : N) : bool := (c <? 0x80) ||
  let a := 0xc0 + c / 0x40 in let b := 0x80 + c mod 0x40 in negb (N.land a 0x80 =? 0) && (N.land a 0xe0 =? 0xc0) && (two_bytes a b =? c).
Lemma two_sweep : sweep 11 0 two_ok = true. Proof. vm_compute. reflexivity. Qed.
Definition three_ok (c : N) : bool := 
  let a := 0xe0 + c / 0x1000 in let b := 0x80 + c / 0x40 mod 0x40 in let d := 0x80 + c mod 0x40 in
  negb (N.land a 0x80 =? 0) && negb (N.land a 0xe0 =? 0xc0) && (N.land a 0xf0 =? 0xe0) && (three_bytes a b d =? c).
Lemma three_sweep : sweep 16 0 three_ok = true. Proof. vm_compute. reflexivity. Qed.
Definition four_hi_ok (k : N) : bool := (* k = 16 * (h + 64) + c2, c2 the two top bits and two more of the third byte *)
  let h := k / 16 in (h <? 64) ||
  let a := 0xf0 + h / 256 in let b := 0x80 + h / 4 mod 64 in let c := 0x80 + (16 * (h mod 4) + k mod 16) in
  negb (N.land a 0x80 =? 0) && negb (N.land a 0xe0 =? 0xc0) && negb (N.land a 0xf0 =? 0xe0) && (N.land a 0xf8 =? 0xf0) &&
  match four_bytes a b c 0x80 with hi :: _ => hi =? 0xd800 + (h - 64) | [] => false end.
Lemma four_hi_sweep : sweep 14 0 four_hi_ok = true. Proof. vm_compute. reflexivity. Qed.
Definition four_lo_ok (k : N) : bool := (* k: last two bytes, twelve bits *)
  match four_bytes 0 0 (0x80 + k / 64) (0x80 + k mod 64) with [_; lo] => lo =? 0xdc00 + k mod 1024 | _ => false end.
Lemma four_lo_sweep : sweep 12 0 four_lo_ok = true. Proof. vm_compute. reflexivity. Qed.

Lemma decode_one c : plain c -> (forall r, utf16_units (utf8 c ++ r) = utf16 c ++ utf16_units r) /\
  exists a t, utf8 c = a :: t /\ lead_skip a = (length (utf8 c), length (utf16 c)).
Proof.
  intros [[B NS] P]. unfold lead_skip. destruct (N.lt_ge_cases c 0x80) as [L1|L1]; [|destruct (N.lt_ge_cases c 0x800) as [L2|L2]; [|destruct (N.lt_ge_cases c 0x10000) as [L3|L3]]].
  - unfold utf8, utf16. destruct (N.ltb_spec c 0x80); [|lia]. destruct (N.ltb_spec c 0x10000); [|lia].
    assert (O : one_ok c = true) by (apply (sweep_spec _ 7 0 one_sweep); cbn; lia). apply andb_true_iff in O as [O _].
    split; [intros r; cbn [app utf16_units]; now rewrite O|exists c, []; split; auto; now rewrite O].
  - unfold utf8, utf16. destruct (N.ltb_spec c 0x80); [lia|]. destruct (N.ltb_spec c 0x800); [|lia]. destruct (N.ltb_spec c 0x10000); [|lia].
    assert (H2 : two_ok c = true) by (apply (sweep_spec _ 11 0 two_sweep); cbn; lia). unfold two_ok in H2. destruct (N.ltb_spec c 0x80); [lia|]. cbn [orb] in H2. cbv zeta in H2.
    rewrite !andb_true_iff, !negb_true_iff in H2. destruct H2 as ((E1 & E2) & E3). apply N.eqb_eq in E3. split; [intros r|do 2 eexists; split; [reflexivity|]].
    + cbn [app utf16_units]. now rewrite E1, E2, E3.
    + now rewrite E1, E2.
  - unfold utf8, utf16. destruct (N.ltb_spec c 0x80); [lia|]. destruct (N.ltb_spec c 0x800); [lia|]. destruct (N.ltb_spec c 0x10000); [|lia].
    assert (H3 : three_ok c = true) by (apply (sweep_spec _ 16 0 three_sweep); cbn; lia). unfold three_ok in H3. cbv zeta in H3.
    rewrite !andb_true_iff, !negb_true_iff in H3. destruct H3 as (((E1 & E2) & E3) & E4). apply N.eqb_eq in E4. split; [intros r|do 2 eexists; split; [reflexivity|]].
    + cbn [app utf16_units]. now rewrite E1, E2, E3, E4.
    + now rewrite E1, E2, E3.
  - destruct (astral c (conj L3 P)) as (h & l & H & LL & ->). rewrite astral_utf16, astral_utf8 by assumption.
    assert (HI : four_hi_ok (16 * (h + 64) + l / 64) = true) by (apply (sweep_spec _ 14 0 four_hi_sweep); change (2 ^ N.of_nat 14) with 16384; clear - H LL; split; euclid).
    assert (LO : four_lo_ok (64 * (16 * ((h + 64) mod 4) + l / 64) + l mod 64) = true) by (apply (sweep_spec _ 12 0 four_lo_sweep); change (2 ^ N.of_nat 12) with 4096; clear - H LL; split; euclid).
    unfold four_hi_ok in HI. cbv zeta in HI. replace ((16 * (h + 64) + l / 64) / 16) with (h + 64) in HI by euclid. replace ((16 * (h + 64) + l / 64) mod 16) with (l / 64) in HI by euclid.
    destruct (N.ltb_spec (h + 64) 64); [lia|]. cbn [orb] in HI. rewrite !andb_true_iff, !negb_true_iff in HI. destruct HI as ((((E1 & E2) & E3) & E4) & E5).
    unfold four_lo_ok in LO. replace ((64 * (16 * ((h + 64) mod 4) + l / 64) + l mod 64) / 64) with (16 * ((h + 64) mod 4) + l / 64) in LO by euclid.
    replace ((64 * (16 * ((h + 64) mod 4) + l / 64) + l mod 64) mod 64) with (l mod 64) in LO by euclid.
    replace ((64 * (16 * ((h + 64) mod 4) + l / 64) + l mod 64) mod 1024) with l in LO by euclid.
    split; [intros r|do 2 eexists; split; [reflexivity|]].
    + cbn [app utf16_units]. rewrite E1, E2, E3, E4. unfold four_bytes in *. cbv zeta in *. cbn [app]. apply N.eqb_eq in E5, LO. rewrite E5, LO. f_equal. lia.
    + now rewrite E1, E2, E3, E4.
Qed.
Lemma decode_text cs : Forall plain cs -> utf16_units (utf8_text cs) = utf16_text cs.
Proof. unfold utf16_text, utf8_text. induction 1 as [|c cs P _ IH]; [reflexivity|]. cbn [flat_map]. destruct (decode_one c P) as [-> _]. now rewrite IH. Qed.
Lemma size16_text cs : Forall plain cs -> forall n, (length (utf8_text cs) <= n)%nat -> size_in_utf16_loop n (utf8_text cs) = length (utf16_text cs).
Proof.
  unfold utf16_text, utf8_text. induction 1 as [|c cs P _ IH]; intros n L; [destruct n; reflexivity|]. cbn [flat_map] in *. rewrite app_length in *.
  destruct (decode_one c P) as [_ (a & t & E & LS)]. rewrite E in *. cbn [app length] in *. destruct n as [|n]; [lia|]. cbn [size_in_utf16_loop]. rewrite LS. cbn [fst snd].
  change (skipn (S (length t)) (a :: t ++ flat_map utf8 cs)) with (skipn (length t) (t ++ flat_map utf8 cs)). rewrite skipn_app, skipn_all, Nat.sub_diag. cbn [app skipn]. rewrite IH by lia. reflexivity.
Qed.
Lemma utf8_long c : plain c -> (length (utf16 c) <= length (utf8 c))%nat /\ (length (utf16 c) = length (utf8 c) -> utf8 c = [c] /\ utf16 c = [c] /\ c < 0x80).
Proof.
  intros [[B NS] P]. unfold utf8, utf16. destruct (N.ltb_spec c 0x80), (N.ltb_spec c 0x800), (N.ltb_spec c 0x10000); cbn [length]; try (exfalso; lia); (split; [repeat constructor|intros E; try discriminate E; auto]).
Qed.
Lemma to_utf16_spec cs : Forall plain cs -> to_utf16 (utf8_text cs) = Some (utf16_text cs).
Proof.
  intros P. unfold to_utf16, size_in_utf16. rewrite (size16_text cs P) by lia. destruct (Nat.eqb_spec (length (utf8_text cs)) (length (utf16_text cs))) as [E|NE].
  - f_equal. assert (LE : forall l, Forall plain l -> (length (utf16_text l) <= length (utf8_text l))%nat).
    { unfold utf16_text, utf8_text. induction 1 as [|c l Pc _ IH]; [auto|]. cbn [flat_map]. rewrite !app_length. destruct (utf8_long c Pc). lia. }
    revert E. induction P as [|c l Pc P IH]; [reflexivity|]. specialize (LE l P). unfold utf16_text, utf8_text in *. cbn [flat_map]. rewrite !app_length.
    destruct (utf8_long c Pc) as [U1 U2]. intros E. destruct U2 as (V1 & V2 & V3); [lia|]. rewrite V1, V2 in *. cbn [app as_ascii map length] in *. f_equal; [|apply IH; lia].
    assert (H : one_ok c = true) by (apply (sweep_spec _ 7 0 one_sweep); cbn; lia). apply andb_true_iff in H as [_ H]. now apply N.eqb_eq in H.
  - rewrite (decode_text cs P). unfold written. rewrite Nat.leb_refl, Nat.sub_diag. cbn. now rewrite app_nil_r.
Qed.
Lemma lead_skip_pos e : (1 <= fst (lead_skip e) /\ 1 <= snd (lead_skip e))%nat.
Proof. unfold lead_skip. repeat destruct (_ =? _); cbn; lia. Qed.
Lemma to_utf16_safe l : exists b, to_utf16 l = Some b /\ length b = size_in_utf16 l.
Proof.
  unfold to_utf16. destruct (Nat.eqb_spec (length l) (size_in_utf16 l)) as [E|NE].
  - exists (as_ascii l). split; auto. unfold as_ascii. now rewrite map_length.
  - assert (L : (length (utf16_units l) <= size_in_utf16 l)%nat).
    { unfold size_in_utf16. assert (IND : forall n l, (length l <= n)%nat -> (length (utf16_units l) <= size_in_utf16_loop n l)%nat); [|now apply IND].
      clear. induction n as [|n IH]; intros [|a r] LE; [apply Nat.le_refl|exfalso; cbn [length] in LE; lia|apply Nat.le_0_l|]. cbn [size_in_utf16_loop utf16_units]. cbn [length] in LE. unfold lead_skip.
      destruct (N.land a 0x80 =? 0) eqn:E1; [cbn [fst snd skipn length]; specialize (IH r); lia|].
      destruct (N.land a 0xe0 =? 0xc0) eqn:E2; [destruct r as [|b r]; cbn [fst snd skipn length] in *; [lia|specialize (IH r); lia]|].
      destruct (N.land a 0xf0 =? 0xe0) eqn:E3; [destruct r as [|b [|c r]]; cbn [fst snd skipn length] in *; [lia..|specialize (IH r); lia]|].
      destruct (N.land a 0xf8 =? 0xf0) eqn:E4; [destruct r as [|b [|c [|d r]]]; cbn [fst snd skipn length] in *; [lia..|rewrite app_length; cbn [four_bytes length]; specialize (IH r); lia]|].
      cbn [fst snd skipn]. specialize (IH r). lia. }
    unfold written. destruct (Nat.leb_spec (length (utf16_units l)) (size_in_utf16 l)); [|lia]. eexists. split; [reflexivity|]. rewrite app_length, repeat_length. lia.
Qed.

Lemma round_trip cs : Forall plain cs -> ~ In 0x7f cs -> exists b, to_utf8 (utf16_text cs) = Some b /\ length b = size_in_utf8 (utf16_text cs) /\ to_utf16 b = Some (utf16_text cs).
Proof.
  intros P ND. assert (D : dels cs = 0%nat).
  { clear P. unfold dels. induction cs as [|c cs IH]; [reflexivity|]. cbn [filter In] in *. destruct (N.eqb_spec 0x7f c); [exfalso; apply ND; left; congruence|]. apply IH. tauto. }
  exists (utf8_text cs). rewrite (to_utf8_spec cs P), D, (to_utf16_spec cs P), (size_text cs P), D. cbn [repeat]. rewrite app_nil_r. repeat split. lia.
Qed.
Lemma delete_refuted : exists cs, Forall scalar cs /\ to_utf8 (utf16_text cs) = Some (utf8_text cs ++ [0]) /\ to_utf16 (utf8_text cs ++ [0]) = Some (utf16_text cs ++ [0]).
Proof. exists [0x7f]. split; [|split; vm_compute; reflexivity]. repeat constructor. intros [H _]. lia. Qed.
Lemma plane16_refuted : exists cs, Forall scalar cs /\ to_utf8 (utf16_text cs) <> Some (utf8_text cs) /\ to_utf16 (utf8_text cs) <> Some (utf16_text cs).
Proof. exists [0x100000]. split; [|split; vm_compute; discriminate]. repeat constructor. intros [_ H]. lia. Qed.
Lemma text_example : let cs := [0x41; 0xe9; 0x20ac; 0x1f600; 0xfffff] in Forall plain cs /\ ~ In 0x7f cs /\
  utf16_text cs = [0x41; 0xe9; 0x20ac; 0xd83d; 0xde00; 0xdbbf; 0xdfff] /\
  to_utf8 (utf16_text cs) = Some [0x41; 0xc3; 0xa9; 0xe2; 0x82; 0xac; 0xf0; 0x9f; 0x98; 0x80; 0xf3; 0xbf; 0xbf; 0xbf].
Proof.
  split; [|split; [|split; vm_compute; reflexivity]].
  - apply Forall_forall. intros c I. cbn [In] in I. unfold plain, scalar. repeat destruct I as [<-|I]; try destruct I; lia.
  - cbn [In]. intros H. repeat destruct H as [H|H]; try discriminate H. exact H.
Qed.
