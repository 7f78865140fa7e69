(** Open boundaries: moment_simplifier_no_wrapping. *)
From Coq Require Import List NArith ZArith Arith Bool Lia Sorted.
From Verif Require Import CoreModel SiteModel SiteSpec.
Import ListNotations.

Definition orow (ch op : nat) := (op / 3) mod ch.
Definition ocol (ch op : nat) := op / 3 / ch.
Lemma op_eq ch op : 0 < ch -> op = 3 * (ocol ch op * ch + orow ch op) + op mod 3.
Proof.
  intros H. unfold ocol, orow. pose proof (Nat.div_mod op 3 ltac:(lia)). pose proof (Nat.div_mod (op / 3) ch ltac:(lia)). lia.
Qed.
Lemma op_make ch r c p : r < ch -> p < 3 ->
  (3 * (c * ch + r) + p) mod 3 = p /\ orow ch (3 * (c * ch + r) + p) = r /\ ocol ch (3 * (c * ch + r) + p) = c.
Proof.
  intros Hr Hp. unfold orow, ocol.
  assert (D : (3 * (c * ch + r) + p) / 3 = c * ch + r) by (symmetry; apply (Nat.div_unique _ 3 _ p); lia).
  rewrite D. split; [symmetry; apply (Nat.mod_unique _ 3 (c * ch + r)); lia|].
  split; symmetry; [apply (Nat.mod_unique _ ch c); lia|apply (Nat.div_unique _ ch _ r); lia].
Qed.
Lemma op_col ch op : op / (ch * 3) = ocol ch op.
Proof. unfold ocol. destruct ch as [|ch]; [now rewrite Nat.mul_0_l|]. rewrite Nat.div_div by lia. f_equal. lia. Qed.
Lemma orow_lt ch op : 0 < ch -> orow ch op < ch.
Proof. intros. apply Nat.mod_upper_bound. lia. Qed.

(** subtracting a corner below the operator *)
Lemma op_sub ch r c op : 0 < ch -> r <= orow ch op -> c <= ocol ch op ->
  let op' := op - (c * (ch * 3) + r * 3) in op' mod 3 = op mod 3 /\ orow ch op' = orow ch op - r /\ ocol ch op' = ocol ch op - c.
Proof.
  intros Hch Hr Hc op'. pose proof (op_eq ch op Hch) as E. pose proof (orow_lt ch op Hch). pose proof (Nat.mod_upper_bound op 3 ltac:(lia)).
  assert (E' : op' = 3 * ((ocol ch op - c) * ch + (orow ch op - r)) + op mod 3).
  { unfold op'. rewrite E at 1. rewrite Nat.mul_sub_distr_r. assert (c * ch <= ocol ch op * ch) by (apply Nat.mul_le_mono_r; lia). lia. }
  rewrite E'. apply op_make; lia.
Qed.

(** corner of a word *)
Lemma fold_min_spec {A} (f : A -> nat) l m0 :
  let m := fold_left (fun m o => Nat.min m (f o)) l m0 in m <= m0 /\ (forall o, In o l -> m <= f o) /\ (m = m0 \/ exists o, In o l /\ m = f o).
Proof.
  revert m0. induction l as [|a l IH]; intros m0; cbn [fold_left].
  - repeat split; auto. intros o [].
  - destruct (IH (Nat.min m0 (f a))) as (A1 & A2 & A3). cbn zeta in *. split; [lia|]. split.
    + intros o [<-|Ho]; [lia|]. now apply A2.
    + destruct A3 as [E|(o & Ho & E)]; [|right; exists o; split; [now right|exact E]].
      destruct (Nat.min_dec m0 (f a)) as [D|D]; rewrite D in E |- *; [now left|right; exists a; split; [now left|exact E]].
Qed.
Lemma fold_max_spec {A} (f : A -> nat) l m0 :
  let m := fold_left (fun m o => Nat.max m (f o)) l m0 in m0 <= m /\ (forall o, In o l -> f o <= m) /\ (m = m0 \/ exists o, In o l /\ m = f o).
Proof.
  revert m0. induction l as [|a l IH]; intros m0; cbn [fold_left].
  - repeat split; auto. intros o [].
  - destruct (IH (Nat.max m0 (f a))) as (A1 & A2 & A3). cbn zeta in *. split; [lia|]. split.
    + intros o [<-|Ho]; [lia|]. now apply A2.
    + destruct A3 as [E|(o & Ho & E)]; [|right; exists o; split; [now right|exact E]].
      destruct (Nat.max_dec m0 (f a)) as [D|D]; rewrite D in E |- *; [now left|right; exists a; split; [now left|exact E]].
Qed.
Lemma sorted_first op w : StronglySorted (fun a b => a / 3 < b / 3) (op :: w) -> forall o, In o (op :: w) -> op / 3 <= o / 3.
Proof. intros S o [<-|H]; [lia|]. apply StronglySorted_inv in S. destruct S as [_ F]. rewrite Forall_forall in F. specialize (F o H). lia. Qed.
Lemma sorted_last w : StronglySorted (fun a b => a / 3 < b / 3) w -> forall o, In o w -> o / 3 <= last w 0 / 3.
Proof.
  induction w as [|a w IH]; [intros _ o []|]. intros S. pose proof (sorted_first a w S) as F. apply StronglySorted_inv in S. destruct S as [S _].
  intros o Ho. destruct w as [|b w].
  - destruct Ho as [<-|[]]. cbn. lia.
  - change (last (a :: b :: w) 0) with (last (b :: w) 0). destruct Ho as [<-|Ho]; [|now apply IH].
    etransitivity; [apply (F b); right; now left|]. apply IH; [exact S|now left].
Qed.
Lemma last_in (w : word) : w <> [] -> In (last w 0) w.
Proof. induction w as [|a w IH]; [congruence|]. intros _. destruct w as [|b w]; [now left|]. right. apply IH. discriminate. Qed.

Definition corner (ch : nat) (w : word) (r c : nat) : Prop :=
  (forall o, In o w -> r <= orow ch o /\ c <= ocol ch o) /\ (exists o, In o w /\ orow ch o = r) /\ (exists o, In o w /\ ocol ch o = c).
Lemma lattice_minimum_corner ch w : 0 < ch -> StronglySorted (fun a b => a / 3 < b / 3) w -> w <> [] ->
  corner ch w (fst (lattice_minimum ch w)) (snd (lattice_minimum ch w)).
Proof.
  intros Hch S Ne. destruct w as [|op w]; [congruence|]. cbn [lattice_minimum fst snd].
  destruct (fold_min_spec (fun o => (o / 3) mod ch) w ((op / 3) mod ch)) as (A1 & A2 & A3). cbn zeta in *. rewrite op_col.
  split; [|split].
  - intros o Ho. split.
    + destruct Ho as [<-|Ho]; [exact A1|now apply A2].
    + unfold ocol. apply Nat.div_le_mono; [lia|]. now apply (sorted_first op w).
  - destruct A3 as [E|(o & Ho & E)]; [exists op; split; [now left|now symmetry]|exists o; split; [now right|now symmetry]].
  - exists op. split; [now left|reflexivity].
Qed.
Lemma corner_unique ch w r c r' c' : corner ch w r c -> corner ch w r' c' -> r = r' /\ c = c'.
Proof.
  intros (A & (o1 & I1 & E1) & (o2 & I2 & E2)) (B & (p1 & J1 & F1) & (p2 & J2 & F2)).
  pose proof (proj1 (A p1 J1)). pose proof (proj1 (B o1 I1)). pose proof (proj2 (A p2 J2)). pose proof (proj2 (B o2 I2)). lia.
Qed.
Lemma forall2_in_l {A B} (P : A -> B -> Prop) l l' : Forall2 P l l' -> forall x, In x l -> exists y, In y l' /\ P x y.
Proof. induction 1 as [|x y l l' H F IH]; [intros ? []|]. intros z [<-|Hz]; [exists y; split; [now left|exact H]|]. destruct (IH z Hz) as (u & Hu & Pu). exists u. split; [now right|exact Pu]. Qed.
Lemma forall2_in_r {A B} (P : A -> B -> Prop) l l' : Forall2 P l l' -> forall y, In y l' -> exists x, In x l /\ P x y.
Proof. induction 1 as [|x y l l' H F IH]; [intros ? []|]. intros z [<-|Hz]; [exists x; split; [now left|exact H]|]. destruct (IH z Hz) as (u & Hu & Pu). exists u. split; [now right|exact Pu]. Qed.
Lemma corner_moved ch w w' r c r0 c0 r1 c1 : open_moved ch r c w w' -> corner ch w r0 c0 -> corner ch w' r1 c1 ->
  Z.of_nat r1 = (Z.of_nat r0 + r)%Z /\ Z.of_nat c1 = (Z.of_nat c0 + c)%Z.
Proof.
  unfold open_moved. intros F (A & (o1 & I1 & E1) & (o2 & I2 & E2)) (B & (p1 & J1 & F1) & (p2 & J2 & F2)).
  destruct (forall2_in_l _ _ _ F o1 I1) as (u1 & U1 & _ & V1 & _). destruct (forall2_in_l _ _ _ F o2 I2) as (u2 & U2 & _ & _ & V2).
  destruct (forall2_in_r _ _ _ F p1 J1) as (x1 & X1 & _ & Y1 & _). destruct (forall2_in_r _ _ _ F p2 J2) as (x2 & X2 & _ & _ & Y2).
  pose proof (proj1 (B u1 U1)). pose proof (proj2 (B u2 U2)). pose proof (proj1 (A x1 X1)). pose proof (proj2 (A x2 X2)).
  unfold orow, ocol in *. lia.
Qed.
Lemma lattice_canonical_map ch w :
  lattice_canonical ch w = map (fun op => op - (snd (lattice_minimum ch w) * (ch * 3) + fst (lattice_minimum ch w) * 3)) w.
Proof.
  unfold lattice_canonical. cbn zeta. destruct (Nat.eqb_spec (fst (lattice_minimum ch w)) 0) as [->|]; cbn [andb]; [|reflexivity].
  destruct (Nat.eqb_spec (snd (lattice_minimum ch w)) 0) as [->|]; [|reflexivity].
  cbn. symmetry. rewrite <- (map_id w) at 2. apply map_ext. intros. lia.
Qed.

(** the canonical word is the word moved so that its least row and its least column are zero *)
Lemma lattice_canonical_moved ch w : 0 < ch -> StronglySorted (fun a b => a / 3 < b / 3) w ->
  open_moved ch (- Z.of_nat (fst (lattice_minimum ch w))) (- Z.of_nat (snd (lattice_minimum ch w))) w (lattice_canonical ch w).
Proof.
  intros Hch S. rewrite lattice_canonical_map. destruct w as [|op w]; [constructor|].
  pose proof (lattice_minimum_corner ch (op :: w) Hch S ltac:(discriminate)) as (A & _ & _).
  set (r := fst (lattice_minimum ch (op :: w))) in *. set (c := snd (lattice_minimum ch (op :: w))) in *. clearbody r c. clear S.
  unfold open_moved. induction (op :: w) as [|a l IH]; [constructor|]. cbn [map]. constructor.
  - destruct (A a (or_introl eq_refl)) as [A1 A2]. pose proof (op_sub ch r c a Hch A1 A2) as (B1 & B2 & B3). cbn zeta in *.
    unfold orow, ocol in *. repeat split; [exact B1| |]; lia.
  - apply IH. intros o Ho. apply A. now right.
Qed.
Lemma lattice_translate ch w : 0 < ch -> StronglySorted (fun a b => a / 3 < b / 3) w ->
  exists r c, open_moved ch r c w (lattice_canonical ch w).
Proof. intros Hch S. eauto using lattice_canonical_moved. Qed.

Lemma open_moved_sorted ch r c w w' : 0 < ch -> open_moved ch r c w w' -> StronglySorted (fun a b => a / 3 < b / 3) w ->
  StronglySorted (fun a b => a / 3 < b / 3) w'.
Proof.
  intros Hch. unfold open_moved. induction 1 as [|x y l l' H F IH]; intros S; [constructor|].
  apply StronglySorted_inv in S. destruct S as [S Fx]. constructor; [now apply IH|]. apply Forall_forall. intros z Hz.
  destruct (forall2_in_r _ _ _ F z Hz) as (u & Hu & _ & U1 & U2). rewrite Forall_forall in Fx. specialize (Fx u Hu). cbv beta in Fx.
  destruct H as (_ & H1 & H2). pose proof (Nat.div_mod (x / 3) ch ltac:(lia)) as D1. pose proof (Nat.div_mod (u / 3) ch ltac:(lia)) as D2.
  pose proof (Nat.div_mod (y / 3) ch ltac:(lia)) as D3. pose proof (Nat.div_mod (z / 3) ch ltac:(lia)) as D4.
  apply Nat2Z.inj_lt. apply Nat2Z.inj_lt in Fx. rewrite D3, D4. rewrite D1, D2 in Fx. rewrite !Nat2Z.inj_add, !Nat2Z.inj_mul in *. rewrite H1, H2, U1, U2. lia.
Qed.
Lemma open_moved_canonical ch r c w w' : 0 < ch -> StronglySorted (fun a b => a / 3 < b / 3) w -> open_moved ch r c w w' ->
  lattice_canonical ch w = lattice_canonical ch w'.
Proof.
  intros Hch S M. destruct w as [|op w]; [inversion M; reflexivity|].
  pose proof (open_moved_sorted _ _ _ _ _ Hch M S) as S'.
  assert (Ne : w' <> []) by (intros ->; inversion M).
  pose proof (lattice_minimum_corner ch (op :: w) Hch S ltac:(discriminate)) as C. pose proof (lattice_minimum_corner ch w' Hch S' Ne) as C'.
  rewrite !lattice_canonical_map. destruct (corner_moved _ _ _ _ _ _ _ _ _ M C C') as [Er Ec]. destruct C as (A & _). destruct C' as (A' & _).
  set (r0 := fst (lattice_minimum ch (op :: w))) in *. set (c0 := snd (lattice_minimum ch (op :: w))) in *.
  set (r1 := fst (lattice_minimum ch w')) in *. set (c1 := snd (lattice_minimum ch w')) in *. clearbody r0 c0 r1 c1. clear S S' Ne.
  unfold open_moved in M. induction M as [|x y l l' H F IH]; [reflexivity|]. cbn [map]. f_equal.
  - destruct (A x (or_introl eq_refl)) as [A1 A2]. destruct (A' y (or_introl eq_refl)) as [A1' A2'].
    pose proof (op_sub ch r0 c0 x Hch A1 A2) as (B1 & B2 & B3). pose proof (op_sub ch r1 c1 y Hch A1' A2') as (D1 & D2 & D3). cbn zeta in *.
    destruct H as (H1 & H2 & H3).
    rewrite (op_eq ch (x - _) Hch), (op_eq ch (y - _) Hch). rewrite B1, B2, B3, D1, D2, D3.
    unfold orow, ocol in *. replace (y / 3 / ch - c1) with (x / 3 / ch - c0) by lia. replace ((y / 3) mod ch - r1) with ((x / 3) mod ch - r0) by lia. lia.
  - apply IH; intros o Ho; [apply A|apply A']; now right.
Qed.
Lemma open_moved_refl ch w : open_moved ch 0 0 w w.
Proof. unfold open_moved. induction w; constructor; auto. repeat split; lia. Qed.
Lemma open_moved_back ch r c r' c' w w' u : open_moved ch r c w u -> open_moved ch r' c' w' u -> open_moved ch (r - r') (c - c') w w'.
Proof.
  unfold open_moved. intros M. revert w'. induction M as [|x y l l' H F IH]; intros w' M'.
  - inversion M'. constructor.
  - inversion M' as [|a b k k' Ha Fa]. subst. constructor; [|now apply IH]. destruct H as (H1 & H2 & H3). destruct Ha as (A1 & A2 & A3). split; [congruence|lia].
Qed.
Lemma lattice_decides ch w w' : 0 < ch -> StronglySorted (fun a b => a / 3 < b / 3) w -> StronglySorted (fun a b => a / 3 < b / 3) w' ->
  lattice_canonical ch w = lattice_canonical ch w' <-> exists r c, open_moved ch r c w w'.
Proof.
  intros Hch S S'. split.
  - intros E. pose proof (lattice_canonical_moved ch w Hch S) as M. pose proof (lattice_canonical_moved ch w' Hch S') as M'.
    rewrite <- E in M'. eexists _, _. exact (open_moved_back _ _ _ _ _ _ _ _ M M').
  - intros (r & c & M). now apply (open_moved_canonical ch r c).
Qed.
Lemma map_sub_id x w : map (fun op => op - x) w = w -> w <> [] -> (exists o, In o w /\ 0 < o) -> (forall o, In o w -> 0 < o) -> x = 0.
Proof. destruct w as [|a w]; [congruence|]. cbn [map]. intros E _ _ H. injection E as E _. specialize (H a (or_introl eq_refl)). lia. Qed.
Lemma existsb_row ch w : existsb (fun o => Nat.eqb ((o / 3) mod ch) 0) w = true <-> exists o, In o w /\ orow ch o = 0.
Proof. rewrite existsb_exists. split; intros (o & Ho & E); exists o; split; auto; [now apply Nat.eqb_eq|now apply Nat.eqb_eq in E || (apply Nat.eqb_eq; exact E)]. Qed.
Lemma lattice_is ch w : 0 < ch -> StronglySorted (fun a b => a / 3 < b / 3) w ->
  lattice_is_canonical ch w = true <-> lattice_canonical ch w = w.
Proof.
  intros Hch S. destruct w as [|op w]; [split; reflexivity|].
  pose proof (lattice_minimum_corner ch (op :: w) Hch S ltac:(discriminate)) as C.
  assert (K : lattice_is_canonical ch (op :: w) = true <-> fst (lattice_minimum ch (op :: w)) = 0 /\ snd (lattice_minimum ch (op :: w)) = 0).
  { cbn [lattice_is_canonical]. cbn [lattice_minimum snd]. fold (lattice_minimum ch (op :: w)).
    destruct C as (A & (o1 & I1 & E1) & _).
    destruct (Nat.ltb_spec 0 (op / (ch * 3))) as [L|L].
    - split; [discriminate|]. intros [_ E]. lia.
    - change (existsb (fun o => Nat.eqb ((o / 3) mod ch) 0) (op :: w) = true <-> fst (lattice_minimum ch (op :: w)) = 0 /\ op / (ch * 3) = 0). rewrite existsb_row. split.
      + intros (o & Ho & Eo). split; [|lia]. pose proof (proj1 (A o Ho)). lia.
      + intros [E _]. exists o1. split; [exact I1|]. congruence. }
  rewrite K. clear K. split.
  - intros [E1 E2]. unfold lattice_canonical. cbn zeta. rewrite E1, E2. reflexivity.
  - intros E. pose proof (lattice_canonical_moved ch (op :: w) Hch S) as M. rewrite E in M.
    inversion M as [|a b l l' (_ & H1 & H2) F]. subst. lia.
Qed.
Lemma lattice_sup ch w : 0 < ch -> StronglySorted (fun a b => a / 3 < b / 3) w ->
  let s := lattice_supremum ch w in
  (forall o, In o w -> (o / 3) mod ch < fst s /\ o / 3 / ch < snd s) /\
  (w <> [] -> (exists o, In o w /\ S ((o / 3) mod ch) = fst s) /\ (exists o, In o w /\ S (o / 3 / ch) = snd s)) /\ (w = [] -> s = (0, 0)).
Proof.
  intros Hch S s. destruct w as [|op w]; [split; [intros o []|split; [congruence|reflexivity]]|].
  split; [|split; [|discriminate]].
  - intros o Ho. unfold s, lattice_supremum. cbn [fst snd].
    destruct (fold_max_spec (fun o => 1 + (o / 3) mod ch) w ((op / 3) mod ch + 1)) as (A1 & A2 & _). cbn zeta in *. split.
    + destruct Ho as [<-|Ho]; [lia|]. specialize (A2 o Ho). lia.
    + rewrite op_col. unfold ocol. assert (o / 3 / ch <= last (op :: w) 0 / 3 / ch) by (apply Nat.div_le_mono; [lia|]; now apply sorted_last). lia.
  - intros _. unfold s, lattice_supremum. cbn [fst snd].
    destruct (fold_max_spec (fun o => 1 + (o / 3) mod ch) w ((op / 3) mod ch + 1)) as (_ & _ & A3). cbn zeta in *. split.
    + destruct A3 as [E|(o & Ho & E)]; [exists op; split; [now left|lia]|exists o; split; [now right|lia]].
    + exists (last (op :: w) 0). split; [apply last_in; discriminate|]. rewrite op_col. reflexivity.
Qed.
(** offsets *)
Lemma lattice_offset_moved ch w r c : 0 < ch ->
  (forall o, In o w -> (0 <= Z.of_nat ((o / 3) mod ch) + r < Z.of_nat ch)%Z /\ (0 <= Z.of_nat (o / 3 / ch) + c)%Z) ->
  exists w', lattice_offset ch w r c = map Z.of_nat w' /\ open_moved ch r c w w'.
Proof.
  intros Hch. unfold lattice_offset, do_chain_offset, open_moved. induction w as [|a w IH]; intros H; [exists []; split; [reflexivity|constructor]|].
  destruct IH as (w' & E & F); [intros o Ho; apply H; now right|]. destruct (H a (or_introl eq_refl)) as [H1 H2].
  set (r1 := Z.to_nat (Z.of_nat ((a / 3) mod ch) + r)). set (c1 := Z.to_nat (Z.of_nat (a / 3 / ch) + c)).
  pose proof (Nat.mod_upper_bound a 3 ltac:(lia)) as Hp.
  destruct (op_make ch r1 c1 (a mod 3) ltac:(lia) Hp) as (P1 & P2 & P3).
  exists ((3 * (c1 * ch + r1) + a mod 3) :: w'). split.
  - cbn [map]. rewrite E. f_equal. pose proof (op_eq ch a Hch) as Ea. unfold orow, ocol in Ea. rewrite Ea at 1. unfold r1, c1.
    rewrite !Nat2Z.inj_add, !Nat2Z.inj_mul, !Nat2Z.inj_add, !Nat2Z.inj_mul, !Z2Nat.id by lia. ring.
  - constructor; [|exact F]. unfold orow, ocol in P2, P3. rewrite P1, P2, P3. unfold r1, c1. repeat split; lia.
Qed.

(** chains *)
Lemma op_eq1 op : op = 3 * (op / 3) + op mod 3. Proof. apply Nat.div_mod. lia. Qed.
Lemma op_sub1 m op : m <= op / 3 -> (op - 3 * m) mod 3 = op mod 3 /\ (op - 3 * m) / 3 = op / 3 - m.
Proof.
  intros H. pose proof (op_eq1 op) as E. pose proof (Nat.mod_upper_bound op 3 ltac:(lia)).
  split; symmetry; [apply (Nat.mod_unique _ 3 (op / 3 - m)); lia|apply (Nat.div_unique _ 3 _ (op mod 3)); lia].
Qed.
Lemma chain_canonical_map w : chain_canonical w = map (fun op => op - 3 * chain_minimum w) w.
Proof.
  unfold chain_canonical. cbn zeta. destruct (Nat.eqb_spec (3 * chain_minimum w) 0) as [->|]; [|reflexivity].
  symmetry. rewrite <- (map_id w) at 2. apply map_ext. intros. lia.
Qed.
Lemma chain_minimum_le w : StronglySorted (fun a b => a / 3 < b / 3) w -> forall o, In o w -> chain_minimum w <= o / 3.
Proof. destruct w as [|op w]; [intros _ o []|]. apply sorted_first. Qed.
Lemma chain_canonical_moved w : StronglySorted (fun a b => a / 3 < b / 3) w -> open_chain_moved (- Z.of_nat (chain_minimum w)) w (chain_canonical w).
Proof.
  intros S. rewrite chain_canonical_map. pose proof (chain_minimum_le w S) as A. set (m := chain_minimum w) in *. clearbody m. clear S.
  unfold open_chain_moved. induction w as [|a l IH]; [constructor|]. cbn [map]. constructor.
  - destruct (op_sub1 m a (A a (or_introl eq_refl))) as [B1 B2]. specialize (A a (or_introl eq_refl)). split; [exact B1|]. lia.
  - apply IH. intros o Ho. apply A. now right.
Qed.
Lemma chain_moved_canonical k w w' : StronglySorted (fun a b => a / 3 < b / 3) w -> open_chain_moved k w w' -> chain_canonical w = chain_canonical w'.
Proof.
  intros S M. pose proof (chain_minimum_le w S) as A.
  assert (E : w = [] \/ Z.of_nat (chain_minimum w') = (Z.of_nat (chain_minimum w) + k)%Z) by (inversion M as [|x y l l' [_ H] F]; [now left|right; exact H]).
  destruct E as [->|E]; [inversion M; reflexivity|]. rewrite !chain_canonical_map.
  set (m := chain_minimum w) in *. set (m' := chain_minimum w') in *. clearbody m m'. clear S.
  unfold open_chain_moved in M. induction M as [|x y l l' [H1 H2] F IH]; [reflexivity|]. cbn [map]. f_equal.
  - specialize (A x (or_introl eq_refl)). rewrite (op_eq1 x), (op_eq1 y) at 1. rewrite H1. lia.
  - apply IH. intros o Ho. apply A. now right.
Qed.
Lemma open_chain_back k k' w w' u : open_chain_moved k w u -> open_chain_moved k' w' u -> open_chain_moved (k - k') w w'.
Proof.
  unfold open_chain_moved. intros M. revert w'. induction M as [|x y l l' H F IH]; intros w' M'.
  - inversion M'. constructor.
  - inversion M' as [|a b m m' Ha Fa]. subst. constructor; [|now apply IH]. destruct H as (H1 & H2). destruct Ha as (A1 & A2). split; [congruence|lia].
Qed.
Lemma open_chain_decides w w' : StronglySorted (fun a b => a / 3 < b / 3) w -> StronglySorted (fun a b => a / 3 < b / 3) w' ->
  chain_canonical w = chain_canonical w' <-> exists k, open_chain_moved k w w'.
Proof.
  intros S S'. split.
  - intros E. pose proof (chain_canonical_moved w S) as M. pose proof (chain_canonical_moved w' S') as M'. rewrite <- E in M'.
    eexists. exact (open_chain_back _ _ _ _ _ M M').
  - intros (k & M). now apply (chain_moved_canonical k).
Qed.
Lemma open_chain_is w : chain_is_canonical w = true <-> chain_canonical w = w.
Proof.
  destruct w as [|op w]; [split; reflexivity|]. rewrite chain_canonical_map. cbn [chain_is_canonical chain_minimum map]. rewrite Nat.leb_le. split.
  - intros H. assert (op / 3 = 0) as -> by (apply Nat.div_small; lia). f_equal; [lia|]. rewrite <- (map_id w) at 2. apply map_ext. intros. lia.
  - intros E. assert (E' : op - 3 * (op / 3) = op) by (now injection E). clear E. pose proof (op_eq1 op). pose proof (Nat.mod_upper_bound op 3 ltac:(lia)). lia.
Qed.
Lemma open_chain_sup w : StronglySorted (fun a b => a / 3 < b / 3) w ->
  (forall o, In o w -> o / 3 < chain_supremum w) /\ (w <> [] -> exists o, In o w /\ S (o / 3) = chain_supremum w) /\ (w = [] -> chain_supremum w = 0).
Proof.
  intros S. destruct w as [|op w]; [split; [intros o []|split; [congruence|reflexivity]]|]. split; [|split; [|discriminate]].
  - intros o Ho. pose proof (sorted_last _ S o Ho). unfold chain_supremum. lia.
  - intros _. exists (last (op :: w) 0). split; [apply last_in; discriminate|]. unfold chain_supremum. lia.
Qed.
Lemma chain_sup_poly p : (forall w, In w p -> StronglySorted (fun a b => a / 3 < b / 3) w) ->
  (forall w o, In w p -> In o w -> o / 3 < chain_supremum_poly p) /\
  (chain_supremum_poly p = 0 \/ exists w o, In w p /\ In o w /\ S (o / 3) = chain_supremum_poly p).
Proof.
  intros S. unfold chain_supremum_poly. destruct (fold_max_spec chain_supremum p 0) as (_ & A2 & A3). cbn zeta in *. split.
  - intros w o Hw Ho. pose proof (proj1 (open_chain_sup w (S w Hw)) o Ho). specialize (A2 w Hw). lia.
  - destruct A3 as [E|(w & Hw & E)]; [now left|]. rewrite E. destruct (list_eq_dec Nat.eq_dec w []) as [->|Ew]; [now left|]. right.
    destruct (open_chain_sup w (S w Hw)) as (_ & B & _). destruct B as (o & Ho & Eo); [exact Ew|]. exists w, o. auto.
Qed.
Lemma chain_offset_moved w k : (forall o, In o w -> (0 <= Z.of_nat (o / 3) + k)%Z) ->
  exists w', do_chain_offset w k = map Z.of_nat w' /\ open_chain_moved k w w'.
Proof.
  unfold do_chain_offset, open_chain_moved. induction w as [|a w IH]; intros H; [exists []; split; [reflexivity|constructor]|].
  destruct IH as (w' & E & F); [intros o Ho; apply H; now right|]. specialize (H a (or_introl eq_refl)).
  set (q := Z.to_nat (Z.of_nat (a / 3) + k)). pose proof (Nat.mod_upper_bound a 3 ltac:(lia)) as Hp. pose proof (op_eq1 a) as Ea.
  exists ((3 * q + a mod 3) :: w'). split.
  - cbn [map]. rewrite E. f_equal. unfold q. lia.
  - constructor; [|exact F]. split; [symmetry; apply (Nat.mod_unique _ 3 q); lia|].
    replace ((3 * q + a mod 3) / 3) with q by (apply (Nat.div_unique _ 3 _ (a mod 3)); lia). unfold q. lia.
Qed.

(** the representative touches the first row and the first column, and no other translate does *)
Lemma lattice_touches ch w w0 : 0 < ch -> StronglySorted (fun a b => a / 3 < b / 3) w -> w <> [] ->
  w0 = lattice_canonical ch w <->
  (exists r c, open_moved ch r c w w0) /\ (exists o, In o w0 /\ (o / 3) mod ch = 0) /\ (exists o, In o w0 /\ o / 3 / ch = 0).
Proof.
  intros Hch S Ne. split.
  - intros ->. pose proof (lattice_canonical_moved ch w Hch S) as M. split; [eauto|].
    pose proof (lattice_minimum_corner ch w Hch S Ne) as (_ & (o1 & I1 & E1) & (o2 & I2 & E2)).
    unfold open_moved in M. destruct (forall2_in_l _ _ _ M o1 I1) as (u1 & U1 & _ & V1 & _). destruct (forall2_in_l _ _ _ M o2 I2) as (u2 & U2 & _ & _ & V2).
    unfold orow, ocol in *. split; [exists u1|exists u2]; split; auto; lia.
  - intros ((r & c & M) & (o1 & I1 & E1) & (o2 & I2 & E2)). rewrite (open_moved_canonical ch r c w w0 Hch S M).
    pose proof (open_moved_sorted _ _ _ _ _ Hch M S) as S0. symmetry. rewrite lattice_canonical_map.
    assert (Ne0 : w0 <> []) by (intros ->; destruct I1).
    destruct (lattice_minimum_corner ch w0 Hch S0 Ne0) as (A & _ & _). pose proof (proj1 (A o1 I1)). pose proof (proj2 (A o2 I2)). unfold orow, ocol in *.
    assert (fst (lattice_minimum ch w0) = 0) as -> by lia. assert (snd (lattice_minimum ch w0) = 0) as -> by lia.
    cbn. rewrite <- (map_id w0) at 2. apply map_ext. intros. lia.
Qed.
Lemma chain_touches w w0 : StronglySorted (fun a b => a / 3 < b / 3) w -> w <> [] ->
  w0 = chain_canonical w <-> (exists k, open_chain_moved k w w0) /\ (exists o, In o w0 /\ o / 3 = 0).
Proof.
  intros S Ne. split.
  - intros ->. pose proof (chain_canonical_moved w S) as M. split; [eauto|]. destruct w as [|op w]; [congruence|].
    unfold open_chain_moved in M. destruct (forall2_in_l _ _ _ M op (or_introl eq_refl)) as (u & U & _ & V). cbn [chain_minimum] in V.
    exists u. split; [exact U|]. lia.
  - intros ((k & M) & (o & I1 & E1)). rewrite (chain_moved_canonical k w w0 S M). symmetry. apply open_chain_is.
    assert (A : forall o', In o' w0 -> chain_minimum w0 <= o' / 3).
    { destruct w as [|a w]; [congruence|]. inversion M as [|x b l l' [_ H] F]. subst. cbn [chain_minimum]. intros o' Ho'.
      destruct Ho' as [<-|Ho']; [lia|]. destruct (forall2_in_r _ _ _ F o' Ho') as (u & Hu & _ & U). pose proof (sorted_first a w S u (or_intror Hu)). lia. }
    specialize (A o I1). destruct w0 as [|b w0]; [destruct I1|]. cbn [chain_minimum chain_is_canonical] in *. apply Nat.leb_le.
    pose proof (op_eq1 b). pose proof (Nat.mod_upper_bound b 3 ltac:(lia)). lia.
Qed.
