(** Symmetrical copies on closed and open chains and lattices. *)
From Coq Require Import NArith ZArith QArith Qcanon Arith Bool List Lia Permutation Sorted.
From Verif Require Import CoreModel FieldModel FieldProofs SiteModel SiteSpec SiteWordProofs SiteThmProofs SiteOpenProofs SiteWitnessProofs PolyWitnessProofs CopModel CopSpec CopProofs.
Import ListNotations.
Local Open Scope list_scope.
Local Open Scope nat_scope.
Notation Q' := Qc_rfield.

Lemma some_in {A} (l : list A) : l <> [] -> exists a, In a l. Proof. destruct l as [|a l]; [easy|]. exists a. now left. Qed.
Section Final.
  Context {R : rfield} (wide : bool -> N -> N -> sout N).
  Notation poly := (list (word * cx R)).
  Lemma scalar_spec (p : poly) : is_scalar p = false <-> exists x, In x p /\ fst x <> [].
  Proof.
    unfold is_scalar. split.
    - intro H. induction p as [|[w f] p IH]; [discriminate|]. cbn [forallb fst] in H. destruct w as [|o w]; [|exists (o :: w, f); split; [now left|discriminate]]. destruct (IH H) as (x & X & Y). exists x. split; [now right|exact Y].
    - intros (x & X & Y). apply not_true_is_false; intro F. rewrite forallb_forall in F. specialize (F x X). destruct x as [w f]. cbn in F, Y. destruct w; [now apply Y|discriminate F].
  Qed.
  Lemma plain_copy k (p : poly) : k_sym k = false \/ (forall x, In x p -> fst x = []) -> symmetrical_copy wide k p = SOk p.
  Proof.
    intro H. unfold symmetrical_copy. destruct H as [->|H]; [reflexivity|]. assert (S : is_scalar p = true). { apply not_false_iff_true. intro F. apply scalar_spec in F. destruct F as (x & X & Y). now apply Y, H. }
    rewrite S, orb_true_r. reflexivity.
  Qed.
  Lemma seq_head n : 0 < n -> seq 0 n = 0 :: seq 1 (n - 1). Proof. destruct n; [lia|]. intros _. cbn [seq]. now rewrite Nat.sub_1_r. Qed.
  Lemma closed_chain_copy k (p : poly) : closed_chain k -> over_qubits (k_qubits k) p -> (exists x, In x p /\ fst x <> []) ->
    exists p', symmetrical_copy wide k p = SOk p' /\ averaged (chain_moved (k_qubits k)) (seq 0 (k_qubits k)) p p'.
  Proof.
    intros (SY & WR & CO & HO & QU & LE) OV NS. apply scalar_spec in NS. unfold symmetrical_copy, is_lattice. rewrite SY, NS, CO. cbn [negb orb Nat.eqb]. unfold copy_chain, max_chain. rewrite WR. pose proof (proj1 HO) as NP. rewrite QU in NP. rewrite (seq_head _ NP).
    unfold over_qubits in OV. rewrite Forall_forall in OV. apply copies_averaged; [rewrite seq_length; lia|intros x X; apply chain_still, OV, X|]. intros x d X D. apply in_seq in D. unfold chain_off. rewrite WR.
    destruct (chain_offset_ok wide (k_hasher k) (fst x) (Z.of_nat d) HO) as (w & E & M); [rewrite QU; now apply OV|split; [lia|]; apply Z.lt_le_trans with 256%Z; [lia|discriminate]|left; lia|]. exists w. split; [exact E|]. rewrite QU in M.
    rewrite Z.mod_small in M by lia. now rewrite Nat2Z.id in M.
  Qed.
  Lemma closed_chain_fixed k (p p' p'' : poly) j : closed_chain k -> averaged (chain_moved (k_qubits k)) (seq 0 (k_qubits k)) p p' -> moved (chain_moved (k_qubits k) j) p' p'' -> Permutation p' p''.
  Proof.
    intros (_ & _ & _ & HO & QU & _) AV MV. pose proof (proj1 HO) as NP. rewrite QU in NP. apply (averaged_moved (chain_moved (k_qubits k)) (fun d => (d + j) mod k_qubits k) (seq 0 (k_qubits k)) j p p' p''); auto.
    - intros d w a b. now apply chain_functional.
    - intros d w a b _. now apply chain_compose.
    - now apply rotate.
  Qed.
  Lemma closed_lattice_copy k (p : poly) : closed_lattice wide k -> over_qubits (k_col k * k_row k) p -> (exists x, In x p /\ fst x <> []) ->
    exists p', symmetrical_copy wide k p = SOk p' /\ averaged (torus_moved (k_col k) (k_row k)) (grid (k_col k) (k_row k)) p p'.
  Proof.
    intros (SY & WR & CP & HO & RO & HC & HR & LE) OV NS. apply scalar_spec in NS. unfold symmetrical_copy, is_lattice. rewrite SY, NS. destruct (Nat.eqb_spec (k_col k) 0) as [Z|_]; [lia|]. cbn [negb orb]. unfold copy_lattice, max_lattice. rewrite WR. cbn [fst snd].
    assert (RP : 0 < k_row k). { pose proof (proj1 HO) as NP. unfold h_qubits in NP. rewrite HC, HR in NP. destruct (k_row k); [lia|lia]. }
    rewrite (grid_tl _ _ CP RP). unfold over_qubits in OV. rewrite Forall_forall in OV. pose proof (grid_length (k_col k) (k_row k)) as GL. rewrite (grid_tl _ _ CP RP) in GL. cbn [length] in GL.
    apply copies_averaged; [lia|intros x X; apply torus_still, OV, X|]. intros x [r c] X D. assert (G : r < k_col k /\ c < k_row k) by (apply grid_in; rewrite (grid_tl _ _ CP RP); now right). unfold lattice_off. rewrite WR. cbn [fst snd].
    assert (k_col k <= 256 /\ k_row k <= 256) as [L1 L2] by nia.
    destruct (lattice_offset_ok wide (k_hasher k) (fst x) (Z.of_nat r) (Z.of_nat c) HO RO) as (w & E & M).
    - unfold h_qubits. rewrite HC, HR. now apply OV.
    - split; [lia|]. apply Z.lt_le_trans with 256%Z; [lia|discriminate].
    - split; [lia|]. apply Z.lt_le_trans with 256%Z; [lia|discriminate].
    - left. lia.
    - right. right. rewrite HC. lia.
    - exists w. split; [exact E|]. rewrite HC, HR in M. rewrite !Z.mod_small in M by lia. rewrite !Nat2Z.id in M. exact M.
  Qed.
  Lemma closed_lattice_fixed k (p p' p'' : poly) j : closed_lattice wide k -> averaged (torus_moved (k_col k) (k_row k)) (grid (k_col k) (k_row k)) p p' -> moved (torus_moved (k_col k) (k_row k) j) p' p'' -> Permutation p' p''.
  Proof.
    intros (SY & WR & CP & HO & RO & HC & HR & LE) AV MV. assert (RP : 0 < k_row k). { pose proof (proj1 HO) as NP. unfold h_qubits in NP. rewrite HC, HR in NP. destruct (k_row k); [lia|lia]. }
    apply (averaged_moved (torus_moved (k_col k) (k_row k)) (fun d => ((fst d + fst j) mod k_col k, (snd d + snd j) mod k_row k)) (grid (k_col k) (k_row k)) j p p' p''); auto.
    - intros d w a b. now apply torus_functional.
    - intros d w a b _. now apply torus_compose.
    - now apply rotate_grid.
  Qed.
  (** open chains *)
  Lemma open_chain_room k (p : poly) : open_chain k -> over_qubits (k_qubits k) p -> (exists x, In x p /\ fst x <> []) ->
    forall d, d < max_chain k p <-> forall x o, In x p -> In o (fst x) -> o / 3 + d < k_qubits k.
  Proof.
    intros (_ & WR & _) OV (x0 & X0 & NE) d. unfold over_qubits in OV. rewrite Forall_forall in OV. unfold max_chain. rewrite WR. destruct (chain_sup_poly (map fst p)) as [A B].
    { intros w W. apply in_map_iff in W. destruct W as (x & <- & X). exact (proj1 (OV x X)). }
    assert (LE : forall x o, In x p -> In o (fst x) -> o / 3 < k_qubits k). { intros x o X O. apply Nat.div_lt_upper_bound; [lia|]. exact (proj2 (OV x X) o O). }
    assert (B' : exists x o, In x p /\ In o (fst x) /\ S (o / 3) = chain_supremum_poly (map fst p)).
    { destruct B as [B|(w & o & W & O & E)].
      - exfalso. destruct (some_in _ NE) as [o O]. specialize (A (fst x0) o (in_map fst p x0 X0) O). lia.
      - apply in_map_iff in W. destruct W as (x & <- & X). now exists x, o. }
    split.
    - intros H x o X O. specialize (A (fst x) o (in_map fst p x X) O). lia.
    - intro H. destruct B' as (x & o & X & O & E). specialize (H x o X O). specialize (LE x o X O). lia.
  Qed.
  Lemma open_chain_copy k (p : poly) : open_chain k -> over_qubits (k_qubits k) p -> (exists x, In x p /\ fst x <> []) ->
    exists p', symmetrical_copy wide k p = SOk p' /\ averaged (inside_chain (k_qubits k)) (seq 0 (max_chain k p)) p p' /\ 0 < max_chain k p.
  Proof.
    intros OC OV NS. pose proof (open_chain_room k p OC OV NS) as RM. assert (MP : 0 < max_chain k p).
    { apply RM. unfold over_qubits in OV. rewrite Forall_forall in OV. intros x o X O. rewrite Nat.add_0_r. apply Nat.div_lt_upper_bound; [lia|]. exact (proj2 (OV x X) o O). }
    destruct OC as (SY & WR & CO). apply scalar_spec in NS. unfold symmetrical_copy, is_lattice. rewrite SY, NS, CO. cbn [negb orb Nat.eqb]. unfold copy_chain. rewrite (seq_head _ MP). unfold over_qubits in OV. rewrite Forall_forall in OV.
    destruct (copies_averaged (chain_off wide k) (inside_chain (k_qubits k)) 0 (seq 1 (max_chain k p - 1)) (max_chain k p) p) as (p' & C & AV).
    - rewrite seq_length. lia.
    - intros x X. split; [|now apply OV]. clear. unfold open_chain_moved. induction (fst x) as [|o w IH]; constructor; [split; [reflexivity|lia]|exact IH].
    - intros x d X D. apply in_seq in D. unfold chain_off. rewrite WR. eexists. split; [reflexivity|]. apply open_chain_step; [now apply OV|]. intros o O. apply (proj1 (RM d)) with (x := x); [lia|exact X|exact O].
    - exists p'. split; [exact C|]. split; [exact AV|exact MP].
  Qed.
  (** open lattices *)
  Lemma sup_poly ch (p : poly) : 0 < ch -> (forall x, In x p -> StronglySorted (fun a b => a / 3 < b / 3) (fst x)) -> (exists x, In x p /\ fst x <> []) -> let s := lattice_supremum_poly ch p in
    (forall x o, In x p -> In o (fst x) -> (o / 3) mod ch < fst s /\ o / 3 / ch < snd s) /\
    (exists x o, In x p /\ In o (fst x) /\ S ((o / 3) mod ch) = fst s) /\ (exists x o, In x p /\ In o (fst x) /\ S (o / 3 / ch) = snd s).
  Proof.
    intros HC HS NS. cbn zeta. unfold lattice_supremum_poly.
    assert (G : forall q m, (forall x, In x q -> StronglySorted (fun a b => a / 3 < b / 3) (fst x)) -> let s := fold_left (fun m (x : word * cx R) => let s := lattice_supremum ch (fst x) in (Nat.max (fst m) (fst s), Nat.max (snd m) (snd s))) q m in
      fst m <= fst s /\ snd m <= snd s /\ (forall x o, In x q -> In o (fst x) -> (o / 3) mod ch < fst s /\ o / 3 / ch < snd s) /\
      (fst s = fst m \/ exists x o, In x q /\ In o (fst x) /\ S ((o / 3) mod ch) = fst s) /\ (snd s = snd m \/ exists x o, In x q /\ In o (fst x) /\ S (o / 3 / ch) = snd s)).
    { clear - HC. intro q. induction q as [|y q IH]; intros m HS; cbn [fold_left].
      - split; [lia|]. split; [lia|]. split; [intros x o []|]. split; now left.
      - cbn zeta. set (m1 := (Nat.max (fst m) (fst (lattice_supremum ch (fst y))), Nat.max (snd m) (snd (lattice_supremum ch (fst y))))). specialize (IH m1 (fun x X => HS x (or_intror X))). cbn zeta in IH. destruct IH as (I1 & I2 & I3 & I4 & I5).
        pose proof (lattice_sup ch (fst y) HC (HS y (or_introl eq_refl))) as (S1 & S2 & S3). match type of I1 with _ <= fst ?f => set (s := f) in * end. assert (F1 : fst m1 = Nat.max (fst m) (fst (lattice_supremum ch (fst y)))) by reflexivity.
        assert (F2 : snd m1 = Nat.max (snd m) (snd (lattice_supremum ch (fst y)))) by reflexivity. match goal with |- fst m <= fst ?f /\ _ => change f with s end. split; [lia|]. split; [lia|]. split; [|split].
        + intros x o [<-|X] O; [specialize (S1 o O); lia|]. exact (I3 x o X O).
        + destruct I4 as [I4|(x & o & X & O & E)]; [|right; exists x, o; split; [now right|auto]]. destruct (Nat.max_spec (fst m) (fst (lattice_supremum ch (fst y)))) as [[L M]|[L M]]; [|left; lia].
          destruct (fst y) as [|o w] eqn:Fy; [cbn in L; lia|]. destruct S2 as [(o' & O' & E) _]; [discriminate|]. right. exists y, o'. split; [now left|]. rewrite Fy. split; [exact O'|]. lia.
        + destruct I5 as [I5|(x & o & X & O & E)]; [|right; exists x, o; split; [now right|auto]]. destruct (Nat.max_spec (snd m) (snd (lattice_supremum ch (fst y)))) as [[L M]|[L M]]; [|left; lia].
          destruct (fst y) as [|o w] eqn:Fy; [cbn in L; lia|]. destruct S2 as [_ (o' & O' & E)]; [discriminate|]. right. exists y, o'. split; [now left|]. rewrite Fy. split; [exact O'|]. lia. }
    pose proof (G p (0, 0) HS) as GG. clear G. cbv zeta in GG |- *. match type of GG with _ <= fst ?f /\ _ => set (s := f) in *; try match goal with |- context [fst (fold_left ?g ?q ?m)] => change (fold_left g q m) with s end end. destruct GG as (_ & _ & G3 & G4 & G5). split; [exact G3|]. destruct NS as (x & X & NE). destruct (some_in _ NE) as [o O]. destruct (G3 x o X O) as [K1 K2]. cbn [fst snd] in G4, G5.
    split; [destruct G4 as [G4|G4]; [lia|exact G4]|destruct G5 as [G5|G5]; [exfalso; rewrite G5 in K2; exact (Nat.nlt_0_r _ K2)|exact G5]].
  Qed.
  Lemma in_lattice ch rw w o : 0 < ch -> pauli_word (ch * rw) w -> In o w -> (o / 3) mod ch < ch /\ o / 3 / ch < rw.
  Proof. intros H [_ L] O. specialize (L o O). split; [apply Nat.mod_upper_bound; lia|]. apply Nat.div_lt_upper_bound; [lia|]. apply Nat.div_lt_upper_bound; lia. Qed.
  Lemma open_lattice_room k (p : poly) : open_lattice k -> over_qubits (k_col k * k_row k) p -> (exists x, In x p /\ fst x <> []) ->
    forall r c, r < fst (max_lattice k p) /\ c < snd (max_lattice k p) <-> forall x o, In x p -> In o (fst x) -> (o / 3) mod k_col k + r < k_col k /\ o / 3 / k_col k + c < k_row k.
  Proof.
    intros (_ & WR & CP & _) OV NS r c. unfold over_qubits in OV. rewrite Forall_forall in OV. unfold max_lattice. rewrite WR. cbn zeta. destruct (sup_poly (k_col k) p CP (fun x X => proj1 (OV x X)) NS) as (A & (x1 & o1 & X1 & O1 & E1) & (x2 & o2 & X2 & O2 & E2)). cbn [fst snd]. split.
    - intros H x o X O. specialize (A x o X O). lia.
    - intro H. pose proof (H x1 o1 X1 O1). pose proof (H x2 o2 X2 O2). lia.
  Qed.
  Lemma open_lattice_copy k (p : poly) : open_lattice k -> over_qubits (k_col k * k_row k) p -> (exists x, In x p /\ fst x <> []) ->
    exists p', symmetrical_copy wide k p = SOk p' /\ averaged (inside_lattice (k_col k) (k_row k)) (grid (fst (max_lattice k p)) (snd (max_lattice k p))) p p' /\ grid (fst (max_lattice k p)) (snd (max_lattice k p)) <> [].
  Proof.
    intros OL OV NS. pose proof (open_lattice_room k p OL OV NS) as RM. unfold over_qubits in OV. rewrite Forall_forall in OV. destruct OL as (SY & WR & CP & RP). assert (MP : 0 < fst (max_lattice k p) /\ 0 < snd (max_lattice k p)).
    { apply RM. intros x o X O. rewrite !Nat.add_0_r. apply (in_lattice (k_col k) (k_row k) (fst x)); auto. }
    apply scalar_spec in NS. unfold symmetrical_copy, is_lattice. rewrite SY, NS. destruct (Nat.eqb_spec (k_col k) 0) as [Z|_]; [lia|]. cbn [negb orb]. unfold copy_lattice. destruct (max_lattice k p) as [mr mc] eqn:ML. cbn [fst snd] in *. destruct MP as [M1 M2].
    pose proof (grid_length mr mc) as GL. rewrite (grid_tl mr mc M1 M2) in *. cbn [length] in GL.
    destruct (copies_averaged (lattice_off wide k) (inside_lattice (k_col k) (k_row k)) (0, 0) (lattice_offsets mr mc) (mr * mc) p) as (p' & C & AV).
    - lia.
    - intros x X. split; [|now apply OV]. clear. unfold open_moved. cbn [fst snd]. induction (fst x) as [|o w IH]; constructor; [split; [reflexivity|lia]|exact IH].
    - intros x [r c] X D. assert (G : r < mr /\ c < mc) by (apply grid_in; rewrite (grid_tl mr mc M1 M2); now right). unfold lattice_off. rewrite WR. eexists. split; [reflexivity|]. apply open_lattice_step; [exact CP|now apply OV|]. intros o O. cbn [fst snd]. now apply (proj1 (RM r c) G x).
    - exists p'. split; [exact C|]. split; [exact AV|discriminate].
  Qed.
End Final.

(** instances *)
Fixpoint qnat (n : nat) : Qc := match n with O => 0%Qc | S m => (1 + qnat m)%Qc end.
Lemma qnat_cre n : cre (cnat (R:=Q') n) = qnat n.
Proof. induction n as [|n IH]; [reflexivity|]. cbn [cnat qnat]. rewrite <- IH. reflexivity. Qed.
Lemma qnat_nonneg n : (0 <= qnat n)%Qc.
Proof. induction n as [|n IH]; [apply Qcle_refl|]. cbn [qnat]. rewrite <- (Qcplus_0_l 0). apply Qcplus_le_compat; [discriminate|exact IH]. Qed.
Lemma counting_Qc : counting (R:=Q').
Proof.
  intros n H. apply (f_equal cre) in H. rewrite qnat_cre in H. cbn [qnat] in H. change (1 + qnat n = 0)%Qc in H.
  assert (L : (1 + 0 <= 1 + qnat n)%Qc) by (apply Qcplus_le_compat; [apply Qcle_refl|apply qnat_nonneg]). rewrite H in L. apply L. reflexivity.
Qed.
