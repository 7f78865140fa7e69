(** The core of a map says the same as the matrix. *)
From Coq Require Import List Arith Bool Sorted Lia Field_theory Ring.
From Verif Require Import CoreModel FieldModel FieldProofs SymModel SymSpec PolyModel PolySpec ParModel ParProofs DerModel DerSpec.
Import ListNotations.

Section Core.
  Context {R : rfield}.
  Variable positive : R -> bool.
  Hypothesis pos0 : positive (r0 R) = false.
  Lemma nz_false (x : R) : nz x = false <-> x = r0 R.
  Proof. unfold nz. rewrite negb_false_iff. apply r_eqb_spec. Qed.
  (** what a core says about a matrix *)
  Record says (skipped : nat -> bool) (x : input R) (c : mapcore R) : Prop := {
    sy_cols : forall i, In i (mc_cols c) -> 1 <= i < in_cols x /\ skipped i = false;
    sy_consts : forall i k, In (i, k) (mc_consts c) -> 1 <= i < in_cols x /\ skipped i = false /\ entry x 0 i = k /\ forall r, 1 <= r < in_rows x -> entry x r i = r0 R;
    sy_all : forall i, 1 <= i < in_cols x -> skipped i = false -> In i (mc_cols c) \/ exists k, In (i, k) (mc_consts c);
    sy_rows : exists p, mc_rows c = filter p (seq 1 (in_rows x - 1)) /\ forall r i, In i (mc_cols c) -> 1 <= r < in_rows x -> p r = false -> entry x r i = r0 R;
    sy_offset : length (mc_offset c) = length (mc_cols c) /\ forall a i, nth_error (mc_cols c) a = Some i -> nth a (mc_offset c) (r0 R) = entry x 0 i;
    sy_core : length (mc_core c) = length (mc_cols c) /\ (forall row, In row (mc_core c) -> length row = length (mc_rows c)) /\
      forall a i b r, nth_error (mc_cols c) a = Some i -> nth_error (mc_rows c) b = Some r -> nth b (nth a (mc_core c) []) (r0 R) = entry x r i }.
  Lemma used_in skipped n i : In i (used skipped n) <-> 1 <= i < n /\ skipped i = false.
  Proof. unfold used. rewrite filter_In, in_seq, negb_true_iff. split; intros [A B]; split; auto; lia. Qed.
  Lemma nth_map_error {X Y} (f : X -> Y) l a x d : nth_error l a = Some x -> nth a (map f l) d = f x.
  Proof. intros H. apply nth_error_nth. now rewrite nth_error_map, H. Qed.
  Lemma dense_says skipped rows cols (M : nat -> nat -> R) : 1 <= rows -> 1 <= cols -> (forall r, r < rows -> M r 0 = if Nat.eqb r 0 then r1 R else r0 R) ->
    exists c, dense_core skipped rows cols M = Some c /\ says skipped (Dense rows cols M) c.
  Proof.
    intros Hr Hc H0. unfold dense_core. assert (Q1 : Nat.ltb cols 1 = false) by (apply Nat.ltb_ge; lia). assert (Q2 : Nat.ltb rows 1 = false) by (apply Nat.ltb_ge; lia). rewrite Q1, Q2. cbn [orb].
    assert (Q3 : r_eqb R (M 0 0) (r1 R) = true) by (apply r_eqb_spec; apply (H0 0); lia). rewrite Q3. cbn [negb].
    assert (NC : forall i, non_constant rows M i = false <-> forall r, 1 <= r < rows -> M r i = r0 R).
    { intros i. unfold non_constant. split.
      - intros E r L. apply nz_false. destruct (nz (M r i)) eqn:Z; [|reflexivity]. assert (X : existsb (fun r => nz (M r i)) (seq 1 (rows - 1)) = true) by (apply existsb_exists; exists r; split; [apply in_seq; lia|exact Z]). congruence.
      - intros E. apply not_true_is_false. intros X. apply existsb_exists in X. destruct X as [r [I Z]]. apply in_seq in I. assert (M r i = r0 R) by (apply E; lia). apply nz_false in H. congruence. }
    assert (Q4 : non_constant rows M 0 = false). { apply NC. intros r L. rewrite H0 by lia. destruct (Nat.eqb_spec r 0); [lia|reflexivity]. } rewrite Q4. eexists. split; [reflexivity|].
    constructor; cbn [mc_cols mc_rows mc_consts mc_offset mc_core in_rows in_cols entry].
    - intros i I. apply filter_In in I. apply used_in. apply I.
    - intros i k I. apply in_map_iff in I. destruct I as [j [E I]]. injection E as -> <-. apply filter_In in I. destruct I as [I Z]. apply used_in in I. apply negb_true_iff in Z. split; [apply I|]. split; [apply I|]. split; [reflexivity|]. now apply NC.
    - intros i L S. destruct (non_constant rows M i) eqn:Z.
      + left. apply filter_In. split; [now apply used_in|exact Z].
      + right. exists (M 0 i). apply in_map_iff. exists i. split; [reflexivity|]. apply filter_In. split; [now apply used_in|now rewrite Z].
    - eexists. split; [reflexivity|]. intros r i I L E. apply nz_false. destruct (nz (M r i)) eqn:Z; [|reflexivity]. cbv beta in E. rewrite <- E. symmetry. apply existsb_exists. now exists i.
    - split; [apply map_length|]. intros a i E. now apply nth_map_error.
    - split; [apply map_length|]. split; [intros row I; apply in_map_iff in I; destruct I as [j [<- _]]; apply map_length|]. intros a i b r E F. rewrite (nth_map_error _ _ _ _ _ E). now apply (nth_map_error (fun r => M r i)).
  Qed.
  (** sparse columns *)
  Lemma coeff_cons (e : nat * R) col r : coeff (e :: col) r = if Nat.eqb (fst e) r then snd e else coeff col r.
  Proof. unfold coeff. cbn [find]. now destruct (Nat.eqb (fst e) r). Qed.
  Lemma coeff_out (col : list (nat * R)) r : ~ In r (map fst col) -> coeff col r = r0 R.
  Proof. induction col as [|e col IH]; intros H; [reflexivity|]. rewrite coeff_cons. destruct (Nat.eqb_spec (fst e) r) as [E|E]; [exfalso; apply H; now left|]. apply IH. intros I. apply H. now right. Qed.
  Lemma position_spec : forall l x, match position x l with Some k => nth_error l k = Some x | None => ~ In x l end.
  Proof.
    induction l as [|y l IH]; intros x; cbn [position]; [tauto|]. destruct (Nat.eqb_spec x y) as [->|N]; [reflexivity|]. specialize (IH x). destruct (position x l) as [k|]; cbn; [exact IH|]. intros [E|I]; [congruence|contradiction].
  Qed.
  Lemma write_spec rs : NoDup rs -> forall (col : list (nat * R)) row, length row = length rs -> NoDup (map fst col) -> (forall e, In e col -> In (fst e) rs) ->
    exists row', write_row rs col row = Some row' /\ length row' = length rs /\ forall b r, nth_error rs b = Some r -> nth b row' (r0 R) = if in_dec Nat.eq_dec r (map fst col) then coeff col r else nth b row (r0 R).
  Proof.
    intros ND. induction col as [|e col IH]; intros row L NC Hin; cbn [write_row].
    - exists row. split; [reflexivity|]. split; [exact L|]. reflexivity.
    - pose proof (position_spec rs (fst e)) as P. destruct (position (fst e) rs) as [k|]; [|exfalso; apply P, Hin; now left]. cbn [map] in NC. inversion NC as [|? ? N1 N2]; subst. destruct (IH (set_at k (snd e) row)) as [row' [E [L' H]]]; [now rewrite set_at_length|exact N2|intros f I; apply Hin; now right|].
      exists row'. split; [exact E|]. split; [exact L'|]. intros b r Eb. rewrite (H b r Eb), coeff_cons. cbn [map].
      assert (Kl : k < length row) by (rewrite L; apply nth_error_Some; congruence). assert (Bl : b < length row) by (rewrite L; apply nth_error_Some; congruence).
      assert (SN : nth b (set_at k (snd e) row) (r0 R) = if Nat.eqb b k then snd e else nth b row (r0 R)). { apply nth_error_nth. rewrite set_at_nth. destruct (nth_error row k) eqn:Q; [|apply nth_error_None in Q; lia]. destruct (Nat.eqb b k); [reflexivity|]. apply nth_error_nth'. exact Bl. }
      destruct (Nat.eqb_spec (fst e) r) as [Er|Er].
      + destruct (in_dec Nat.eq_dec r (fst e :: map fst col)) as [_|N]; [|exfalso; apply N; now left]. destruct (in_dec Nat.eq_dec r (map fst col)) as [I|_]; [congruence|]. rewrite SN. assert (b = k) as ->; [|now rewrite Nat.eqb_refl]. apply (NoDup_nth_error rs); [exact ND|lia|]. congruence.
      + destruct (in_dec Nat.eq_dec r (map fst col)) as [I|N].
        * destruct (in_dec Nat.eq_dec r (fst e :: map fst col)) as [_|N]; [reflexivity|exfalso; apply N; now right].
        * destruct (in_dec Nat.eq_dec r (fst e :: map fst col)) as [[X|X]|_]; [contradiction|contradiction|]. rewrite SN. destruct (Nat.eqb_spec b k) as [->|_]; [congruence|reflexivity].
  Qed.
  Lemma sorted_nodup l : StronglySorted lt l -> NoDup l.
  Proof. induction 1 as [|x l _ IH F]; constructor; [|exact IH]. intros I. rewrite Forall_forall in F. specialize (F x I). lia. Qed.
  Lemma split_spec (col : list (nat * R)) : StronglySorted lt (map fst col) -> fst (split_offset col) = coeff col 0 /\ (forall r, 1 <= r -> coeff (snd (split_offset col)) r = coeff col r) /\
    (forall e, In e (snd (split_offset col)) -> In e col /\ 1 <= fst e) /\ NoDup (map fst (snd (split_offset col))).
  Proof.
    intros S. pose proof (sorted_nodup _ S) as ND. destruct col as [|[[|k] v] col]; cbn [split_offset fst snd].
    - split; [reflexivity|]. split; [reflexivity|]. split; [intros e []|exact ND].
    - cbn [map fst] in S, ND. inversion S as [|? ? S1 F]; subst. inversion ND; subst. split; [rewrite coeff_cons; reflexivity|]. split; [intros r L; rewrite coeff_cons; cbn [fst]; destruct (Nat.eqb_spec 0 r); [lia|reflexivity]|]. split; [|assumption]. intros e I. split; [now right|]. rewrite Forall_forall in F. specialize (F (fst e) (in_map fst _ _ I)). lia.
    - cbn [map fst] in S, ND. inversion S as [|? ? S1 F]; subst. split; [|split; [reflexivity|split; [|exact ND]]].
      + symmetry. apply coeff_out. cbn [map fst]. intros [E|I]; [lia|]. rewrite Forall_forall in F. specialize (F 0 I). lia.
      + intros e I. split; [exact I|]. destruct I as [<-|I]; [cbn; lia|]. rewrite Forall_forall in F. specialize (F (fst e) (in_map fst _ _ I)). lia.
  Qed.
  Lemma constant_spec (col : list (nat * R)) v : constant positive col = Some v -> coeff col 0 = v /\ forall r, 1 <= r -> coeff col r = r0 R.
  Proof.
    destruct col as [|e [|f col]]; cbn [constant]; intros H; [injection H as <-; split; reflexivity| |discriminate]. destruct (positive (coeff [e] 0)) eqn:P; [|discriminate]. injection H as <-. split; [reflexivity|]. intros r L. rewrite coeff_cons in P. rewrite coeff_cons. destruct (Nat.eqb_spec (fst e) 0) as [E|E].
    - destruct (Nat.eqb_spec (fst e) r); [lia|reflexivity].
    - cbn in P. congruence.
  Qed.
  Lemma write_core_spec columns rs : NoDup rs -> forall nt, (forall c, In c nt -> StronglySorted lt (map fst (nth c columns []))) -> (forall c e, In c nt -> In e (snd (split_offset (nth c columns []))) -> In (fst e) rs) ->
    exists core, write_core columns rs nt = Some core /\ length core = length nt /\ (forall row, In row core -> length row = length rs) /\
      forall a i b r, nth_error nt a = Some i -> nth_error rs b = Some r -> 1 <= r -> nth b (nth a core []) (r0 R) = coeff (nth i columns []) r.
  Proof.
    intros ND. induction nt as [|c nt IH]; intros Hs Hin; cbn [write_core].
    - exists []. repeat split; [intros row []|]. intros [|a] i b r H; discriminate.
    - destruct (split_spec _ (Hs c (or_introl eq_refl))) as [_ [S2 [S3 S4]]]. destruct (write_spec rs ND (snd (split_offset (nth c columns []))) (repeat (r0 R) (length rs)) (repeat_length _ _) S4 (fun e I => Hin c e (or_introl eq_refl) I)) as [row [E [L H]]].
      rewrite E. destruct IH as [core [E2 [L2 [H1 H2]]]]; [intros; apply Hs; now right|intros d e I; apply Hin; now right|]. rewrite E2. exists (row :: core). split; [reflexivity|]. split; [cbn; now rewrite L2|]. split; [intros q [<-|I]; auto|].
      intros [|a] i b r Ea Eb Lr; cbn [nth_error] in Ea; cbn [nth]; [|now apply (H2 a i b r)]. injection Ea as <-. rewrite (H b r Eb). destruct (in_dec Nat.eq_dec r (map fst (snd (split_offset (nth c columns []))))) as [I|N]; [now apply S2|].
      rewrite nth_repeat. rewrite <- (S2 r Lr). symmetry. now apply coeff_out.
  Qed.
  Lemma sparse_says skipped rows columns : well_formed (Sparse rows columns) -> 1 <= rows -> 1 <= length columns -> (forall r, r < rows -> coeff (nth 0 columns []) r = if Nat.eqb r 0 then r1 R else r0 R) ->
    exists c, sparse_core positive skipped rows columns = Some (Some c) /\ says skipped (Sparse rows columns) c.
  Proof.
    intros [L1 WF] Hr Hc H0. unfold sparse_core. assert (Q1 : Nat.ltb (length columns) 1 = false) by (apply Nat.ltb_ge; lia). assert (Q2 : Nat.ltb rows 1 = false) by (apply Nat.ltb_ge; lia). rewrite Q1, Q2. cbn [orb].
    assert (Q3 : r_eqb R (coeff (nth 0 columns []) 0) (r1 R) = true) by (apply r_eqb_spec; apply (H0 0); lia). rewrite Q3, L1. cbn [Nat.eqb negb orb].
    set (nt := filter _ (used skipped (length columns))). set (rs := filter _ (seq 1 (rows - 1))).
    assert (WFc : forall i, i < length columns -> StronglySorted lt (map fst (nth i columns [])) /\ Forall (fun e => fst e < rows) (nth i columns [])). { intros i L. apply (WF (nth i columns [])). now apply nth_In. }
    assert (NT : forall i, In i nt <-> (1 <= i < length columns /\ skipped i = false) /\ constant positive (nth i columns []) = None). { intros i. unfold nt. rewrite filter_In, used_in. destruct (constant positive (nth i columns [])); split; intros [A B]; split; auto; discriminate. }
    assert (RS : forall r, In r rs <-> 1 <= r < rows /\ exists c e, In c nt /\ In e (nth c columns []) /\ fst e = r).
    { intros r. unfold rs. rewrite filter_In, in_seq. split.
      - intros [A B]. split; [lia|]. apply existsb_exists in B. destruct B as [c [I B]]. apply existsb_exists in B. destruct B as [e [J B]]. apply Nat.eqb_eq in B. now exists c, e.
      - intros [A [c [e [I [J B]]]]]. split; [lia|]. apply existsb_exists. exists c. split; [exact I|]. apply existsb_exists. exists e. split; [exact J|]. now apply Nat.eqb_eq. }
    assert (ND : NoDup rs) by (apply NoDup_filter, seq_NoDup).
    destruct (write_core_spec columns rs ND nt) as [core [E [Lc [Hl Hv]]]].
    { intros c I. apply NT in I. apply WFc. lia. }
    { intros c e I J. assert (I' := I). apply NT in I. destruct (WFc c ltac:(lia)) as [S F]. destruct (split_spec _ S) as [_ [_ [S3 _]]]. destruct (S3 e J) as [J' Le]. apply RS. split; [|now exists c, e]. rewrite Forall_forall in F. specialize (F e J'). lia. }
    rewrite E. eexists. split; [reflexivity|]. constructor; cbn [mc_cols mc_rows mc_consts mc_offset mc_core in_rows in_cols entry].
    - intros i I. apply NT in I. apply I.
    - intros i k I. apply in_flat_map in I. destruct I as [j [I J]]. apply used_in in I. destruct (constant positive (nth j columns [])) as [w|] eqn:Q; [|destruct J]. destruct J as [J|[]]. injection J as -> ->. destruct (constant_spec _ _ Q) as [A B]. split; [apply I|]. split; [apply I|]. split; [exact A|]. intros r L. apply B. lia.
    - intros i L S. destruct (constant positive (nth i columns [])) as [w|] eqn:Q.
      + right. exists w. apply in_flat_map. exists i. split; [now apply used_in|]. rewrite Q. now left.
      + left. apply NT. auto.
    - eexists. split; [reflexivity|]. intros r i I L Ep. apply coeff_out. intros J. apply in_map_iff in J. destruct J as [e [Ee J]]. cbv beta in Ep. assert (X : existsb (fun c => existsb (fun e => Nat.eqb (fst e) r) (nth c columns [])) nt = true); [|congruence]. apply existsb_exists. exists i. split; [exact I|]. apply existsb_exists. exists e. split; [exact J|]. now apply Nat.eqb_eq.
    - split; [apply map_length|]. intros a i Ea. rewrite (nth_map_error _ _ _ _ _ Ea). apply split_spec. apply nth_error_In, NT in Ea. apply WFc. lia.
    - split; [exact Lc|]. split; [exact Hl|]. intros a i b r Ea Eb. apply (Hv a i b r Ea Eb). apply nth_error_In, RS in Eb. lia.
  Qed.
End Core.
