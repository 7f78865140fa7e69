(** Transforming a matrix: proofs. *)
From Coq Require Import List Arith Bool Lia.
From Verif Require Import TransModel TransSpec.
Import ListNotations.

Section Proofs.
  Context {A B : Type}.
  Variable f : A -> option B.
  Variable fresh : B.
  Variable dim : nat.
  Variable input : list A.
  Variable W : nat.
  Hypothesis full : length input = dim * dim.
  Hypothesis some_worker : dim <> 0 -> 0 < W.
  Notation tstep := (tstep f dim input W).
  Notation trun := (trun f dim input W).
  Notation tstate := (tstate (B := B)).

  Lemma put_length o (y : B) l : o < length l -> length (put o y l) = length l.
  Proof. clear full some_worker. intros H. unfold put. rewrite app_length, firstn_length. cbn [length]. rewrite skipn_length. lia. Qed.
  Lemma put_nth {T} (l : list T) i t' k : i < length l -> nth_error (firstn i l ++ t' :: skipn (S i) l) k = if k =? i then Some t' else nth_error l k.
  Proof.
    clear full some_worker. revert l k; induction i as [|i IH]; intros [|x l] k H; cbn in H; try lia.
    - destruct k; reflexivity.
    - destruct k as [|k]; [reflexivity|]. apply (IH l k). lia.
  Qed.
  Lemma some_inj {T} (x y : T) : Some x = Some y -> x = y.
  Proof. congruence. Qed.
  (** * One thread *)
  Lemma st_elementwise l t : transform_st f l = Some t <-> elementwise f l t.
  Proof.
    revert t. induction l as [|x l IH]; intros t; cbn.
    - split; [intros [= <-]; constructor|inversion 1; reflexivity].
    - split.
      + destruct (f x) as [y|] eqn:E; [|discriminate]. destruct (transform_st f l) as [u|] eqn:Eu; [|discriminate]. intros [= <-]. constructor; [exact E|now apply IH].
      + inversion 1; subst. rewrite H2. apply IH in H4. now rewrite H4.
  Qed.
  Lemma st_defined l : never_throws f l -> exists t, transform_st f l = Some t.
  Proof.
    induction l as [|x l IH]; cbn; intros H; [now exists []|]. destruct (f x) as [y|] eqn:E; [|destruct (H x (or_introl eq_refl) E)].
    destruct IH as (t & ->); [intros z Hz; apply H; now right|]. now exists (y :: t).
  Qed.
  Lemma st_throws l : transform_st f l = None <-> exists x, In x l /\ f x = None.
  Proof.
    induction l as [|x l IH]; cbn; [split; [discriminate|intros (x & [] & _)]|]. destruct (f x) as [y|] eqn:E.
    - destruct (transform_st f l) as [u|]; split; try discriminate.
      + intros (z & [<-|Hz] & Ez); [congruence|]. assert (K : @None (list B) = None) by reflexivity. destruct IH as (_ & IH). discriminate (IH (ex_intro _ z (conj Hz Ez))).
      + intros _. destruct IH as (IH & _). destruct (IH eq_refl) as (z & Hz & Ez). exists z. auto.
      + reflexivity.
    - split; [|reflexivity]. intros _. exists x. auto.
  Qed.

  (** * Several threads *)
  Definition before (c r : nat) (w : worker) : Prop := c < w_col w \/ (c = w_col w /\ r < w_row w).
  Record inv (st : tstate) : Prop := {
    v_workers : length (ts_work st) = W;
    v_out : length (ts_out st) = dim * dim;
    v_pos : forall k w, nth_error (ts_work st) k = Some w -> w_col w mod W = k /\ w_row w <= dim /\ (w_stat w = Ended -> dim <= w_col w) /\ w_stat w <> OutOfBounds /\
      (w_stat w = Failed -> exists x, nth_error input (w_col w * dim + w_row w) = Some x /\ f x = None);
    v_cells : forall c r w, c < dim -> r < dim -> nth_error (ts_work st) (c mod W) = Some w ->
      (before c r w -> exists x y, nth_error input (c * dim + r) = Some x /\ f x = Some y /\ nth_error (ts_out st) (c * dim + r) = Some y) /\
      (~ before c r w -> nth_error (ts_out st) (c * dim + r) = Some fresh);
    v_once : NoDup (map snd (ts_writes st));
    v_writes : forall k o, In (k, o) (ts_writes st) -> exists c r w, o = c * dim + r /\ c < dim /\ r < dim /\ c mod W = k /\ nth_error (ts_work st) k = Some w /\ before c r w }.
  Lemma cell_lt c r : c < dim -> r < dim -> c * dim + r < dim * dim.
  Proof. clear full some_worker. intros H H'. assert (S c * dim <= dim * dim) by (apply Nat.mul_le_mono_r; lia). cbn in *. lia. Qed.
  Lemma cell_inj c r c' r' : r < dim -> r' < dim -> c * dim + r = c' * dim + r' -> c = c' /\ r = r'.
  Proof.
    clear full some_worker. intros H H' E. assert (c = c').
    { destruct (Nat.lt_trichotomy c c') as [L|[L|L]]; [|exact L|]; exfalso; [assert (S c * dim <= c' * dim) by (apply Nat.mul_le_mono_r; lia)|assert (S c' * dim <= c * dim) by (apply Nat.mul_le_mono_r; lia)]; cbn in *; lia. }
    subst. lia.
  Qed.
  Lemma start_inv : inv (tstart fresh dim W).
  Proof.
    unfold tstart. constructor; cbn [ts_work ts_out ts_writes].
    - now rewrite map_length, seq_length.
    - apply repeat_length.
    - intros k w H. rewrite nth_error_map in H. destruct (nth_error (seq 0 W) k) as [j|] eqn:E; [|discriminate]. cbn in H. injection H as <-. cbn.
      assert (K : k < W) by (rewrite <- (seq_length W 0); apply nth_error_Some; congruence). pose proof (nth_error_nth _ _ 0 E) as N. rewrite seq_nth in N by exact K. cbn in N. subst j.
      split; [now apply Nat.mod_small|]. repeat split; try discriminate. lia.
    - intros c r w Hc Hr H. rewrite nth_error_map in H. destruct (nth_error (seq 0 W) (c mod W)) as [j|] eqn:E; [|discriminate]. cbn in H. injection H as <-. cbn.
      assert (HW : 0 < W) by (apply some_worker; lia). assert (K : c mod W < W) by (apply Nat.mod_upper_bound; lia).
      pose proof (nth_error_nth _ _ 0 E) as N. rewrite seq_nth in N by exact K. cbn in N. subst j. split.
      + intros [Hb|(_ & Hb)]; cbn in Hb; [|lia]. pose proof (Nat.mod_le c W). lia.
      + intros _. rewrite (nth_error_nth' _ fresh) by (rewrite repeat_length; now apply cell_lt). f_equal. apply nth_repeat.
    - constructor.
    - intros k o [].
  Qed.
  Lemma step_inv k st st' : inv st -> tstep k st = Some st' -> inv st'.
  Proof.
    intros [Vw Vo Vp Vc Vn Vh] H. unfold TransModel.tstep in H. destruct (nth_error (ts_work st) k) as [w|] eqn:E; [|discriminate].
    assert (Hk : k < length (ts_work st)) by (apply nth_error_Some; congruence). destruct (Vp k w E) as (P1 & P2 & P3 & P4 & P5).
    unfold wstep in H. destruct (w_stat w) eqn:Es; try discriminate.
    assert (K : forall w' : worker, w_col w' mod W = k -> w_row w' <= dim -> (w_stat w' = Ended -> dim <= w_col w') -> w_stat w' <> OutOfBounds ->
       (w_stat w' = Failed -> exists x, nth_error input (w_col w' * dim + w_row w') = Some x /\ f x = None) ->
       (forall c r, c < dim -> r < dim -> c mod W = k -> (before c r w' <-> before c r w)) ->
       inv (mk_ts (ts_out st) (firstn k (ts_work st) ++ w' :: skipn (S k) (ts_work st)) (ts_writes st ++ []))).
    { intros w' Q1 Q2 Q3 Q4 Q5 Q6. constructor; cbn [ts_work ts_out ts_writes]; rewrite ?app_nil_r; auto.
      - rewrite <- Vw. rewrite app_length, firstn_length. cbn [length]. rewrite skipn_length. lia.
      - intros j u Hj. rewrite put_nth in Hj by exact Hk. destruct (Nat.eqb_spec j k) as [->|Hne]; [injection Hj as <-; auto|now apply Vp].
      - intros c r u Hc Hr Hu. rewrite put_nth in Hu by exact Hk. destruct (Nat.eqb_spec (c mod W) k) as [Hek|Hne]; [|now apply Vc].
        injection Hu as <-. rewrite (Q6 c r Hc Hr Hek). apply Vc; auto. now rewrite Hek.
      - intros j o Hin. destruct (Vh j o Hin) as (c & r & u & H1 & H2 & H3 & H4 & H5 & H6). rewrite put_nth by exact Hk. destruct (Nat.eqb_spec j k) as [->|Hne].
        + exists c, r, w'. repeat split; auto. apply Q6; auto. rewrite E in H5. injection H5 as <-. exact H6.
        + now exists c, r, u. }
    destruct (Nat.ltb_spec (w_col w) dim) as [Hc|Hc].
    - destruct (Nat.ltb_spec (w_row w) dim) as [Hr|Hr].
      + destruct (nth_error input (w_col w * dim + w_row w)) as [x|] eqn:Ex;
          [|apply nth_error_None in Ex; pose proof (cell_lt _ _ Hc Hr); lia].
        destruct (f x) as [y|] eqn:Ey.
        * apply some_inj in H. subst st'. assert (Ho : w_col w * dim + w_row w < length (ts_out st)) by (rewrite Vo; now apply cell_lt).
          constructor; cbn [ts_work ts_out ts_writes].
          -- rewrite <- Vw. rewrite app_length, firstn_length. cbn [length]. rewrite skipn_length. lia.
          -- rewrite put_length; auto.
          -- intros j u Hj. rewrite put_nth in Hj by exact Hk. destruct (Nat.eqb_spec j k) as [->|Hne]; [|now apply Vp].
             injection Hj as <-. cbn. split; [exact P1|]. repeat split; try discriminate. lia.
          -- intros c r u Hc' Hr' Hu. rewrite put_nth in Hu by exact Hk. unfold put. rewrite put_nth by exact Ho.
             destruct (Nat.eqb_spec (c * dim + r) (w_col w * dim + w_row w)) as [Eo|No].
             ++ destruct (cell_inj _ _ _ _ Hr' Hr Eo) as (-> & ->). rewrite P1, Nat.eqb_refl in Hu. injection Hu as <-. split.
                ** intros _. exists x, y. auto.
                ** intros Hb. destruct Hb. right. cbn. lia.
             ++ destruct (Nat.eqb_spec (c mod W) k) as [Hek|Hne]; [|now apply Vc]. injection Hu as <-.
                assert (Hu' : nth_error (ts_work st) (c mod W) = Some w) by now rewrite Hek. destruct (Vc c r w Hc' Hr' Hu') as (C1 & C2).
                assert (Hb : before c r (mk_w (w_col w) (S (w_row w)) Running) <-> before c r w).
                { unfold before. cbn. split; [|lia]. intros [Hb|(-> & Hb)]; [now left|]. right. split; [reflexivity|]. assert (r <> w_row w) by (intros ->; now apply No). lia. }
                rewrite Hb. now split.
          -- rewrite map_app. cbn. apply NoDup_rev in Vn. rewrite <- (rev_involutive (map snd (ts_writes st) ++ _)). apply NoDup_rev. rewrite rev_app_distr. cbn. constructor; [|exact Vn].
             rewrite <- in_rev. intros Hin. apply in_map_iff in Hin. destruct Hin as ((j & o) & Eo & Hin). cbn in Eo. subst o.
             destruct (Vh _ _ Hin) as (c & r & u & H1 & H2 & H3 & H4 & H5 & H6). destruct (cell_inj _ _ _ _ Hr H3 H1) as (<- & <-). rewrite P1 in H4. subst j.
             rewrite E in H5. injection H5 as <-. unfold before in H6. lia.
          -- intros j o Hin. apply in_app_iff in Hin. rewrite put_nth by exact Hk. destruct Hin as [Hin|[[= <- <-]|[]]].
             ++ destruct (Vh j o Hin) as (c & r & u & H1 & H2 & H3 & H4 & H5 & H6). destruct (Nat.eqb_spec j k) as [->|Hne]; [|now exists c, r, u].
                exists c, r, (mk_w (w_col w) (S (w_row w)) Running). repeat split; auto. rewrite E in H5. injection H5 as <-. unfold before in *. cbn. lia.
             ++ rewrite Nat.eqb_refl. exists (w_col w), (w_row w), (mk_w (w_col w) (S (w_row w)) Running). repeat split; auto. right. cbn. lia.
        * apply some_inj in H. subst st'. apply K; cbn; auto; try discriminate. intros _. exists x. auto. intros c r _ _ _. unfold before. cbn. reflexivity.
      + apply some_inj in H. subst st'. assert (HW : 0 < W) by (apply some_worker; lia). apply K; cbn; try discriminate; try lia.
        * rewrite <- P1. replace (w_col w + W) with (w_col w + 1 * W) by lia. apply Nat.mod_add. lia.
        * intros c r Hc' Hr' Hm. unfold before. cbn. split; [|lia]. intros [Hb|(_ & Hb)]; [|lia].
          assert (c <= w_col w).
          { destruct (le_lt_dec c (w_col w)) as [Hl|Hl]; [exact Hl|exfalso]. rewrite <- P1 in Hm.
            assert (D1 := Nat.div_mod c W ltac:(lia)). assert (D2 := Nat.div_mod (w_col w) W ltac:(lia)). rewrite Hm in D1.
            assert (w_col w / W < c / W) by nia. nia. }
          lia.
    - apply some_inj in H. subst st'. apply K; cbn; auto; try discriminate. intros c r _ _ _. unfold before. cbn. reflexivity.
  Qed.
  Lemma run_inv sched st : inv st -> inv (trun sched st).
  Proof. revert st; induction sched as [|k r IH]; intros st I; [exact I|]. cbn. apply IH. destruct (tstep k st) as [st'|] eqn:E; [exact (step_inv _ _ _ I E)|exact I]. Qed.

  (** * Finished computations *)
  Lemma joined_stats (st : tstate) l : join st = Some l -> l = ts_out st /\ forall w, In w (ts_work st) -> w_stat w <> Running.
  Proof.
    unfold join. destruct (existsb _ (ts_work st)) eqn:E; [discriminate|]. intros [= <-]. split; [reflexivity|]. intros w Hw Hr.
    assert (K : existsb (fun w => match w_stat w with Running => true | _ => false end) (ts_work st) = true) by (apply existsb_exists; exists w; rewrite Hr; auto). congruence.
  Qed.
  Lemma worker_of st c : inv st -> c < dim -> exists w, nth_error (ts_work st) (c mod W) = Some w.
  Proof.
    intros V Hc. destruct (nth_error (ts_work st) (c mod W)) as [w|] eqn:E; [now exists w|]. apply nth_error_None in E. rewrite (v_workers _ V) in E.
    assert (0 < W) by (apply some_worker; lia). pose proof (Nat.mod_upper_bound c W). lia.
  Qed.
  Lemma cell_of o : o < dim * dim -> exists c r, o = c * dim + r /\ c < dim /\ r < dim.
  Proof.
    clear full some_worker. intros H. exists (o / dim), (o mod dim). assert (dim <> 0) by lia. split; [|split].
    - rewrite Nat.mul_comm. now apply Nat.div_mod.
    - apply Nat.div_lt_upper_bound; lia.
    - now apply Nat.mod_upper_bound.
  Qed.
  Lemma cells_right st : inv st -> forall o x, nth_error input o = Some x -> nth_error (ts_out st) o = Some fresh \/ (exists y, f x = Some y /\ nth_error (ts_out st) o = Some y).
  Proof.
    intros V o x Hx. assert (Ho : o < dim * dim) by (rewrite <- full; apply nth_error_Some; congruence). destruct (cell_of o Ho) as (c & r & -> & Hc & Hr).
    destruct (worker_of st c V Hc) as (w & Ew). destruct (v_cells _ V c r w Hc Hr Ew) as (C1 & C2).
    assert (D : before c r w \/ ~ before c r w) by (unfold before; lia). destruct D as [D|D]; [right|left; auto].
    destruct (C1 D) as (x' & y & E1 & E2 & E3). rewrite Hx in E1. injection E1 as <-. exists y. auto.
  Qed.
  Lemma cells_fail st : inv st -> forall o x, nth_error input o = Some x -> f x = None -> nth_error (ts_out st) o = Some fresh.
  Proof. intros V o x Hx E. destruct (cells_right st V o x Hx) as [H|(y & H & _)]; [exact H|congruence]. Qed.
  Lemma joined_right st l : inv st -> join st = Some l -> never_throws f input -> elementwise f input l.
  Proof.
    intros V J N. destruct (joined_stats st l J) as (-> & Hs). unfold elementwise.
    assert (G : forall o x, nth_error input o = Some x -> exists y, nth_error (ts_out st) o = Some y /\ f x = Some y).
    { intros o x Hx. assert (Ho : o < dim * dim) by (rewrite <- full; apply nth_error_Some; congruence). destruct (cell_of o Ho) as (c & r & -> & Hc & Hr).
      destruct (worker_of st c V Hc) as (w & Ew). destruct (v_cells _ V c r w Hc Hr Ew) as (C1 & _). destruct (v_pos _ V _ _ Ew) as (_ & _ & P3 & P4 & P5).
      destruct C1 as (x' & y & E1 & E2 & E3).
      - left. assert (Hw : w_stat w <> Running) by (apply Hs; now apply nth_error_In in Ew). destruct (w_stat w) eqn:Es; [congruence|pose proof (P3 eq_refl); lia| |congruence].
        destruct (P5 eq_refl) as (z & Hz & Ez). exfalso. apply (N z); [now apply nth_error_In in Hz|exact Ez].
      - rewrite Hx in E1. injection E1 as <-. exists y. auto. }
    assert (L : length (ts_out st) = length input) by (rewrite full; exact (v_out _ V)). clear - G L. revert L G. generalize (ts_out st) as l. induction input as [|x r IH]; intros [|y l] L G; cbn in L; try discriminate; [constructor|].
    constructor.
    - destruct (G 0 x eq_refl) as (z & Hz & E). cbn in Hz. now injection Hz as ->.
    - apply IH; [lia|]. intros o z Hz. exact (G (S o) z Hz).
  Qed.
  (** * How many steps *)
  Definition left_steps (w : worker) : nat := match w_stat w with Running => S ((dim - w_col w) * S dim + (dim - w_row w)) | _ => 0 end.
  Lemma step_less k st st' : inv st -> tstep k st = Some st' -> S (list_sum (map left_steps (ts_work st'))) <= list_sum (map left_steps (ts_work st)).
  Proof.
    intros V H. unfold TransModel.tstep in H. destruct (nth_error (ts_work st) k) as [w|] eqn:E; [|discriminate].
    assert (Hl : forall w' out h, S (left_steps w') <= left_steps w -> Some (mk_ts out (firstn k (ts_work st) ++ w' :: skipn (S k) (ts_work st)) h) = Some st' ->
      S (list_sum (map left_steps (ts_work st'))) <= list_sum (map left_steps (ts_work st))).
    { intros w' out h L Q. apply some_inj in Q. subst st'. cbn [ts_work]. assert (Sp : ts_work st = firstn k (ts_work st) ++ w :: skipn (S k) (ts_work st)).
      { clear - E. revert E. generalize (ts_work st) as l. induction k as [|k IH]; intros [|x l] E; cbn in E; try discriminate; [now injection E as ->|]. cbn [firstn app]. f_equal. exact (IH l E). }
      rewrite Sp at 3. assert (C1 : forall x l, list_sum (map left_steps (x :: l)) = left_steps x + list_sum (map left_steps l)) by reflexivity. rewrite !map_app, !list_sum_app, !C1.  lia. }
    destruct (v_pos _ V _ _ E) as (_ & P2 & _). unfold wstep in H. destruct (w_stat w) eqn:Es; try discriminate.
    destruct (Nat.ltb_spec (w_col w) dim) as [Hc|Hc].
    - destruct (Nat.ltb_spec (w_row w) dim) as [Hr|Hr].
      + destruct (nth_error input (w_col w * dim + w_row w)) as [x|]; [destruct (f x) as [y|]|].
        * apply Hl in H; [exact H|]. unfold left_steps. rewrite Es. cbn [w_stat w_col w_row]. generalize ((dim - w_col w) * S dim). intros n. lia.
        * apply Hl in H; [exact H|]. unfold left_steps. rewrite Es. apply le_n_S, Nat.le_0_l.
        * apply Hl in H; [exact H|]. unfold left_steps. rewrite Es. apply le_n_S, Nat.le_0_l.
      + apply Hl in H; [exact H|]. unfold left_steps. rewrite Es. cbn [w_stat w_col w_row]. assert (0 < W) by (apply some_worker; lia).
        assert (dim - w_col w = S (dim - S (w_col w))) by lia. assert (dim - (w_col w + W) <= dim - S (w_col w)) by lia. nia.
    - apply Hl in H; [exact H|]. unfold left_steps. rewrite Es. apply le_n_S, Nat.le_0_l.
  Qed.
  Lemma steps_bound sched st : inv st -> effective f dim input W sched st <= list_sum (map left_steps (ts_work st)).
  Proof.
    revert st; induction sched as [|k r IH]; intros st V; cbn [effective]; [lia|]. destruct (tstep k st) as [st'|] eqn:E; [|now apply IH].
    pose proof (step_less _ _ _ V E). pose proof (IH st' (step_inv _ _ _ V E)). lia.
  Qed.
  Lemma goes_on (st : tstate) : join st = None -> exists k, tstep k st <> None.
  Proof.
    unfold join. destruct (existsb _ (ts_work st)) eqn:E; [|discriminate]. intros _. apply existsb_exists in E. destruct E as (w & Hw & Hr). apply In_nth_error in Hw. destruct Hw as (k & Hk).
    exists k. unfold TransModel.tstep. rewrite Hk. unfold wstep. destruct (w_stat w); try discriminate.
    destruct (w_col w <? dim); [|discriminate]. destruct (w_row w <? dim); [|discriminate]. destruct (nth_error input _) as [x|]; [destruct (f x)|]; discriminate.
  Qed.
End Proofs.
