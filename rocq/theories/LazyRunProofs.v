(** Proofs about bases made on first use: schedules. *)
From Coq Require Import List Arith Bool Lia.
From Verif Require Import LazyModel LazySpec LazyProofs.
Import ListNotations.

Section P.
  Variable W : Type.
  Variable make : bool -> bool -> option (W * W).
  Variable infer : bool -> bool -> W * W -> W * W.
  Notation basis_of := (basis_of W make infer).
  Notation bstep := (bstep W make infer).
  Notation brun := (brun W make infer).
  Notation bstart := (bstart W).
  Notation bthread_step := (bthread_step W make infer).

  Lemma put_nth (A : Type) : forall (l : list A) i j t x, nth_error l i = Some t -> nth_error (firstn i l ++ x :: skipn (S i) l) j = if Nat.eqb j i then Some x else nth_error l j.
  Proof.
    induction l as [|y l IH]; intros i j t x H; [destruct i; discriminate|]. destruct i as [|i].
    - destruct j; reflexivity.
    - destruct j as [|j]; [reflexivity|]. cbn in H. exact (IH i j t x H).
  Qed.
  Lemma put_length (A : Type) : forall (l : list A) i t x, nth_error l i = Some t -> length (firstn i l ++ x :: skipn (S i) l) = length l.
  Proof.
    induction l as [|y l IH]; intros i t x H; [destruct i; discriminate|].
    destruct i as [|i]; [reflexivity|]. cbn in H. change (S (length (firstn i l ++ x :: skipn (S i) l)) = S (length l)). f_equal. exact (IH i t x H).
  Qed.

  Record inv (st : bstate W) : Prop := mk_inv {
    i_slots : slots_ok W make infer (bs_shared st);
    i_locs : forall i t, nth_error (bs_threads st) i = Some t -> loc_ok W make infer (bs_shared st) (bt_loc t) /\ owns W i (bs_shared st) (held W (bt_loc t)) /\ log_ok W make infer (bt_log t);
    i_owner : forall j m, b_lock (bs_shared st) = Some (j, m) -> j < length (bs_threads st);
    i_made : forall k, s_done (b_slot (bs_shared st) k) = false -> s_made (b_slot (bs_shared st) k) <> 0 -> exists i t, nth_error (bs_threads st) i = Some t /\ writes W (bt_loc t) = Some k }.

  Lemma writes_held l k : writes W l = Some k -> held W l > 0.
  Proof. destruct l as [|k' p|k' p]; cbn; [discriminate| |lia]. destruct p; cbn; (discriminate || lia). Qed.
  Lemma owner_unique i j s n m : owns W i s n -> owns W j s m -> n > 0 -> m > 0 -> i = j.
  Proof.
    unfold owns. destruct (b_lock s) as [[a x]|]; [|lia]. intros (_ & H1) (_ & H2) P Q. destruct (Nat.eqb a i) eqn:E1; [|lia]. destruct (Nat.eqb a j) eqn:E2; [|lia]. apply Nat.eqb_eq in E1, E2. congruence.
  Qed.
  Lemma idle_ok s l : held W l = 0 -> loc_ok W make infer s l.
  Proof. destruct l as [|k p|k p]; cbn; [auto| |discriminate]. destruct p; cbn; (auto || discriminate). Qed.

  Lemma inv_step i st st' : inv st -> bstep i st = Some st' -> inv st' /\ (forall k, s_done (b_slot (bs_shared st) k) = true -> b_slot (bs_shared st') k = b_slot (bs_shared st) k).
  Proof.
    intros V H. unfold LazyModel.bstep in H. destruct (nth_error (bs_threads st) i) as [t|] eqn:N; [|discriminate].
    destruct (bthread_step i t (bs_shared st)) as [[t' s']|] eqn:T; [|discriminate]. injection H as <-. cbn [bs_shared].
    destruct (i_locs _ V i t N) as (LO & OW & LG).
    assert (QU : held W (bt_loc t) > 0 -> forall k, s_done (b_slot (bs_shared st) k) = false -> s_made (b_slot (bs_shared st) k) <> 0 -> writes W (bt_loc t) = Some k).
    { intros P k D M. destruct (i_made _ V k D M) as (j & u & Nj & Wj). destruct (i_locs _ V j u Nj) as (_ & OWj & _).
      rewrite (owner_unique _ _ _ _ _ OW OWj P (writes_held _ _ Wj)) in N. congruence. }
    destruct (bthread_ok W make infer i t _ t' s' (i_slots _ V) LO OW LG QU T) as (P1 & P2 & P3 & P4 & P5 & P6 & P7 & P8 & P9).
    split; [|exact P7]. split; cbn [bs_shared bs_threads].
    - exact P1.
    - intros j u E. rewrite (put_nth _ _ _ _ _ _ N) in E. destruct (Nat.eqb j i) eqn:Eij.
      + apply Nat.eqb_eq in Eij. subst j. injection E as <-. split; [exact P2|]. split; [exact P3|exact P6].
      + apply Nat.eqb_neq in Eij. destruct (i_locs _ V j u E) as (LOj & OWj & LGj). split; [|split; [exact (P4 j _ Eij OWj)|exact LGj]].
        destruct (held W (bt_loc u)) eqn:Hu; [exact (idle_ok _ _ Hu)|].
        assert (Z : held W (bt_loc t) = 0).
        { destruct (held W (bt_loc t)) eqn:Ht; [reflexivity|]. exfalso. apply Eij. symmetry. apply (owner_unique i j _ _ _ OW OWj); lia. }
        specialize (P8 Z). clear -LOj P8. unfold loc_ok, pc_ok in *. rewrite P8. exact LOj.
    - intros j m E. rewrite (put_length _ _ _ _ _ N). destruct (P5 j m E) as [->|(m' & E')]; [apply nth_error_Some; congruence|exact (i_owner _ V j m' E')].
    - intros k D M. destruct (P9 k D M) as [X|(D0 & M0 & X)].
      + exists i, t'. split; [rewrite (put_nth _ _ _ _ _ _ N), Nat.eqb_refl; reflexivity|exact X].
      + destruct (i_made _ V k D0 M0) as (j & u & Nj & Wj). exists j, u. split; [|exact Wj]. rewrite (put_nth _ _ _ _ _ _ N). destruct (Nat.eqb j i) eqn:Eij; [|exact Nj].
        apply Nat.eqb_eq in Eij. subst j. congruence.
  Qed.
  Lemma inv_run : forall sched st, inv st -> inv (brun sched st) /\ (forall k, s_done (b_slot (bs_shared st) k) = true -> b_slot (bs_shared (brun sched st)) k = b_slot (bs_shared st) k).
  Proof.
    induction sched as [|i r IH]; intros st V; cbn [LazyModel.brun]; [split; [exact V|reflexivity]|]. destruct (bstep i st) as [st'|] eqn:E; [|exact (IH st V)].
    destruct (inv_step i st st' V E) as (V' & K). destruct (IH st' V') as (V2 & K2). split; [exact V2|]. intros k D. rewrite K2; [exact (K k D)|]. rewrite (K k D). exact D.
  Qed.
  Lemma inv_start progs : inv (bstart progs).
  Proof.
    split; cbn [LazyModel.bstart bs_shared bs_threads].
    - intros k D. discriminate D.
    - intros i t E. rewrite nth_error_map in E. destruct (nth_error progs i) as [p|]; [|discriminate]. injection E as <-. split; [exact I|]. split; [reflexivity|intros k o []].
    - intros j m E. discriminate E.
    - intros k _ M. cbn in M. congruence.
  Qed.

  Lemma right_answer progs sched i t k o : nth_error (bs_threads (brun sched (bstart progs))) i = Some t -> In (k, o) (bt_log t) -> o = as_returned W (basis_of k).
  Proof. intros N I0. destruct (inv_run sched _ (inv_start progs)) as (V & _). destruct (i_locs _ V i t N) as (_ & _ & LG). exact (LG k o I0). Qed.
  Lemma run_app : forall a b st, brun (a ++ b) st = brun b (brun a st).
  Proof. induction a as [|i a IH]; intros b st; [reflexivity|]. cbn [app LazyModel.brun]. apply IH. Qed.
  Lemma lasting progs sched more k : s_done (b_slot (bs_shared (brun sched (bstart progs))) k) = true ->
    (exists v, basis_of k = Some v /\ parts W (b_slot (bs_shared (brun sched (bstart progs))) k) = (Some (fst v), Some (snd v))) /\
    b_slot (bs_shared (brun (sched ++ more) (bstart progs))) k = b_slot (bs_shared (brun sched (bstart progs))) k.
  Proof.
    intros D. destruct (inv_run sched _ (inv_start progs)) as (V & _). split.
    - destruct (i_slots _ V k D) as (_ & v & E & R1 & R2). exists v. split; [exact E|]. unfold parts. rewrite R1, R2. reflexivity.
    - rewrite run_app. destruct (inv_run more _ V) as (_ & K). exact (K k D).
  Qed.
  (** whoever has an answer has seen the flag *)
  Definition seen (s : bshared W) (t : bthread W) : Prop := forall k v, In (k, Some v) (bt_log t) -> s_done (b_slot s k) = true.
  Lemma seen_step i t s t' s' : loc_ok W make infer s (bt_loc t) -> bthread_step i t s = Some (t', s') -> seen s t -> (forall k, s_done (b_slot s k) = true -> b_slot s' k = b_slot s k) -> seen s' t'.
  Proof.
    intros LO H S K k v I0.
    assert (old : In (k, Some v) (bt_log t) -> s_done (b_slot s' k) = true) by (intros X; rewrite (K k (S k v X)); exact (S k v X)).
    unfold LazyModel.bthread_step in H. destruct (bt_loc t) as [|k0 p|k0 p]; cbn [loc_ok] in LO.
    - destruct (bt_todo t) as [|k1 r]; [discriminate|]. injection H as <- <-. exact (old I0).
    - unfold call_step in H. destruct p as [| | |arg|w|w| |]; cbn in LO.
      + destruct (s_done (b_slot s k0)) eqn:D; injection H as <- <-; [|exact (old I0)]. cbn in I0. apply in_app_or in I0. destruct I0 as [I0|[I0|[]]]; [exact (old I0)|]. injection I0 as <- _. exact D.
      + destruct (acquire W i s); [|discriminate]. injection H as <- <-. exact (old I0).
      + destruct (s_done (b_slot s k0)) eqn:D; [|destruct (bk_mono k0)]; injection H as <- <-; [|exact (old I0)..]. cbn in I0. apply in_app_or in I0. destruct I0 as [I0|[I0|[]]]; [exact (old I0)|]. injection I0 as <- _. exact D.
      + destruct (match arg with Some v0 => Some (infer (bk_dense k0) (bk_cplx k0) v0) | None => make (bk_dense k0) (bk_cplx k0) end); injection H as <- <-; [exact (old I0)|]. cbn in I0. apply in_app_or in I0. destruct I0 as [I0|[I0|[]]]; [exact (old I0)|]. discriminate I0.
      + injection H as <- <-. exact (old I0).
      + injection H as <- <-. exact (old I0).
      + injection H as <- <-. exact (old I0).
      + injection H as <- <-. cbn in I0. apply in_app_or in I0. destruct I0 as [I0|[I0|[]]]; [exact (old I0)|]. injection I0 as <- _. exact LO.
    - destruct (call_step W make infer i (bk_cell k0) p s) as [p' s1|s1|o s1|]; [| | |discriminate].
      + injection H as <- <-. exact (old I0).
      + injection H as <- <-. cbn in I0. apply in_app_or in I0. destruct I0 as [I0|[I0|[]]]; [exact (old I0)|discriminate I0].
      + destruct o as [[[a|] [b|]]|]; injection H as <- <-; [exact (old I0)|..]; (cbn in I0; apply in_app_or in I0; destruct I0 as [I0|[I0|[]]]; [exact (old I0)|discriminate I0]).
  Qed.
  Lemma seen_run : forall sched st, inv st -> (forall i t, nth_error (bs_threads st) i = Some t -> seen (bs_shared st) t) ->
    forall i t, nth_error (bs_threads (brun sched st)) i = Some t -> seen (bs_shared (brun sched st)) t.
  Proof.
    induction sched as [|i r IH]; intros st V S; cbn [LazyModel.brun]; [exact S|]. destruct (bstep i st) as [st'|] eqn:E; [|exact (IH st V S)].
    destruct (inv_step i st st' V E) as (V' & K). apply (IH st' V'). intros j u N.
    unfold LazyModel.bstep in E. destruct (nth_error (bs_threads st) i) as [t|] eqn:Ni; [|discriminate].
    destruct (bthread_step i t (bs_shared st)) as [[t' s']|] eqn:T; [|discriminate]. injection E as <-. cbn [bs_shared bs_threads] in *.
    rewrite (put_nth _ _ _ _ _ _ Ni) in N. destruct (Nat.eqb j i).
    - injection N as <-. exact (seen_step i t _ t' s' (proj1 (i_locs _ V i t Ni)) T (S i t Ni) K).
    - intros k v I0. pose proof (S j u N k v I0) as D. rewrite (K k D). exact D.
  Qed.
  Lemma answer_lasts progs sched i t k v more : nth_error (bs_threads (brun sched (bstart progs))) i = Some t -> In (k, Some v) (bt_log t) ->
    s_done (b_slot (bs_shared (brun (sched ++ more) (bstart progs))) k) = true /\ parts W (b_slot (bs_shared (brun (sched ++ more) (bstart progs))) k) = v.
  Proof.
    intros N I0. assert (D : s_done (b_slot (bs_shared (brun sched (bstart progs))) k) = true).
    { refine (seen_run sched _ (inv_start progs) _ i t N k v I0). intros j u Nj. cbn in Nj. rewrite nth_error_map in Nj. destruct (nth_error progs j); [|discriminate]. injection Nj as <-. intros k' v' []. }
    destruct (lasting progs sched more k D) as ((w & Ew & Pw) & E). rewrite E. split; [exact D|]. rewrite Pw.
    pose proof (right_answer progs sched i t k (Some v) N I0) as R. rewrite Ew in R. cbn in R. injection R as ->. reflexivity.
  Qed.
  Lemma made_once progs sched k : s_made (b_slot (bs_shared (brun sched (bstart progs))) k) <= 1.
  Proof.
    destruct (inv_run sched _ (inv_start progs)) as (V & _). destruct (s_done (b_slot (bs_shared (brun sched (bstart progs))) k)) eqn:D; [destruct (i_slots _ V k D) as (-> & _); lia|].
    destruct (s_made (b_slot (bs_shared (brun sched (bstart progs))) k)) as [|n] eqn:M; [lia|]. assert (M' : s_made (b_slot (bs_shared (brun sched (bstart progs))) k) <> 0) by lia.
    destruct (i_made _ V k D M') as (i & t & N & Wt). destruct (i_locs _ V i t N) as (LO & _). rewrite <- M. clear -LO Wt. destruct (bt_loc t) as [|k0 p|k0 p]; cbn in Wt; [discriminate|..].
    - destruct p; cbn in Wt; try discriminate; injection Wt as <-; cbn in LO; destruct LO as (L1 & L2 & L3); lia.
    - destruct LO as (_ & _ & _ & LO). destruct p; cbn in Wt; try discriminate; injection Wt as <-; cbn in LO; destruct LO as (L1 & L2 & L3); lia.
  Qed.

  (** ** No deadlock *)
  Lemma call_goes i k p s : (b_lock s = None \/ exists m, b_lock s = Some (i, m)) -> call_step W make infer i k p s <> Wait_ W.
  Proof.
    intros L. unfold call_step. destruct p as [| | |arg|w|w| |]; try discriminate.
    - destruct (s_done (b_slot s k)); discriminate.
    - unfold acquire. destruct L as [->|(m & ->)]; [discriminate|]. rewrite Nat.eqb_refl. discriminate.
    - destruct (s_done (b_slot s k)); [|destruct (bk_mono k)]; discriminate.
    - destruct (match arg with Some v0 => Some (infer (bk_dense k) (bk_cplx k) v0) | None => make (bk_dense k) (bk_cplx k) end); discriminate.
  Qed.
  Lemma goes i t s : (b_lock s = None \/ exists m, b_lock s = Some (i, m)) -> ~ bfinished W t -> bthread_step i t s <> None.
  Proof.
    intros L NF. unfold LazyModel.bthread_step, bfinished in *. destruct (bt_loc t) as [|k p|k p].
    - destruct (bt_todo t); [exfalso; apply NF; split; reflexivity|discriminate].
    - pose proof (call_goes i k p s L) as C. destruct (call_step W make infer i k p s) as [p' s1|s1|o s1|]; (discriminate || congruence).
    - pose proof (call_goes i (bk_cell k) p s L) as C. destruct (call_step W make infer i (bk_cell k) p s) as [p' s1|s1|o s1|]; [discriminate|discriminate| |congruence]. destruct o as [[[a|] [b|]]|]; discriminate.
  Qed.
  Lemma progress progs sched : (exists i t, nth_error (bs_threads (brun sched (bstart progs))) i = Some t /\ ~ bfinished W t) -> exists i st', bstep i (brun sched (bstart progs)) = Some st'.
  Proof.
    intros (i & t & N & NF). destruct (inv_run sched _ (inv_start progs)) as (V & _). set (st := brun sched (bstart progs)) in *. destruct (b_lock (bs_shared st)) as [[j m]|] eqn:L.
    - pose proof (i_owner _ V j m L) as Lj. destruct (nth_error (bs_threads st) j) as [u|] eqn:Nj; [|apply nth_error_None in Nj; lia]. exists j.
      destruct (i_locs _ V j u Nj) as (_ & OW & _). unfold owns in OW. rewrite L, Nat.eqb_refl in OW.
      assert (NFu : ~ bfinished W u) by (intros (_ & E); rewrite E in OW; cbn in OW; lia).
      pose proof (goes j u (bs_shared st) (or_intror (ex_intro _ m L)) NFu) as G. unfold LazyModel.bstep. rewrite Nj. destruct (bthread_step j u (bs_shared st)) as [[t' s']|]; [eexists; reflexivity|congruence].
    - exists i. pose proof (goes i t (bs_shared st) (or_introl L) NF) as G. unfold LazyModel.bstep. rewrite N. destruct (bthread_step i t (bs_shared st)) as [[t' s']|]; [eexists; reflexivity|congruence].
  Qed.
  Lemma ends progs sched : (forall i st', bstep i (brun sched (bstart progs)) <> Some st') -> forall i t, nth_error (bs_threads (brun sched (bstart progs))) i = Some t -> bfinished W t.
  Proof.
    intros H i t N. destruct (bt_todo t) as [|x l] eqn:Et; [destruct (bt_loc t) eqn:Ep; [split; assumption|..]|];
      (exfalso; destruct (progress progs sched) as (j & st' & E); [exists i, t; split; [exact N|intros (F1 & F2); congruence]|exact (H j st' E)]).
  Qed.

  (** ** Bounded *)
  Definition pc_left (p : bpc W) : nat := match p with PCheck => 8 | PLock => 7 | PAgain => 6 | PMake _ => 5 | PRe _ => 4 | PIm _ => 3 | PStore => 2 | PRead => 1 end.
  Definition loc_left (l : bloc W) : nat := match l with Out => 0 | InTop k p => pc_left p + (match p with PCheck | PLock | PAgain => if bk_mono k then 8 else 0 | _ => 0 end) | InSub k p => pc_left p + 5 end.
  Definition left_of (t : bthread W) : nat := loc_left (bt_loc t) + list_sum (map kind_steps (bt_todo t)).
  Definition loc_req (l : bloc W) : list bkind := match l with Out => [] | InTop k _ | InSub k _ => [k] end.
  Definition all_of (t : bthread W) : list bkind := map fst (bt_log t) ++ loc_req (bt_loc t) ++ bt_todo t.
  Lemma step_left i t s t' s' : bthread_step i t s = Some (t', s') -> left_of t' < left_of t /\ all_of t' = all_of t.
  Proof.
    intros H. unfold LazyModel.bthread_step in H. unfold left_of, all_of, list_sum. destruct (bt_loc t) as [|k p|k p] eqn:EL.
    - destruct (bt_todo t) as [|k r]; [discriminate|]. injection H as <- <-. cbn. unfold kind_steps, list_sum. cbn. split; [|reflexivity]. destruct (bk_mono k); lia.
    - unfold call_step in H. destruct p as [| | |arg|w|w| |].
      + destruct (s_done (b_slot s k)); injection H as <- <-; cbn; rewrite ?map_app, <- ?app_assoc; cbn; split; try reflexivity; lia.
      + destruct (acquire W i s); [|discriminate]. injection H as <- <-. cbn. split; [lia|reflexivity].
      + destruct (s_done (b_slot s k)); [|destruct (bk_mono k) eqn:M]; injection H as <- <-; cbn; rewrite ?M, ?map_app, <- ?app_assoc; cbn; split; try reflexivity; lia.
      + destruct (match arg with Some v0 => Some (infer (bk_dense k) (bk_cplx k) v0) | None => make (bk_dense k) (bk_cplx k) end); injection H as <- <-; cbn; rewrite ?map_app, <- ?app_assoc; cbn; split; try reflexivity; lia.
      + injection H as <- <-. cbn. split; [lia|reflexivity].
      + injection H as <- <-. cbn. split; [lia|reflexivity].
      + injection H as <- <-. cbn. split; [lia|reflexivity].
      + injection H as <- <-. cbn. rewrite ?map_app, <- ?app_assoc. cbn. split; [lia|reflexivity].
    - unfold call_step in H. destruct p as [| | |arg|w|w| |].
      + destruct (s_done (b_slot s (bk_cell k))); [destruct (parts W (b_slot s (bk_cell k))) as [[a|] [b|]]|]; injection H as <- <-; cbn; rewrite ?map_app, <- ?app_assoc; cbn; split; try reflexivity; lia.
      + destruct (acquire W i s); [|discriminate]. injection H as <- <-. cbn. split; [lia|reflexivity].
      + destruct (s_done (b_slot s (bk_cell k))); [destruct (parts W (b_slot s (bk_cell k))) as [[a|] [b|]]|destruct (bk_mono (bk_cell k))]; injection H as <- <-; cbn; rewrite ?map_app, <- ?app_assoc; cbn; split; try reflexivity; lia.
      + destruct (match arg with Some v0 => Some (infer (bk_dense (bk_cell k)) (bk_cplx (bk_cell k)) v0) | None => make (bk_dense (bk_cell k)) (bk_cplx (bk_cell k)) end); injection H as <- <-; cbn; rewrite ?map_app, <- ?app_assoc; cbn; split; try reflexivity; lia.
      + injection H as <- <-. cbn. split; [lia|reflexivity].
      + injection H as <- <-. cbn. split; [lia|reflexivity].
      + injection H as <- <-. cbn. split; [lia|reflexivity].
      + destruct (parts W (b_slot s (bk_cell k))) as [[a|] [b|]]; injection H as <- <-; cbn; rewrite ?map_app, <- ?app_assoc; cbn; split; try reflexivity; lia.
  Qed.
  Definition total_left (l : list (bthread W)) : nat := list_sum (map left_of l).
  Lemma put_left : forall l i t x, nth_error l i = Some t -> total_left (firstn i l ++ x :: skipn (S i) l) + left_of t = total_left l + left_of x.
  Proof.
    unfold total_left. induction l as [|y l IH]; intros i t x H; [destruct i; discriminate|]. destruct i as [|i]; cbn in H.
    - injection H as ->. cbn. lia.
    - pose proof (IH i t x H) as E. change (skipn (S (S i)) (y :: l)) with (skipn (S i) l). cbn [firstn app map list_sum fold_right] in *. unfold list_sum in *. cbn [fold_right]. lia.
  Qed.
  Lemma taken_bound : forall sched st, btaken W make infer sched st <= total_left (bs_threads st).
  Proof.
    induction sched as [|i r IH]; intros st; cbn [btaken]; [lia|]. destruct (bstep i st) as [st'|] eqn:E; [|apply IH].
    assert (L : total_left (bs_threads st') < total_left (bs_threads st)); [|specialize (IH st'); lia].
    unfold LazyModel.bstep in E. destruct (nth_error (bs_threads st) i) as [t|] eqn:N; [|discriminate]. destruct (bthread_step i t (bs_shared st)) as [[t' s']|] eqn:T; [|discriminate]. injection E as <-.
    pose proof (put_left _ _ _ t' N) as A. pose proof (proj1 (step_left _ _ _ _ _ T)) as B. change (total_left (firstn i (bs_threads st) ++ t' :: skipn (S i) (bs_threads st)) < total_left (bs_threads st)). lia.
  Qed.
  Lemma bounded progs sched : btaken W make infer sched (bstart progs) <= list_sum (map kind_steps (concat progs)).
  Proof.
    apply (Nat.le_trans _ _ _ (taken_bound sched _)). unfold total_left. cbn [LazyModel.bstart bs_threads]. induction progs as [|p l IH]; [cbn; lia|].
    cbn [map concat]. rewrite map_app, list_sum_app. cbn [map] in *. change (left_of (mk_bt p Out []) + list_sum (map left_of (map (fun p => mk_bt p Out []) l)) <= list_sum (map kind_steps p) + list_sum (map kind_steps (concat l))). unfold left_of at 1. cbn [bt_loc bt_todo loc_left]. lia.
  Qed.
  Definition keeps (progs : list (list bkind)) (st : bstate W) : Prop := forall i t, nth_error (bs_threads st) i = Some t -> nth_error progs i = Some (all_of t).
  Lemma keeps_run progs : forall sched st, keeps progs st -> keeps progs (brun sched st).
  Proof.
    induction sched as [|i r IH]; intros st V; cbn [LazyModel.brun]; [exact V|]. apply IH. destruct (bstep i st) as [st'|] eqn:E; [|exact V].
    unfold LazyModel.bstep in E. destruct (nth_error (bs_threads st) i) as [t|] eqn:N; [|discriminate]. destruct (bthread_step i t (bs_shared st)) as [[t' s']|] eqn:T; [|discriminate]. injection E as <-.
    intros j u H. cbn [bs_threads] in H. rewrite (put_nth _ _ _ _ _ _ N) in H. destruct (Nat.eqb j i) eqn:Eij; [|exact (V j u H)]. apply Nat.eqb_eq in Eij. subst j. injection H as <-. rewrite (proj2 (step_left _ _ _ _ _ T)). exact (V i t N).
  Qed.
  Lemma in_order progs sched i t : nth_error (bs_threads (brun sched (bstart progs))) i = Some t ->
    exists p, nth_error progs i = Some p /\ (exists rest, p = map fst (bt_log t) ++ rest) /\ (bfinished W t -> map fst (bt_log t) = p).
  Proof.
    intros N. assert (V : keeps progs (brun sched (bstart progs))).
    { apply keeps_run. intros j u E. cbn [LazyModel.bstart bs_threads] in E. rewrite nth_error_map in E. destruct (nth_error progs j) as [p|]; [|discriminate]. injection E as <-. reflexivity. }
    exists (all_of t). split; [exact (V i t N)|]. split; [eexists; reflexivity|]. intros (E1 & E2). unfold all_of. rewrite E1, E2. cbn. symmetry. apply app_nil_r.
  Qed.
End P.
