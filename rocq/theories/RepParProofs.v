(** Every schedule of the parallel generation of representations gives the result of one thread. *)
From Coq Require Import List Arith NArith Bool Lia.
From Verif Require Import CoreModel AlgModel RepModel ParModel ParProofs RepParModel.
Import ListNotations.

Section Par.
  Variables (K : Type) (k0 k1 : K) (kadd kmul : K -> K -> K).
  Notation mat := (mat K). Notation rep := (rep K).
  Variables (todo : list N) (maps : N -> option mapper) (size workers : nat) (reps0 final : N -> option rep).
  Hypothesis workers_pos : 1 <= workers.
  Hypothesis single : build_reps k0 k1 kadd kmul maps size reps0 todo = Some final.
  Notation pstep := (pstep k0 k1 kadd kmul todo maps size workers).
  Notation prun := (prun k0 k1 kadd kmul todo maps size workers).
  Notation moved := (moved k0 k1 kadd kmul todo maps size workers).
  Notation am := (apply_mapper k0 k1 kadd kmul).
  Notation n := (length todo).

  (** what one thread does, level by level *)
  Inductive chain : (N -> option rep) -> list N -> list (N -> option rep) -> Prop :=
  | chain_nil reps : chain reps [] [reps]
  | chain_cons reps wl rest ra rb m r tl : reps (fst (parents wl)) = Some ra -> reps (snd (parents wl)) = Some rb -> maps wl = Some m -> make_rep k0 k1 kadd kmul m ra rb size = Some r -> chain (upd reps wl r) rest tl -> chain reps (wl :: rest) (reps :: tl).
  Lemma build_chain : forall l reps fin, build_reps k0 k1 kadd kmul maps size reps l = Some fin -> exists c, chain reps l c /\ nth_error c (length l) = Some fin.
  Proof.
    induction l as [|wl l IH]; intros reps fin H; cbn [build_reps] in H; [injection H as ->; exists [fin]; split; [constructor|reflexivity]|].
    destruct (parents wl) as [a b] eqn:P. destruct (reps a) as [ra|] eqn:Ea; [|discriminate]. destruct (reps b) as [rb|] eqn:Eb; [|discriminate]. destruct (maps wl) as [m|] eqn:Em; [|discriminate]. destruct (make_rep k0 k1 kadd kmul m ra rb size) as [r|] eqn:Er; [|discriminate].
    destruct (IH _ _ H) as [c [C E]]. exists (reps :: c). split; [|exact E]. apply (chain_cons reps wl l ra rb m r c); try assumption; now rewrite P.
  Qed.
  Lemma chain_level : forall l reps c, chain reps l c -> nth_error c 0 = Some reps /\ forall k wl, nth_error l k = Some wl -> exists R ra rb m r, nth_error c k = Some R /\ R (fst (parents wl)) = Some ra /\ R (snd (parents wl)) = Some rb /\ maps wl = Some m /\ make_rep k0 k1 kadd kmul m ra rb size = Some r /\ nth_error c (S k) = Some (upd R wl r).
  Proof.
    intros l reps c C. induction C as [reps|reps wl rest ra rb m r tl E1 E2 E3 E4 C [IH0 IH]]; (split; [reflexivity|]).
    - intros [|k] wl H; discriminate.
    - intros [|k] w H; [injection H as <-; exists reps, ra, rb, m, r; now repeat split|]. now apply IH.
  Qed.
  Lemma sequence_some {X} : forall (l : list (option X)) r, sequence l = Some r -> l = map Some r.
  Proof. induction l as [|[x|] l IH]; intros r H; cbn in H; [now injection H as <-| |discriminate]. destruct (sequence l) as [q|]; [|discriminate]. injection H as <-. cbn. now rewrite (IH q eq_refl). Qed.
  Lemma map_sequence {X} : forall (r : list X), sequence (map Some r) = Some r.
  Proof. induction r as [|x r IH]; [reflexivity|]. cbn. now rewrite IH. Qed.
  Lemma make_rep_elem m ra rb r : make_rep k0 k1 kadd kmul m ra rb size = Some r -> length r = size /\ forall e, e < size -> exists x y, nth_error ra e = Some x /\ nth_error rb e = Some y /\ nth_error r e = Some (am m x y).
  Proof.
    intros H. unfold make_rep in H. apply sequence_some in H. assert (L : length r = size) by (rewrite <- (map_length Some r), <- H, map_length; apply seq_length). split; [exact L|]. intros e He.
    assert (Q : nth_error (map Some r) e = option_map Some (nth_error r e)) by apply nth_error_map. rewrite <- H, nth_error_map in Q. rewrite (nth_error_nth' (seq 0 size) 0) in Q by (rewrite seq_length; exact He). rewrite seq_nth in Q by exact He. cbn [option_map plus] in Q.
    destruct (nth_error r e) as [z|] eqn:Ez; [|apply nth_error_None in Ez; lia]. cbn in Q. destruct (nth_error ra e) as [x|]; [|discriminate]. destruct (nth_error rb e) as [y|]; [|discriminate]. injection Q as <-. now exists x, y.
  Qed.
  Variable c : list (N -> option rep).
  Hypothesis C : chain reps0 todo c.
  Hypothesis C_fin : nth_error c n = Some final.

  (** the state between steps *)
  Definition level_of (m : mpc) : nat := match m with MWait k _ => k | _ => n end.
  Definition worker_ok (g w : nat) (pc : wpc K) : Prop :=
    match pc with
    | WWait k => g <= k <= S g /\ k <= n
    | WWork k e ra rb => k = g /\ k < n /\ e mod workers = w /\ exists R wl, nth_error c k = Some R /\ nth_error todo k = Some wl /\ R (fst (parents wl)) = Some ra /\ R (snd (parents wl)) = Some rb
    | WDone k => k = n /\ g <= n /\ n <= S g
    end.
  (** the next element a worker will make at level [g] *)
  Definition reached (g w : nat) (pc : wpc K) : nat :=
    match pc with WWork _ e _ _ => e | _ => if g <? last_of pc then w + size * workers else w end.
  Record Inv (s : pstate K) : Prop := {
    i_level : p_global s = level_of (p_main s) /\ p_global s <= n;
    i_reps : nth_error c (p_global s) = Some (p_reps s);
    i_main : match p_main s with
             | MWait k j => j <= workers /\ forall w pc, w < j -> nth_error (p_work s) w = Some pc -> k < last_of pc
             | MJoin j => j <= workers /\ forall w pc, w < j -> nth_error (p_work s) w = Some pc -> pc = WDone n
             | MEnd => forall w pc, nth_error (p_work s) w = Some pc -> pc = WDone n
             end;
    i_count : length (p_work s) = workers;
    i_work : forall w pc, nth_error (p_work s) w = Some pc -> worker_ok (p_global s) w pc;
    i_rawlen : length (p_raw s) = n /\ forall k raw, p_global s <= k -> nth_error (p_raw s) k = Some raw -> length raw = size;
    i_raw : forall raw m r ra rb wl R, nth_error (p_raw s) (p_global s) = Some raw -> nth_error todo (p_global s) = Some wl -> nth_error c (p_global s) = Some R ->
              R (fst (parents wl)) = Some ra -> R (snd (parents wl)) = Some rb -> maps wl = Some m -> make_rep k0 k1 kadd kmul m ra rb size = Some r ->
              forall w pc e, nth_error (p_work s) w = Some pc -> e mod workers = w -> e < size -> e < reached (p_global s) w pc -> nth_error raw e = Some (nth_error r e) }.
  Lemma inv_start : Inv (pstart todo size workers reps0).
  Proof.
    destruct (chain_level _ _ _ C) as [C0 _]. constructor; cbn [p_global p_main p_reps p_work p_raw pstart level_of].
    - split; [reflexivity|lia].
    - exact C0.
    - split; [lia|]. intros w pc Hw. lia.
    - apply repeat_length.
    - intros w pc H. apply nth_error_In, repeat_spec in H. subst. cbn. lia.
    - split; [apply map_length|]. intros k raw _ H. rewrite nth_error_map in H. destruct (nth_error todo k); [|discriminate]. injection H as <-. apply repeat_length.
    - intros raw m r ra rb wl R H _ _ _ _ _ _ w pc e Hw Hm He Hr. apply nth_error_In, repeat_spec in Hw. subst pc. cbn in Hr. subst w. pose proof (Nat.mod_le e workers ltac:(lia)). lia.
  Qed.
  Lemma pair_of {X Y} (p : X * Y) : p = (fst p, snd p). Proof. now destruct p. Qed.
  Lemma inv_worker s w : Inv s -> match worker_step k0 k1 kadd kmul todo maps size workers s w with PBad => False | PBlocked => True | PNext s' => Inv s' end.
  Proof.
    intros I. destruct (chain_level _ _ _ C) as [_ CL]. destruct (i_level s I) as [Lv Ln]. pose proof (i_reps s I) as Hr. pose proof (i_count s I) as Hc. unfold worker_step. destruct (nth_error (p_work s) w) as [pc|] eqn:Ew; [|exact Logic.I]. pose proof (i_work s I w pc Ew) as Wk.
    assert (Sw : forall x v, nth_error (set_at w x (p_work s)) v = if v =? w then Some x else nth_error (p_work s) v) by (intros x v; rewrite set_at_nth, Ew; reflexivity).
    assert (Ww : w < workers) by (rewrite <- Hc; apply nth_error_Some; congruence).
    (** a worker moves without touching the raw data *)
    assert (Move : forall x, worker_ok (p_global s) w x -> (forall k, k < last_of pc -> k < last_of x) -> (pc = WDone n -> x = WDone n) -> (reached (p_global s) w x <= reached (p_global s) w pc \/ size <= reached (p_global s) w pc) ->
      Inv (mk_p (p_reps s) (p_raw s) (p_global s) (p_main s) (set_at w x (p_work s)))).
    { intros x Ox Lx Dx Rx. constructor; cbn [p_global p_main p_reps p_work p_raw].
      - now split.
      - exact Hr.
      - pose proof (i_main s I) as Hm. destruct (p_main s) as [k j|j|].
        + destruct Hm as [Hj Hm]. split; [exact Hj|]. intros v pv Hv Ev. rewrite Sw in Ev. destruct (Nat.eqb_spec v w) as [->|Ne]; [injection Ev as <-; apply Lx, (Hm w pc Hv Ew)|now apply (Hm v)].
        + destruct Hm as [Hj Hm]. split; [exact Hj|]. intros v pv Hv Ev. rewrite Sw in Ev. destruct (Nat.eqb_spec v w) as [->|Ne]; [injection Ev as <-; apply Dx, (Hm w pc Hv Ew)|now apply (Hm v)].
        + intros v pv Ev. rewrite Sw in Ev. destruct (Nat.eqb_spec v w) as [->|Ne]; [injection Ev as <-; apply Dx, (Hm w pc Ew)|now apply (Hm v)].
      - now rewrite set_at_length.
      - intros v pv Ev. rewrite Sw in Ev. destruct (Nat.eqb_spec v w) as [->|Ne]; [now injection Ev as <-|now apply (i_work s I)].
      - exact (i_rawlen s I).
      - intros raw m r ra rb wl R E1 E2 E3 E4 E5 E6 E7 v pv e Ev Hm He Hre. rewrite Sw in Ev. destruct (Nat.eqb_spec v w) as [->|Ne]; [|apply (i_raw s I raw m r ra rb wl R E1 E2 E3 E4 E5 E6 E7 v pv e Ev Hm He Hre)].
        injection Ev as <-. apply (i_raw s I raw m r ra rb wl R E1 E2 E3 E4 E5 E6 E7 w pc e Ew Hm He). lia. }
    destruct pc as [k|k e ra rb|k]; [| |exact Logic.I].
    - cbn [worker_ok] in Wk. destruct (nth_error todo k) as [wl|] eqn:Et.
      + destruct (p_global s <? k) eqn:Q; [exact Logic.I|]. apply Nat.ltb_ge in Q. assert (k = p_global s) as -> by lia. destruct (CL _ _ Et) as [R [ra [rb [m [r [Ec [Ea [Eb [Em [Er En]]]]]]]]]]. rewrite Hr in Ec. injection Ec as <-. rewrite (pair_of (parents wl)), Ea, Eb.
        apply Move; cbn [worker_ok last_of reached].
        * split; [reflexivity|]. split; [apply nth_error_Some; congruence|]. split; [now apply Nat.mod_small|]. exists (p_reps s), wl. now repeat split.
        * auto.
        * discriminate.
        * left. rewrite Nat.ltb_irrefl. lia.
      + apply nth_error_None in Et. apply Move; cbn [worker_ok last_of reached]; [lia|auto|discriminate|left; lia].
    - cbn [worker_ok] in Wk. destruct Wk as [-> [Kn [Em [R [wl [Ec [Et [Ea Eb]]]]]]]]. destruct (e <? size) eqn:Q.
      + apply Nat.ltb_lt in Q. rewrite Et. destruct (CL _ _ Et) as [R' [ra' [rb' [m [r [Ec' [Ea' [Eb' [Emp [Er En]]]]]]]]]]. rewrite Ec in Ec'. injection Ec' as <-. rewrite Ea in Ea'. injection Ea' as <-. rewrite Eb in Eb'. injection Eb' as <-. rewrite Emp.
        destruct (make_rep_elem _ _ _ _ Er) as [Lr Er']. destruct (Er' e Q) as [x [y [Ex [Ey Ez]]]]. rewrite Ex, Ey. destruct (i_rawlen s I) as [RL1 RL2]. destruct (nth_error (p_raw s) (p_global s)) as [raw|] eqn:Eraw; [|apply nth_error_None in Eraw; lia].
        pose proof (RL2 _ raw (le_n _) Eraw) as Lraw. assert (Q2 : (e <? length raw) = true) by (apply Nat.ltb_lt; lia). rewrite Q2.
        assert (Sr : forall v z, nth_error (set_at (p_global s) z (p_raw s)) v = if v =? p_global s then Some z else nth_error (p_raw s) v) by (intros v z; rewrite set_at_nth, Eraw; reflexivity).
        constructor; cbn [p_global p_main p_reps p_work p_raw].
        * now split.
        * exact Hr.
        * pose proof (i_main s I) as Hm. destruct (p_main s) as [k j|j|].
          -- destruct Hm as [Hj Hm]. split; [exact Hj|]. intros v pv Hv Ev. rewrite Sw in Ev. destruct (Nat.eqb_spec v w) as [->|Ne]; [injection Ev as <-; apply (Hm w _ Hv Ew)|now apply (Hm v)].
          -- destruct Hm as [Hj Hm]. split; [exact Hj|]. intros v pv Hv Ev. rewrite Sw in Ev. destruct (Nat.eqb_spec v w) as [->|Ne]; [pose proof (Hm w _ Hv Ew); discriminate|now apply (Hm v)].
          -- intros v pv Ev. rewrite Sw in Ev. destruct (Nat.eqb_spec v w) as [->|Ne]; [pose proof (Hm w _ Ew); discriminate|now apply (Hm v)].
        * now rewrite set_at_length.
        * intros v pv Ev. rewrite Sw in Ev. destruct (Nat.eqb_spec v w) as [->|Ne]; [|now apply (i_work s I)]. injection Ev as <-. cbn [worker_ok]. split; [reflexivity|]. split; [exact Kn|]. split; [|exists R, wl; now repeat split]. replace (e + workers) with (e + 1 * workers) by lia. rewrite Nat.mod_add by lia. exact Em.
        * split; [now rewrite set_at_length|]. intros k raw' Hk Ek. rewrite Sr in Ek. destruct (Nat.eqb_spec k (p_global s)) as [->|Ne]; [injection Ek as <-; now rewrite set_at_length|now apply (RL2 k)].
        * intros raw' m' r' ra' rb' wl' R' E1 E2 E3 E4 E5 E6 E7 v pv e' Ev Hm He Hre. rewrite Sr, Nat.eqb_refl in E1. injection E1 as <-. rewrite Et in E2. injection E2 as <-. rewrite Ec in E3. injection E3 as <-. rewrite Ea in E4. injection E4 as <-. rewrite Eb in E5. injection E5 as <-. rewrite Emp in E6. injection E6 as <-. rewrite Er in E7. injection E7 as <-.
          assert (Ee : nth_error raw e <> None) by (apply nth_error_Some; lia). rewrite set_at_nth. destruct (nth_error raw e) as [old|] eqn:Eo; [|contradiction]. destruct (Nat.eqb_spec e' e) as [->|Ne]; [now rewrite Ez|].
          rewrite Sw in Ev. destruct (Nat.eqb_spec v w) as [->|Nv]; [|apply (i_raw s I raw m r ra rb wl R Eraw Et Ec Ea Eb Emp Er v pv e' Ev Hm He Hre)].
          injection Ev as <-. cbn [reached] in Hre. apply (i_raw s I raw m r ra rb wl R Eraw Et Ec Ea Eb Emp Er w _ e' Ew Hm He). cbn [reached].
          (** below e + workers with the same remainder and not e *)
          assert (~ e < e'); [|lia]. intros Lt. assert (X1 := Nat.div_mod e workers ltac:(lia)). assert (X2 := Nat.div_mod e' workers ltac:(lia)). rewrite Em in X1. rewrite Hm in X2. assert (e / workers < e' / workers) by nia. nia.
      + apply Nat.ltb_ge in Q. apply Move; cbn [worker_ok last_of reached]; [lia|lia|discriminate|right; exact Q].
  Qed.
  Lemma inv_main s : Inv s -> match main_step todo workers s with PBad => False | PBlocked => True | PNext s' => Inv s' end.
  Proof.
    intros I. destruct (chain_level _ _ _ C) as [_ CL]. destruct (i_level s I) as [Lv Ln]. pose proof (i_reps s I) as Hr. pose proof (i_count s I) as Hc. pose proof (i_main s I) as Hm. unfold main_step. destruct (p_main s) as [k j|j|] eqn:Em; [| |exact Logic.I].
    - cbn [level_of] in Lv. subst k. destruct Hm as [Hj Hm]. destruct (nth_error todo (p_global s)) as [wl|] eqn:Et.
      + destruct (j <? workers) eqn:Q.
        * apply Nat.ltb_lt in Q. destruct (nth_error (p_work s) j) as [pc|] eqn:Ej; [|apply nth_error_None in Ej; lia]. destruct (p_global s <? last_of pc) eqn:Q2; [|exact Logic.I]. apply Nat.ltb_lt in Q2.
          constructor; cbn [p_global p_main p_reps p_work p_raw level_of]; try apply I; auto. split; [lia|]. intros w pw Hw Ew. destruct (Nat.eq_dec w j) as [->|Ne]; [congruence|]. apply (Hm w); [lia|exact Ew].
        * apply Nat.ltb_ge in Q. assert (j = workers) as -> by lia. destruct (i_rawlen s I) as [RL1 RL2]. assert (Gn : p_global s < n) by (apply nth_error_Some; congruence). destruct (nth_error (p_raw s) (p_global s)) as [raw|] eqn:Eraw; [|apply nth_error_None in Eraw; lia].
          destruct (CL _ _ Et) as [R [ra [rb [m [r [Ec [Ea [Eb [Emp [Er En]]]]]]]]]]. destruct (make_rep_elem _ _ _ _ Er) as [Lr _]. pose proof (RL2 _ raw (le_n _) Eraw) as Lraw.
          assert (Eq : raw = map Some r).
          { apply nth_ext with (d := None) (d' := None); [now rewrite map_length, Lr|]. intros e He. rewrite Lraw in He. pose (w := e mod workers). assert (Hw : w < workers) by (apply Nat.mod_upper_bound; lia). destruct (nth_error (p_work s) w) as [pc|] eqn:Ew; [|apply nth_error_None in Ew; lia].
            pose proof (Hm w pc Hw Ew) as Hl. assert (Z : nth_error raw e = Some (nth_error r e)). { apply (i_raw s I raw m r ra rb wl R Eraw Et Ec Ea Eb Emp Er w pc e Ew eq_refl He). pose proof (i_work s I w pc Ew) as Wk. assert (X : (p_global s <? last_of pc) = true) by (now apply Nat.ltb_lt).
              assert (Sz : e < w + size * workers) by nia. destruct pc as [k|k e' ra' rb'|k]; cbn [reached last_of] in *; [now rewrite X|cbn [worker_ok] in Wk; lia|now rewrite X]. }
            rewrite (nth_error_nth _ _ _ Z). destruct (nth_error r e) as [z|] eqn:Ez; [|apply nth_error_None in Ez; lia]. symmetry. apply nth_error_nth. now rewrite nth_error_map, Ez. }
          rewrite Eq, map_sequence. rewrite Hr in Ec. injection Ec as <-.
          constructor; cbn [p_global p_main p_reps p_work p_raw level_of].
          -- split; [reflexivity|lia].
          -- exact En.
          -- split; [lia|]. intros w pc Hw. lia.
          -- exact Hc.
          -- intros w pc Ew. pose proof (i_work s I w pc Ew) as Wk. assert (Hw : w < workers) by (rewrite <- Hc; apply nth_error_Some; congruence). pose proof (Hm w pc Hw Ew) as Hl. destruct pc as [k|k e ra' rb'|k]; cbn [worker_ok last_of] in *; lia.
          -- split; [now rewrite set_at_length|]. intros k raw' Hk Ek. rewrite set_at_nth in Ek. destruct (Nat.eqb_spec k (p_global s)) as [->|Ne]; [lia|]. apply (RL2 k); [lia|exact Ek].
          -- intros raw' m' r' ra' rb' wl' R' E1 E2 E3 E4 E5 E6 E7 w pc e Ew Hme He Hre. exfalso. pose proof (i_work s I w pc Ew) as Wk. assert (Hw : w < workers) by (rewrite <- Hc; apply nth_error_Some; congruence). pose proof (Hm w pc Hw Ew) as Hl.
             assert (Hle : w <= e) by (rewrite <- Hme; apply Nat.mod_le; lia). assert (Gn' : S (p_global s) < n) by (apply nth_error_Some; congruence).
             destruct pc as [k|k e' ra'' rb''|k]; cbn [worker_ok last_of reached] in *; [|lia|lia]. assert (k = S (p_global s)) as -> by lia. rewrite Nat.ltb_irrefl in Hre. lia.
      + apply nth_error_None in Et. constructor; cbn [p_global p_main p_reps p_work p_raw level_of]; try apply I; [lia|]. split; [lia|]. intros w pc Hw. lia.
    - destruct Hm as [Hj Hm]. cbn [level_of] in Lv. destruct (j <? workers) eqn:Q.
      + apply Nat.ltb_lt in Q. destruct (nth_error (p_work s) j) as [pc|] eqn:Ej; [|apply nth_error_None in Ej; lia]. destruct pc as [k|k e ra rb|k]; try exact Logic.I.
        constructor; cbn [p_global p_main p_reps p_work p_raw level_of]; try apply I; auto. split; [lia|]. intros w pw Hw Ew. destruct (Nat.eq_dec w j) as [->|Ne]; [|apply (Hm w); [lia|exact Ew]]. rewrite Ej in Ew. injection Ew as <-. pose proof (i_work s I j _ Ej) as Wk. cbn in Wk. destruct Wk as [-> _]. reflexivity.
      + apply Nat.ltb_ge in Q. constructor; cbn [p_global p_main p_reps p_work p_raw level_of]; try apply I; auto. intros w pc Ew. apply (Hm w pc); [|exact Ew]. assert (w < workers) by (rewrite <- Hc; apply nth_error_Some; congruence). lia.
  Qed.
  Lemma inv_step s t : Inv s -> match pstep s t with PBad => False | PBlocked => True | PNext s' => Inv s' end.
  Proof. intros I. destruct t as [|w]; [now apply inv_main|now apply inv_worker]. Qed.
  Lemma inv_run : forall order s, Inv s -> exists s', prun s order = Some s' /\ Inv s'.
  Proof.
    induction order as [|t order IH]; intros s I; cbn [RepParModel.prun]; [now exists s|]. pose proof (inv_step s t I) as H. destruct (pstep s t) as [| |s'] eqn:E; [now apply IH|contradiction|now apply IH].
  Qed.
  Lemma inv_end s : Inv s -> p_main s = MEnd -> p_reps s = final.
  Proof. intros I E. destruct (i_level s I) as [Lv _]. rewrite E in Lv. cbn in Lv. pose proof (i_reps s I) as H. rewrite Lv, C_fin in H. now injection H. Qed.
  Lemma inv_progress s : Inv s -> p_main s <> MEnd -> exists t s', pstep s t = PNext s'.
  Proof.
    intros I Ne. destruct (i_level s I) as [Lv Ln]. pose proof (i_count s I) as Hc.
    assert (Go : forall t, pstep s t <> PBlocked -> exists t s', pstep s t = PNext s'). { intros t H. exists t. pose proof (inv_step s t I) as H'. destruct (pstep s t) as [| |s']; [contradiction|contradiction|now exists s']. }
    destruct (p_main s) as [k j|j|] eqn:Em; [| |contradiction].
    - cbn [level_of] in Lv. destruct (nth_error todo k) as [wl|] eqn:Et.
      + destruct (j <? workers) eqn:Q.
        * assert (Q' := Q). apply Nat.ltb_lt in Q'. destruct (nth_error (p_work s) j) as [pc|] eqn:Ej; [|apply nth_error_None in Ej; lia]. destruct (k <? last_of pc) eqn:Q2.
          -- apply (Go 0). cbn. unfold main_step. rewrite Em, Et, Q, Ej, Q2. discriminate.
          -- apply Nat.ltb_ge in Q2. pose proof (i_work s I j pc Ej) as Wk. assert (Kn : k < n) by (apply nth_error_Some; congruence). apply (Go (S j)). cbn. unfold worker_step. rewrite Ej. destruct pc as [k'|k' e ra rb|k']; cbn [worker_ok last_of] in *.
             ++ assert (k' = k) as -> by lia. rewrite Et. assert (Q3 : (p_global s <? k) = false) by (apply Nat.ltb_ge; lia). rewrite Q3. destruct (parents wl) as [a b]. destruct (p_reps s a); [destruct (p_reps s b)|]; discriminate.
             ++ destruct (e <? size); [|discriminate]. destruct (nth_error todo k') as [wl'|]; [|discriminate]. destruct (maps wl'); [|discriminate]. destruct (nth_error ra e); [|discriminate]. destruct (nth_error rb e); [|discriminate]. destruct (nth_error (p_raw s) k') as [raw|]; [|discriminate]. destruct (e <? length raw); discriminate.
             ++ lia.
        * apply (Go 0). cbn. unfold main_step. rewrite Em, Et, Q. destruct (nth_error (p_raw s) k) as [raw|]; [|discriminate]. destruct (sequence raw); discriminate.
      + apply (Go 0). cbn. unfold main_step. rewrite Em, Et. discriminate.
    - destruct (j <? workers) eqn:Q.
      + assert (Q' := Q). apply Nat.ltb_lt in Q'. destruct (nth_error (p_work s) j) as [pc|] eqn:Ej; [|apply nth_error_None in Ej; lia]. cbn [level_of] in Lv. pose proof (i_work s I j pc Ej) as Wk. destruct pc as [k'|k' e ra rb|k']; cbn [worker_ok] in *.
        * apply (Go (S j)). cbn. unfold worker_step. rewrite Ej. assert (Et : nth_error todo k' = None) by (apply nth_error_None; lia). rewrite Et. discriminate.
        * lia.
        * apply (Go 0). cbn. unfold main_step. rewrite Em, Q, Ej. discriminate.
      + apply (Go 0). cbn. unfold main_step. rewrite Em, Q. discriminate.
  Qed.

  (** * A bound on the number of steps *)
  Definition wmeas (pc : wpc K) : nat := match pc with WWait k => (n - k) * (size + 2) + 1 | WWork k e _ _ => (n - k - 1) * (size + 2) + 2 + (size - e) | WDone _ => 0 end.
  Definition mmeas (m : mpc) : nat := match m with MWait k j => (n - k) * (workers + 2) + (workers - j) + workers + 3 | MJoin j => workers - j + 1 | MEnd => 0 end.
  Definition meas (s : pstate K) : nat := mmeas (p_main s) + list_sum (map wmeas (p_work s)).
  Lemma sum_set : forall (l : list (wpc K)) w pc x, nth_error l w = Some pc -> list_sum (map wmeas (set_at w x l)) + wmeas pc = list_sum (map wmeas l) + wmeas x.
  Proof.
    induction l as [|y l IH]; intros [|w] pc x H; try discriminate; [injection H as ->; cbn; lia|]. rewrite set_at_S. cbn [map]. change (list_sum (wmeas y :: map wmeas (set_at w x l))) with (wmeas y + list_sum (map wmeas (set_at w x l))). change (list_sum (wmeas y :: map wmeas l)) with (wmeas y + list_sum (map wmeas l)). specialize (IH w pc x H). lia.
  Qed.
  Lemma meas_step s t s' : Inv s -> pstep s t = PNext s' -> meas s' < meas s.
  Proof.
    intros I. destruct (i_level s I) as [Lv Ln]. destruct t as [|w]; cbn [RepParModel.pstep].
    - unfold main_step, meas. destruct (p_main s) as [k j|j|] eqn:Em; [| |discriminate].
      + destruct (nth_error todo k) as [wl|] eqn:Et.
        * assert (Kn : k < n) by (apply nth_error_Some; congruence). destruct (j <? workers) eqn:Q.
          -- apply Nat.ltb_lt in Q. destruct (nth_error (p_work s) j) as [pc|]; [|discriminate]. destruct (k <? last_of pc); [|discriminate]. intros H. injection H as <-. cbn [p_main p_work mmeas]. lia.
          -- destruct (nth_error (p_raw s) k) as [raw|]; [|discriminate]. destruct (sequence raw) as [r|]; [|discriminate]. intros H. injection H as <-. cbn [p_main p_work mmeas]. replace (n - k) with (S (n - S k)) by lia. cbn [Nat.mul]. lia.
        * intros H. injection H as <-. cbn [p_main p_work mmeas]. pose proof (Nat.le_0_l ((n - k) * (workers + 2))). rewrite Nat.sub_0_r. lia.
      + destruct (j <? workers) eqn:Q.
        * apply Nat.ltb_lt in Q. destruct (nth_error (p_work s) j) as [[| |]|]; try discriminate. intros H. injection H as <-. cbn [p_main p_work mmeas]. lia.
        * intros H. injection H as <-. cbn [p_main p_work mmeas]. lia.
    - unfold worker_step, meas. destruct (nth_error (p_work s) w) as [pc|] eqn:Ew; [|discriminate]. assert (X := fun x => sum_set (p_work s) w pc x Ew). pose proof (i_work s I w pc Ew) as Wk. destruct pc as [k|k e ra rb|k]; [| |discriminate].
      + destruct (nth_error todo k) as [wl|] eqn:Et.
        * assert (Kn : k < n) by (apply nth_error_Some; congruence). destruct (p_global s <? k); [discriminate|]. destruct (parents wl) as [a b]. destruct (p_reps s a) as [ra|]; [|discriminate]. destruct (p_reps s b) as [rb|]; [|discriminate]. intros H. injection H as <-. cbn [p_main p_work]. specialize (X (WWork k w ra rb)). cbn [wmeas] in X.
          assert (Z : (n - k) * (size + 2) = (n - k - 1) * (size + 2) + (size + 2)) by nia. lia.
        * intros H. injection H as <-. cbn [p_main p_work]. specialize (X (WDone k)). cbn [wmeas] in X. pose proof (Nat.le_0_l ((n - k) * (size + 2))). lia.
      + cbn [worker_ok] in Wk. destruct Wk as [-> [Kn _]]. destruct (e <? size) eqn:Q.
        * apply Nat.ltb_lt in Q. destruct (nth_error todo (p_global s)) as [wl|]; [|discriminate]. destruct (maps wl) as [m|]; [|discriminate]. destruct (nth_error ra e) as [x|]; [|discriminate]. destruct (nth_error rb e) as [y|]; [|discriminate]. destruct (nth_error (p_raw s) (p_global s)) as [raw|]; [|discriminate]. destruct (e <? length raw); [|discriminate].
          intros H. injection H as <-. cbn [p_main p_work]. specialize (X (WWork (p_global s) (e + workers) ra rb)). cbn [wmeas] in X. lia.
        * intros H. injection H as <-. cbn [p_main p_work]. specialize (X (WWait (S (p_global s)))). cbn [wmeas] in X. replace (n - S (p_global s)) with (n - p_global s - 1) in X by lia. lia.
  Qed.
  Lemma moved_bound : forall order s, Inv s -> moved s order <= meas s.
  Proof.
    induction order as [|t order IH]; intros s I; cbn [RepParModel.moved]; [lia|]. pose proof (inv_step s t I) as H. destruct (pstep s t) as [| |s'] eqn:E; [now apply IH|contradiction|]. pose proof (meas_step s t s' I E). specialize (IH s' H). lia.
  Qed.
  Lemma meas_start : meas (pstart todo size workers reps0) = n * (workers + 2) + 2 * workers + 3 + workers * (n * (size + 2) + 1).
  Proof.
    unfold meas, pstart. cbn [p_main p_work mmeas]. rewrite !Nat.sub_0_r. assert (X : list_sum (map wmeas (repeat (WWait 0) workers)) = workers * (n * (size + 2) + 1)); [|rewrite X; lia].
    generalize workers as v. induction v as [|v IH]; [reflexivity|]. cbn [repeat map]. change (list_sum (wmeas (WWait 0) :: map wmeas (repeat (WWait 0) v))) with (wmeas (WWait 0) + list_sum (map wmeas (repeat (WWait 0) v))). rewrite IH. cbn [wmeas]. rewrite Nat.sub_0_r. cbn [Nat.mul]. lia.
  Qed.
  (** no worker touches anything while the main thread publishes *)
  Lemma inv_quiet s k w pc : Inv s -> p_main s = MWait k workers -> nth_error (p_work s) w = Some pc -> pc = WWait (S k) \/ (pc = WDone (S k) /\ S k = n) \/ k = n.
  Proof.
    intros I Em Ew. destruct (i_level s I) as [Lv Ln]. pose proof (i_main s I) as Hm. rewrite Em in Hm, Lv. cbn [level_of] in Lv. destruct Hm as [_ Hm]. assert (Hw : w < workers) by (rewrite <- (i_count s I); apply nth_error_Some; congruence). pose proof (Hm w pc Hw Ew) as Hl. pose proof (i_work s I w pc Ew) as Wk.
    destruct (Nat.eq_dec k n) as [->|Kn]; [auto|]. destruct pc as [k'|k' e ra rb|k']; cbn [worker_ok last_of] in *; [left; f_equal; lia|lia|]. right. left. split; [f_equal; lia|lia].
  Qed.
End Par.
