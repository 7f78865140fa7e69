(** The cache of dictionary levels. *)
From Coq Require Import List Arith Bool Lia.
From Verif Require Import CacheModel.
Import ListNotations.

Definition cache_ok (c : cache) : Prop := forall l o, map_find l (c_map c) = Some o -> nth_error (c_osgs c) o = Some l.
Definition call_ok (c : cache) (t : call) : Prop := match t with CDone l o => nth_error (c_osgs c) o = Some l | _ => True end.
Definition level_of (t : call) : nat := match t with CRead l | CCreate l | CWrite l | CDone l _ | CUndefined l => l end.
Lemma map_find_app k m n : map_find k (m ++ n) = match map_find k m with Some b => Some b | None => map_find k n end.
Proof. induction m as [|[a b] m IH]; [reflexivity|]. cbn. now destruct (Nat.eqb a k). Qed.
Lemma step_ok c t c' t' : cache_ok c -> call_ok c t -> call_step c t = (c', t') ->
  cache_ok c' /\ call_ok c' t' /\ level_of t' = level_of t /\ exists x, c_osgs c' = c_osgs c ++ x.
Proof.
  intros C T E. destruct t as [l|l|l|l o|l]; cbn in E.
  - destruct (map_find l (c_map c)) as [o|] eqn:M; injection E as <- <-; (split; [exact C|]); cbn.
    + split; [now apply C|]. split; [reflexivity|]. exists []. now rewrite app_nil_r.
    + split; [exact I|]. split; [reflexivity|]. exists []. now rewrite app_nil_r.
  - injection E as <- <-. split; [exact C|]. cbn. split; [exact I|]. split; [reflexivity|]. exists []. now rewrite app_nil_r.
  - destruct (map_find l (c_map c)) as [o|] eqn:M; injection E as <- <-.
    + split; [exact C|]. cbn. split; [exact I|]. split; [reflexivity|]. exists []. now rewrite app_nil_r.
    + rewrite app_length. cbn [length]. replace (length (c_osgs c) + 1 - 1) with (length (c_osgs c)) by lia.
      assert (N : nth_error (c_osgs c ++ [l]) (length (c_osgs c)) = Some l) by (rewrite nth_error_app2, Nat.sub_diag; [reflexivity|lia]).
      split; [|cbn; split; [exact N|split; [reflexivity|now exists [l]]]].
      intros k o. cbn. rewrite map_find_app. destruct (map_find k (c_map c)) as [b|] eqn:K.
      * intros [= <-]. apply C in K. rewrite nth_error_app1; [exact K|]. apply nth_error_Some. congruence.
      * cbn. destruct (Nat.eqb_spec l k) as [<-|D]; [|discriminate]. now intros [= <-].
  - injection E as <- <-. split; [exact C|]. split; [exact T|]. split; [reflexivity|]. exists []. now rewrite app_nil_r.
  - injection E as <- <-. split; [exact C|]. split; [exact T|]. split; [reflexivity|]. exists []. now rewrite app_nil_r.
Qed.
Lemma call_ok_mono c c' t : (exists x, c_osgs c' = c_osgs c ++ x) -> call_ok c t -> call_ok c' t.
Proof. intros [x E]. destruct t as [l|l|l|l o|l]; cbn; try easy. intro H. rewrite E, nth_error_app1; [exact H|]. apply nth_error_Some. congruence. Qed.
Lemma step_thread_ok ts : forall i c c' ts', cache_ok c -> Forall (call_ok c) ts -> step_thread i c ts = (c', ts') ->
  cache_ok c' /\ Forall (call_ok c') ts' /\ map level_of ts' = map level_of ts /\ exists x, c_osgs c' = c_osgs c ++ x.
Proof.
  induction ts as [|t ts IH]; intros i c c' ts' C T E; cbn in E.
  - injection E as <- <-. split; [exact C|]. split; [constructor|]. split; [reflexivity|]. exists []. now rewrite app_nil_r.
  - inversion T as [|? ? T1 T2]; subst. destruct i as [|i].
    + destruct (call_step c t) as [c1 t1] eqn:S. injection E as <- <-. destruct (step_ok _ _ _ _ C T1 S) as (A & B & L & X).
      split; [exact A|]. split; [constructor; [exact B|]|split; [cbn; now rewrite L|exact X]].
      eapply Forall_impl; [|exact T2]. intros u Hu. now apply (call_ok_mono c).
    + destruct (step_thread i c ts) as [c1 ts1] eqn:S. injection E as <- <-. destruct (IH _ _ _ _ C T2 S) as (A & B & L & X).
      split; [exact A|]. split; [constructor; [now apply (call_ok_mono c)|exact B]|split; [cbn; now rewrite L|exact X]].
Qed.
Lemma run_ok sched : forall c c' ts ts', cache_ok c -> Forall (call_ok c) ts -> run_schedule sched c ts = (c', ts') ->
  cache_ok c' /\ Forall (call_ok c') ts' /\ map level_of ts' = map level_of ts.
Proof.
  induction sched as [|i sched IH]; intros c c' ts ts' C T E; cbn in E.
  - injection E as <- <-. auto.
  - destruct (step_thread i c ts) as [c1 ts1] eqn:S. destruct (step_thread_ok _ _ _ _ _ C T S) as (A & B & L & _).
    destruct (IH _ _ _ _ A B E) as (A' & B' & L'). rewrite L' . auto.
Qed.
Lemma cache_start_ok : cache_ok cache_start.
Proof. intros l o H. discriminate. Qed.
(** any threads, any schedule: a call that returns gives the generator of its level *)
Lemma cache_result sched levels c' ts' i l o : run_schedule sched cache_start (map CRead levels) = (c', ts') ->
  nth_error ts' i = Some (CDone l o) -> nth_error levels i = Some l /\ nth_error (c_osgs c') o = Some l.
Proof.
  intros E H. assert (F : Forall (call_ok cache_start) (map CRead levels)) by (rewrite Forall_map; apply Forall_forall; intros; exact I).
  destruct (run_ok _ _ _ _ _ cache_start_ok F E) as (C & T & L).
  split.
  - rewrite map_map in L. cbn in L. rewrite map_id in L. rewrite <- L. rewrite nth_error_map, H. reflexivity.
  - rewrite Forall_forall in T. apply nth_error_In in H. apply T in H. exact H.
Qed.
(** different levels: nothing undefined happens *)
Definition no_clash (c : cache) (ts : list call) : Prop :=
  NoDup (map level_of ts) /\ Forall (fun t => match t with CCreate l | CWrite l => map_find l (c_map c) = None | CUndefined _ => False | _ => True end) ts.
Lemma step_map c t c' t' k : call_step c t = (c', t') -> k <> level_of t -> map_find k (c_map c') = map_find k (c_map c).
Proof.
  intros E D. destruct t as [l|l|l|l o|l]; cbn in *; try (injection E as <- <-; reflexivity).
  - destruct (map_find l (c_map c)); injection E as <- <-; reflexivity.
  - destruct (map_find l (c_map c)); injection E as <- <-; [reflexivity|]. cbn. rewrite map_find_app. cbn. destruct (Nat.eqb_spec l k); [congruence|]. now destruct (map_find k (c_map c)).
Qed.
Lemma step_clash ts : forall i c c' ts', no_clash c ts -> step_thread i c ts = (c', ts') ->
  no_clash c' ts' /\ map level_of ts' = map level_of ts /\ (forall k, ~ In k (map level_of ts) -> map_find k (c_map c') = map_find k (c_map c)).
Proof.
  induction ts as [|t ts IH]; intros i c c' ts' [N F] E; cbn in E.
  - injection E as <- <-. split; [split; assumption|]. split; reflexivity.
  - inversion F as [|? ? F1 F2]; subst. cbn in N. inversion N as [|? ? N1 N2]; subst. destruct i as [|i].
    + destruct (call_step c t) as [c1 t1] eqn:S. injection E as <- <-.
      assert (L : level_of t1 = level_of t).
      { destruct t as [l|l|l|l o|l]; cbn in S; try (injection S as <- <-; reflexivity); destruct (map_find l (c_map c)); injection S as <- <-; reflexivity. }
      split; [|split; [cbn; now rewrite L|intros k Hk; eapply step_map; [exact S|intros ->; apply Hk; now left]]]. split; [cbn; now rewrite L|].
      constructor.
      * destruct t as [l|l|l|l o|l]; cbn in S; cbn in F1.
        -- destruct (map_find l (c_map c)) eqn:M; injection S as <- <-; [exact I|exact M].
        -- injection S as <- <-. exact F1.
        -- rewrite F1 in S. injection S as <- <-. exact I.
        -- injection S as <- <-. exact I.
        -- destruct F1.
      * rewrite Forall_forall in *. intros u Hu. pose proof (F2 u Hu) as Fu. assert (D : level_of u <> level_of t). { intro Q. apply N1. rewrite <- Q. now apply in_map. }
        pose proof (step_map _ _ _ _ (level_of u) S D) as M. destruct u; cbn in *; try exact Fu; congruence.
    + destruct (step_thread i c ts) as [c1 ts1] eqn:S. injection E as <- <-. destruct (IH _ _ _ _ (conj N2 F2) S) as ((A & B) & L & M).
      split; [|split; [cbn; now rewrite L|intros k Hk; apply M; intro Q; apply Hk; now right]]. split; [cbn; rewrite L; now constructor|].
      constructor; [|exact B]. specialize (M (level_of t) N1). destruct t; cbn in *; try exact F1; congruence.
Qed.
Lemma run_clash sched : forall c c' ts ts', no_clash c ts -> run_schedule sched c ts = (c', ts') -> no_clash c' ts'.
Proof.
  induction sched as [|i sched IH]; intros c c' ts ts' N E; cbn in E; [injection E as <- <-; exact N|].
  destruct (step_thread i c ts) as [c1 ts1] eqn:S. apply (IH c1 c' ts1); [|exact E]. now apply (step_clash ts i c).
Qed.
Lemma cache_distinct sched levels c' ts' l : NoDup levels -> run_schedule sched cache_start (map CRead levels) = (c', ts') -> ~ In (CUndefined l) ts'.
Proof.
  intros N E H. assert (K : no_clash cache_start (map CRead levels)).
  { split; [rewrite map_map; cbn; now rewrite map_id|]. rewrite Forall_map. apply Forall_forall. intros; exact I. }
  pose proof (run_clash _ _ _ _ _ K E) as [_ F]. rewrite Forall_forall in F. now apply (F _ H).
Qed.
(** one thread, any history *)
Lemma call_level_ok c l c' t : cache_ok c -> call_level c l = (c', t) -> cache_ok c' /\ (exists o, t = CDone l o /\ nth_error (c_osgs c') o = Some l) /\
  (exists x, c_osgs c' = c_osgs c ++ x) /\ (map_find l (c_map c) <> None -> c' = c).
Proof.
  intros C E. unfold call_level in E. destruct (call_step c (CRead l)) as [c1 t1] eqn:S1. destruct (call_step c1 t1) as [c2 t2] eqn:S2.
  destruct (step_ok c (CRead l) _ _ C I S1) as (C1 & T1 & L1 & X1). destruct (step_ok _ _ _ _ C1 T1 S2) as (C2 & T2 & L2 & X2). destruct (step_ok _ _ _ _ C2 T2 E) as (C3 & T3 & L3 & X3).
  split; [exact C3|]. cbn in S1. destruct (map_find l (c_map c)) as [o|] eqn:M.
  - injection S1 as <- <-. cbn in S2. injection S2 as <- <-. cbn in E. injection E as <- <-. split; [exists o; split; [reflexivity|exact T1]|]. split; [exact X1|reflexivity].
  - injection S1 as <- <-. cbn in S2. injection S2 as <- <-. cbn in E. rewrite M in E. injection E as <- <-. split; [eexists; split; [reflexivity|exact T3]|]. split; [exact X3|now intros []].
Qed.
Lemma call_all_ok ls : forall c c' ts, cache_ok c -> call_all c ls = (c', ts) ->
  Forall2 (fun l t => exists o, t = CDone l o /\ nth_error (c_osgs c') o = Some l) ls ts /\ (exists x, c_osgs c' = c_osgs c ++ x).
Proof.
  induction ls as [|l ls IH]; intros c c' ts C E; cbn in E.
  - injection E as <- <-. split; [constructor|]. exists []. now rewrite app_nil_r.
  - destruct (call_level c l) as [c1 t] eqn:S. destruct (call_all c1 ls) as [c2 ts2] eqn:R. injection E as <- <-.
    destruct (call_level_ok _ _ _ _ C S) as (C1 & (o & -> & O) & (x & X) & _). destruct (IH _ _ _ C1 R) as [F (y & Y)]. split.
    + constructor; [|exact F]. exists o. split; [reflexivity|]. rewrite Y, nth_error_app1; [exact O|]. apply nth_error_Some. congruence.
    + exists (x ++ y). now rewrite Y, X, app_assoc.
Qed.
Lemma cache_history ls c' ts : call_all cache_start ls = (c', ts) -> Forall2 (fun l t => exists o, t = CDone l o /\ nth_error (c_osgs c') o = Some l) ls ts.
Proof. intro E. now apply (call_all_ok ls cache_start c' ts cache_start_ok). Qed.
Lemma cache_race : exists sched c' ts', run_schedule sched cache_start (map CRead [2; 2]) = (c', ts') /\ In (CUndefined 2) ts'.
Proof. exists [0; 1; 0; 1; 0; 1]. do 2 eexists. split; [reflexivity|]. cbn. auto. Qed.
