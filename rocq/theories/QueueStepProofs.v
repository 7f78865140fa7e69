(** Every step keeps the invariant of the queue. *)
From Coq Require Import List Arith Bool Lia.
From Verif Require Import QueueModel QueueSpec QueueProofs.
Import ListNotations.

Section Steps.
  Context {V : Type}.
  Notation thread := (qthread V).
  Notation shared := (qshared V).

  (** steps that change nothing a chain or a fact talks about, except locks and the abort flag *)
  Definition like (s s' : shared) : Prop :=
    q_datum s' = q_datum s /\ q_next s' = q_next s /\ q_head s' = q_head s /\ q_tail s' = q_tail s /\ q_fresh s' = q_fresh s /\ q_mid s' = q_mid s /\
    q_pushed s' = q_pushed s /\ q_popped s' = q_popped s /\ q_broken s' = q_broken s /\ (q_abort s = true -> q_abort s' = true).
  Lemma like_chain s s' l : like s s' -> chain s l -> chain s' l.
  Proof. intros (E1 & E2 & E3 & E4 & E5 & E6 & E7 & E8 & _) H. unfold chain, ids in *. rewrite E1, E2, E3, E4, E5, E6, E7, E8. exact H. Qed.
  Lemma like_fact s s' l (t : thread) : like s s' -> fact s l t -> fact s' l t.
  Proof.
    intros (E1 & E2 & E3 & E4 & E5 & E6 & _ & _ & _ & Ea) H. apply (fact_keep s l); auto; rewrite ?E1, ?E2, ?E3, ?E4, ?E6; auto.
    intros n _ Hf. unfold free, ids in *. rewrite E1, E2, E4, E5. exact Hf.
  Qed.
  Lemma like_step (s : shared) a t b s' t' l : inv s (a ++ t :: b) -> chain s l -> Forall (fact s l) (a ++ t :: b) -> like s s' ->
    fact s' l t' ->
    hreg t' + b2n (q_hlock s) = hreg t + b2n (q_hlock s') -> treg t' + b2n (q_tlock s) = treg t + b2n (q_tlock s') ->
    (news t' = news t \/ news t' = []) ->
    (q_tlock s' = false -> q_datum s (q_tail s) = None /\ q_next s (q_tail s) = None) ->
    (q_hlock s' = false -> q_mid s = None) -> inv s' (a ++ t' :: b).
  Proof.
    intros I Hc Hfs Hl Hf Eh Et En Htf Hhf. pose proof I as [_ _ _ _ Hfr _ _ Hok].
    apply (step_inv s a t b s' t' l l I Hc Hfs); auto.
    - exact (like_chain _ _ _ Hl Hc).
    - intros u _ _ _ Hu. exact (like_fact _ _ _ _ Hl Hu).
    - tauto.
    - destruct Hl as (-> & -> & _ & _ & -> & _). exact Hfr.
    - intros E. specialize (Htf E). destruct Hl as (-> & -> & _ & -> & _). exact Htf.
    - intros E. specialize (Hhf E). destruct Hl as (_ & _ & _ & _ & _ & -> & _). exact Hhf.
    - destruct Hl as (_ & _ & _ & _ & _ & _ & _ & _ & -> & _). exact Hok.
  Qed.
  Ltac likely := unfold like; cbn; repeat split; auto.
  Ltac quiet s' I Hc Hfs tac := eapply (like_step _ _ _ _ s' _ _ I Hc Hfs); [likely|tac|cbn; try reflexivity; auto|cbn; try reflexivity; auto|cbn; auto|cbn; auto|cbn; auto].
  Lemma ids_same (s s' : shared) l : q_tail s' = q_tail s -> ids s' l = ids s l.
  Proof. intros E. unfold ids. now rewrite E. Qed.

  Theorem thread_step_inv i (s : shared) a t b t' s' w : inv s (a ++ t :: b) -> qthread_step i t s = Some (t', s', w) -> inv s' (a ++ t' :: b).
  Proof.
    intros I H. pose proof I as [(l & Hc & Hfs) Hh Ht Hn Hfr Htf Hhf Hok]. assert (Hf : fact s l t) by (apply all_mid in Hfs; tauto).
    destruct t as [todo pc log]. unfold qthread_step in H. cbn [qt_todo qt_pc qt_log] in H.
    assert (Htail : In (q_tail s) (ids s l)) by (unfold ids; apply in_app_iff; right; now left).
    assert (Hlt : q_tail s < q_fresh s) by (destruct Hc as (_ & C & _); exact (C _ Htail)).
    pose proof (chain_head _ _ Hc) as Hhead.
    assert (Hhlt : q_head s < q_fresh s) by (destruct Hc as (_ & C & _); exact (C _ Hhead)).
    assert (Hh1 : hreg {| qt_todo := todo; qt_pc := pc; qt_log := log |} = 1 -> q_hlock s = true).
    { intros E. rewrite sum_mid, E in Hh. destruct (q_hlock s); [reflexivity|cbn in Hh; lia]. }
    assert (Ht1 : treg {| qt_todo := todo; qt_pc := pc; qt_log := log |} = 1 -> q_tlock s = true).
    { intros E. rewrite sum_mid, E in Ht. destruct (q_tlock s); [reflexivity|cbn in Ht; lia]. }
    destruct pc as [ | v n | v n | v n | v n | | | | | | | | | | | | | | | ]; unfold hreg, treg in Hh1, Ht1; cbn [qt_pc] in Hh1, Ht1.
    - (* idle *)
      destruct todo as [|[v| | |] r]; [discriminate| | | |]; injection H as <- <- <-.
      + apply (step_inv s a _ b (alloc V s) _ l l I Hc Hfs); cbn; auto.
        * destruct Hc as (C1 & C2 & C3). split; [exact C1|]. split; [intros x Hx; specialize (C2 x Hx); cbn; lia|exact C3].
        * split; [|exact Logic.I]. intros n [<-|[]]. destruct (Hfr (q_fresh s) (le_n _)) as (F1 & F2).
          repeat split; cbn; [lia| |exact F1|exact F2]. intros Hin. destruct Hc as (_ & C2 & _). specialize (C2 _ Hin). lia.
        * intros u _ _ _ Hu. apply (fact_keep s l); auto. intros n _ (F1 & F2 & F3 & F4). repeat split; auto; cbn; lia.
        * intros m Hm. apply Hfr. lia.
      + quiet s I Hc Hfs ltac:(split; [intros n []|exact Logic.I]).
      + quiet s I Hc Hfs ltac:(split; [intros n []|exact Logic.I]).
      + quiet (with_abort V s) I Hc Hfs ltac:(split; [intros n []|exact Logic.I]).
    - (* tail mutex *)
      destruct (q_tlock s) eqn:E; [discriminate|]. injection H as <- <- <-.
      destruct Hf as (Hf & _). quiet (with_tlock V true s) I Hc Hfs ltac:(split; [exact Hf|cbn; now apply Htf]); try discriminate; rewrite E; reflexivity.
    - (* the element *)
      injection H as <- <- <-. destruct Hf as (Hf & Hd & Hx). destruct (Hf n (or_introl eq_refl)) as (N1 & N2 & N3 & N4).
      assert (Hid : forall l0, ids (put_datum V v s) l0 = ids s l0) by reflexivity.
      apply (step_inv s a _ b (put_datum V v s) _ l l I Hc Hfs); cbn; auto.
      + pose proof (tail_out _ _ Hc) as Ho. destruct Hc as (C1 & C2 & C3 & C4). split; [exact C1|]. split; [exact C2|]. split; [|exact C4]. cbn.
        destruct (q_mid s) as [k|].
        * destruct C3 as (w' & r & -> & D & P). exists w', r. split; [reflexivity|]. split.
          -- rewrite upd_other; [exact D|]. intros E. apply Ho. rewrite <- E. now left.
          -- refine (path_ext _ _ _ _ _ _ _ _ P). intros x Hin. split; [|reflexivity]. apply upd_other. intros ->. apply Ho. now right.
        * refine (path_ext _ _ _ _ _ _ _ _ C3). intros x Hin. split; [|reflexivity]. apply upd_other. now intros ->.
      + split; cbn.
        * intros m [<-|[]]. repeat split; auto. cbn. rewrite upd_other; [exact N3|]. intros ->. now apply N2.
        * now rewrite upd_same.
      + intros u _ Hu2 _ Hu. apply (fact_keep s l); auto.
        * intros m _ (F1 & F2 & F3 & F4). repeat split; auto. cbn. rewrite upd_other; [exact F3|]. intros ->. now apply F2.
        * intros E. rewrite (Hu2 eq_refl) in E. discriminate.
      + intros m Hm. rewrite upd_other by lia. now apply Hfr.
      + rewrite (Ht1 eq_refl). discriminate.
    - (* next *)
      injection H as <- <- <-. destruct Hf as (Hf & Hd & Hx). destruct (Hf n (or_introl eq_refl)) as (N1 & N2 & N3 & N4).
      apply (step_inv s a _ b (put_next V n s) _ l l I Hc Hfs); cbn; auto.
      + pose proof (tail_out _ _ Hc) as Ho. destruct Hc as (C1 & C2 & C3 & C4). split; [exact C1|]. split; [exact C2|]. split; [|exact C4]. cbn.
        destruct (q_mid s) as [k|].
        * destruct C3 as (w' & r & -> & D & P). exists w', r. split; [reflexivity|]. split; [exact D|].
          refine (path_ext _ _ _ _ _ _ _ _ P). intros x Hin. split; [reflexivity|]. apply upd_other. intros ->. apply Ho. now right.
        * refine (path_ext _ _ _ _ _ _ _ _ C3). intros x Hin. split; [reflexivity|]. apply upd_other. now intros ->.
      + split; cbn.
        * intros m [<-|[]]. repeat split; auto. cbn. rewrite upd_other; [exact N4|]. intros ->. now apply N2.
        * rewrite upd_same. auto.
      + intros u _ Hu2 _ Hu. apply (fact_keep s l); auto.
        * intros m _ (F1 & F2 & F3 & F4). repeat split; auto. cbn. rewrite upd_other; [exact F4|]. intros ->. now apply F2.
        * intros E. rewrite (Hu2 eq_refl) in E. discriminate.
      + intros m Hm. rewrite upd_other by lia. now apply Hfr.
      + rewrite (Ht1 eq_refl). discriminate.
    - (* the tail moves *)
      injection H as <- <- <-. destruct Hf as (Hf & Hd & Hx). destruct (Hf n (or_introl eq_refl)) as (N1 & N2 & N3 & N4).
      unfold move_tail. rewrite Hx.
      assert (Hids : forall x, In x (map fst (l ++ [(q_tail s, v)]) ++ [n]) <-> In x (ids s l) \/ x = n).
      { intros x. unfold ids. rewrite map_app. cbn [map fst]. rewrite !in_app_iff. cbn. intuition congruence. }
      match goal with |- inv ?s1 _ => apply (step_inv s a _ b s1 _ l (l ++ [(q_tail s, v)]) I Hc Hfs) end; cbn; auto.
      + destruct Hc as (C1 & C2 & C3 & C4). split; [|split; [|split]].
        * unfold ids. cbn. rewrite map_app. cbn [map fst]. apply (NoDup_Add (a := n) (l := ids s l)); [|split; [exact C1|exact N2]].
          rewrite <- (app_nil_r (ids s l)) at 1. unfold ids. apply Add_app.
        * intros x Hin. unfold ids in Hin. cbn in Hin. apply Hids in Hin. destruct Hin as [Hin| ->]; cbn; auto.
        * cbn. destruct (q_mid s) as [k|].
          -- destruct C3 as (w' & r & -> & D & P). exists w', (r ++ [(q_tail s, v)]). split; [reflexivity|]. split; [exact D|]. now apply path_snoc.
          -- now apply path_snoc.
        * cbn. rewrite !map_app, C4, app_assoc. reflexivity.
      + split; cbn; [intros m []|auto].
      + intros u _ Hu2 Hu3 Hu. apply (fact_keep s l); auto.
        * intros m Hm (F1 & F2 & F3 & F4). repeat split; auto. unfold ids. cbn. rewrite Hids. intros [Hin| ->]; [now apply F2|].
          apply (Hu3 n Hm). now left.
        * intros E. rewrite (Hu2 eq_refl) in E. discriminate.
        * cbn. intros _ _ E. apply N2. now rewrite <- E.
    - (* tail mutex released *)
      injection H as <- <- <-. destruct Hf as (Hf & Hd). quiet (with_tlock V false s) I Hc Hfs ltac:(split; [intros ? []|exact Logic.I]). rewrite (Ht1 eq_refl). reflexivity.
    - (* notify one *)
      injection H as <- <- <-. quiet s I Hc Hfs ltac:(split; [intros n []|exact Logic.I]).
    - (* try: head mutex *)
      destruct (q_hlock s) eqn:E; [discriminate|]. injection H as <- <- <-.
      quiet (with_hlock V true s) I Hc Hfs ltac:(split; [intros ? []|cbn; now apply Hhf]); try discriminate; rewrite E; reflexivity.
    - destruct Hf as (_ & Hm). destruct (q_abort s) eqn:E; injection H as <- <- <-; quiet s I Hc Hfs ltac:(split; [intros ? []|exact Hm]).
    - destruct Hf as (_ & Hm). destruct (q_tlock s) eqn:E; [discriminate|]. destruct (Nat.eqb_spec (q_head s) (q_tail s)) as [Eh|Eh]; injection H as <- <- <-;
        quiet s I Hc Hfs ltac:(split; [intros ? []|cbn; auto]).
    - (* wait: head mutex *)
      destruct (q_hlock s) eqn:E; [discriminate|]. injection H as <- <- <-.
      quiet (with_hlock V true s) I Hc Hfs ltac:(split; [intros ? []|cbn; now apply Hhf]); try discriminate; rewrite E; reflexivity.
    - destruct Hf as (_ & Hm). destruct (q_tlock s) eqn:E; [discriminate|]. destruct (Nat.eqb_spec (q_head s) (q_tail s)) as [Eh|Eh]; injection H as <- <- <-;
        quiet s I Hc Hfs ltac:(split; [intros ? []|cbn; auto]).
    - destruct Hf as (_ & Hm). destruct (q_abort s) eqn:E; injection H as <- <- <-; quiet s I Hc Hfs ltac:(split; [intros ? []|cbn; auto]).
    - (* to sleep *)
      destruct Hf as (_ & Hm). injection H as <- <- <-. quiet (with_hlock V false s) I Hc Hfs ltac:(split; [intros ? []|exact Logic.I]). rewrite (Hh1 eq_refl). reflexivity.
    - discriminate.
    - (* flag *)
      destruct Hf as (_ & Hm & Ho). destruct (q_abort s) eqn:E; injection H as <- <- <-; quiet s I Hc Hfs ltac:(split; [intros ? []|cbn; intuition congruence]).
    - (* next node moved out *)
      injection H as <- <- <-. destruct Hf as (_ & Hm & Hne). pose proof Hc as (C1 & C2 & C3 & C4). rewrite Hm in C3.
      destruct l as [|[x v] r]; [cbn in C3; contradiction|]. destruct C3 as (<- & D & k & Hk & P).
      assert (Hout : ~ In (q_head s) (map fst r)).
      { unfold ids in C1. cbn in C1. apply NoDup_cons_iff in C1. destruct C1 as (C1 & _). intros Hin. apply C1, in_app_iff. now left. }
      apply (step_inv s a _ b (pop_next V s) _ ((q_head s, v) :: r) ((q_head s, v) :: r) I Hc Hfs); cbn; auto.
      + split; [exact C1|]. split; [exact C2|]. split; [|exact C4]. cbn. rewrite Hk. exists v, r. split; [reflexivity|]. split; [exact D|].
        refine (path_ext _ _ _ _ _ _ _ _ P). intros y Hin. split; [reflexivity|]. apply upd_other. now intros ->.
      + split; [intros n []|]. cbn. rewrite Hk. discriminate.
      + intros u Hu1 _ _ Hu. apply (fact_keep s ((q_head s, v) :: r)); auto.
        * intros m _ (F1 & F2 & F3 & F4). repeat split; auto. cbn. rewrite upd_other; [exact F4|]. intros ->. apply F2. now left.
        * intros _. cbn. split; [reflexivity|]. apply upd_other. congruence.
        * intros E. rewrite (Hu1 eq_refl) in E. discriminate.
      + intros m Hm'. rewrite upd_other by lia. now apply Hfr.
      + intros E. specialize (Htf E). rewrite upd_other by congruence. exact Htf.
      + intros E. rewrite (Hh1 eq_refl) in E. discriminate.
    - (* the head moves *)
      destruct Hf as (_ & Hm). pose proof Hc as (C1 & C2 & C3 & C4). destruct (q_mid s) as [k|] eqn:Em; [|now destruct Hm]. destruct C3 as (v & r & -> & D & P).
      unfold pop_swap in H. rewrite Em, D in H. injection H as <- <- <-.
      assert (Hsub : forall s1 x, q_tail s1 = q_tail s -> In x (ids s1 r) -> In x (ids s ((q_head s, v) :: r))) by (intros s1 x E Hin; unfold ids in *; rewrite E in Hin; now right).
      match goal with |- inv ?s1 _ => apply (step_inv s a _ b s1 _ ((q_head s, v) :: r) r I Hc Hfs) end; cbn; auto.
      + split; [|split; [|split]].
        * unfold ids in *. cbn in C1 |- *. now apply NoDup_cons_iff in C1.
        * intros x Hin. cbn. apply C2. exact (Hsub _ x eq_refl Hin).
        * cbn. exact P.
        * cbn. rewrite C4, map_app. cbn. now rewrite <- app_assoc.
      + split; [intros n []|reflexivity].
      + intros u Hu1 _ _ Hu. apply (fact_keep s ((q_head s, v) :: r)); auto.
        * intros m _ (F1 & F2 & F3 & F4). repeat split; auto. intros Hin. apply F2. exact (Hsub _ m eq_refl Hin).
        * intros E. rewrite (Hu1 eq_refl) in E. discriminate.
        * intros E. rewrite (Hu1 eq_refl) in E. discriminate.
    - (* head mutex released *)
      injection H as <- <- <-. destruct Hf as (_ & Hm). quiet (with_hlock V false s) I Hc Hfs ltac:(split; [intros ? []|exact Logic.I]). rewrite (Hh1 eq_refl). reflexivity.
    - (* notify all *)
      injection H as <- <- <-. quiet s I Hc Hfs ltac:(split; [intros n []|exact Logic.I]).
  Qed.
End Steps.
