From Coq Require Import List Arith ZArith Bool Lia.
From Verif Require Import LockModel LockSpec LockProofs MsModel MsSpec MsProofs MsInvProofs.
Import ListNotations.

Section P.
  Context {T M P C B : Type} (E : menv T M P C B).
  Notation key := (key P). Notation mstate := (mstate T M P B). Notation mop := (mop M P C B).
  Hypothesis (PC : poly_classes E) (ND : e_kind E <> Derived).
  Notation kfind := (kfind E). Notation inv := (inv E). Notation samb := (samb E).
  Notation size s := (Z.of_nat (length (ms_mats s))).

  (** nothing is moved; only deletion takes matrices away *)
  Record step_ok (op : mop) (s s' : mstate) : Prop := mk_step_ok {
    so_inv : inv s';
    so_keep : forall k, (0 <= kfind k s)%Z -> kfind k s' = kfind k s;
    so_have : forall o m, mget s o = Some m -> op <> Delete o -> mget s' o = Some m;
    so_gone : forall o, (o < size s)%Z -> mget s o = None -> mget s' o = None;
    so_size : (size s <= size s')%Z;
    so_full : (forall o, op <> Delete o) -> ~ In None (ms_mats s) -> ~ In None (ms_mats s') }.
  Lemma grows_step op Q s s' : grows E Q s s' -> step_ok op s s'.
  Proof.
    intros G. destruct (g_mats _ _ _ _ G) as [l L]. constructor.
    - eapply g_inv; eauto.
    - eapply g_keep; eauto.
    - intros o m H _. eapply mget_ext; eauto.
    - intros o H X. now rewrite (mget_old s s' _ o L).
    - rewrite L, app_length. lia.
    - intros _ N. rewrite L, in_app_iff, in_map_iff. intros [H|(x & H & _)]; [auto|discriminate].
  Qed.
  Lemma same_mats_step op s s' : inv s -> ms_mats s' = ms_mats s -> (forall k, kfind k s' = kfind k s) -> wf s' -> step_ok op s s'.
  Proof.
    intros [W Bd Al Ij Or] Ms K W'. assert (G : forall o, mget s' o = mget s o) by (intros o; unfold mget; now rewrite Ms).
    constructor; auto.
    - constructor; auto.
      + intros k. rewrite K, Ms. apply Bd.
      + intros k k' H. rewrite !K. auto.
      + intros k k'. rewrite !K. auto.
      + intros k m. rewrite K, G. auto.
    - intros o m. rewrite G. auto.
    - intros o _. rewrite G. auto.
    - rewrite Ms. lia.
    - rewrite Ms. auto.
  Qed.
  Lemma clear_at_length (l : list (option M)) : forall i, length (clear_at l i) = length l.
  Proof. induction l as [|x l IH]; intros [|i]; cbn; auto. Qed.
  Lemma clear_at_nth (l : list (option M)) : forall i j, nth_error (clear_at l i) j = if Nat.eqb i j then match nth_error l j with Some _ => Some None | None => None end else nth_error l j.
  Proof. induction l as [|x l IH]; intros [|i] [|j]; cbn; auto. now destruct (Nat.eqb i j). Qed.
  Lemma delete_step o s : inv s -> step_ok (Delete o) s (fst (delete_matrix o s)).
  Proof.
    intros I. assert (ST : step_ok (Delete o) s s) by (apply same_mats_step; auto; apply (i_wf _ _ I)). unfold delete_matrix.
    destruct ((o <? 0)%Z || (size s <? o)%Z) eqn:X; [exact ST|]. destruct (Z.eqb_spec o (size s)); [exact ST|].
    destruct (nth (Z.to_nat o) (ms_mats s) None) as [m0|] eqn:N; [|exact ST]. cbn [fst]. apply orb_false_iff in X as [X1 X2]. apply Z.ltb_ge in X1, X2.
    set (s' := set_mats (clear_at (ms_mats s) (Z.to_nat o)) s). clear ST.
    assert (LE : length (ms_mats s') = length (ms_mats s)) by apply clear_at_length.
    assert (K : forall k, kfind k s' = kfind k s) by (intros k; apply kfind_mats).
    assert (G : forall i m, mget s' i = Some m <-> mget s i = Some m /\ i <> o).
    { intros i m. rewrite !mget_Some. unfold s'. cbn [ms_mats set_mats]. rewrite clear_at_nth. destruct (Nat.eqb_spec (Z.to_nat o) (Z.to_nat i)) as [Q|Q].
      - split; [|intros [[? ?] ?]; lia]. intros [? H]. rewrite <- Q in H. destruct (nth_error (ms_mats s) (Z.to_nat o)); discriminate.
      - intuition congruence. }
    destruct I as [W Bd Al Ij Or]. constructor.
    - constructor.
      + exact W.
      + intros k. rewrite K, LE. apply Bd.
      + intros k k' H. rewrite !K. auto.
      + intros k k'. rewrite !K. auto.
      + intros k m. rewrite K, G. intros [H _]. auto.
    - auto.
    - intros i m H NE. apply G. split; auto. congruence.
    - intros i H NO. destruct (mget s' i) as [x|] eqn:X; auto. apply G in X as [X _]. congruence.
    - rewrite LE. lia.
    - intros H. exfalso. now apply (H o).
  Qed.
  Lemma create_step op ref k s : inv s -> step_ok op s (fst (create_ E ref k s)).
  Proof. intros I. destruct (create_ok E PC ND ref k s I) as (s' & r & _ & -> & CR). eapply grows_step, created_grows; eauto. Qed.
  Lemma composite_step op l n parts s : inv s -> step_ok op s (fst (composite E l n parts s)).
  Proof.
    intros I. unfold composite. pose proof (gather_ok E PC ND l n parts s I) as G. destruct (gather E l n parts s) as [s1 [ms|x]].
    - destruct G as [G _]. destruct (e_compose E (ms_t s1) l n ms) as [t [m|]]; cbn.
      + eapply grows_step. eapply grows_trans; [exact G|]. eapply grows_weaken; [|apply append_inv; eapply g_inv; exact G]. intros ? [].
      + eapply grows_step. eapply grows_trans; [exact G|]. eapply grows_weaken; [|apply set_t_inv; eapply g_inv; exact G]. intros ? [].
    - destruct G as [G _]. eapply grows_step; exact G.
  Qed.
  Lemma lookup_create k s : lookup E k s = create_ E true k s.
  Proof.
    unfold lookup. destruct (found E true k s) eqn:F; auto. unfold create_, full_acts, run_acts. cbn [fold_left]. unfold act_find. cbn [fst]. rewrite F.
    unfold act_make, act_index, act_notify. cbn. reflexivity.
  Qed.
  Lemma perform_step op s : inv s -> step_ok op s (fst (perform E op s)).
  Proof.
    intros I. assert (ST : forall op, step_ok op s s) by (intros; apply same_mats_step; auto; apply (i_wf _ _ I)).
    destruct op as [k|k|k|o|m|o|l n parts|b|i b]; cbn [perform].
    - now apply create_step.
    - rewrite lookup_create. now apply create_step.
    - apply ST.
    - apply ST.
    - cbn. apply grows_step with (fun _ => False). destruct s as [a mm lo po su nm nl np de bo t]. exact (proj2 (append_inv E _ t m I)).
    - now apply delete_step.
    - unfold register. pose proof (composite_step (Register l n parts) l n parts s I) as CS. destruct (composite E l n parts s) as [s' [[o m]|r]]; exact CS.
    - unfold add_book. destruct (e_added E _ _ _ true) as [t [b'|]]; apply same_mats_step; auto; try (intros [] ; reflexivity); exact (i_wf _ _ I).
    - unfold merge_book. destruct (book s i) as [b0|]; [|apply ST]. destruct (e_merge E b0 b) as [b1 [|]]; [destruct (e_added E _ _ _ false) as [t [b'|]]|];
        apply same_mats_step; auto; try (intros [] ; reflexivity); exact (i_wf _ _ I).
  Qed.

  (** histories *)
  Definition from (s : mstate) (h : list mop) : mstate := fold_left (fun s op => fst (perform E op s)) h s.
  Lemma from_app s h h' : from s (h ++ h') = from (from s h) h'. Proof. apply fold_left_app. Qed.
  Lemma from_inv h : forall s, inv s -> inv (from s h).
  Proof. induction h as [|op h IH]; intros s I; auto. cbn. apply IH. apply (so_inv _ _ _ (perform_step op s I)). Qed.
  Lemma after_inv t h : inv (after E t h). Proof. apply from_inv, empty_inv. Qed.
  Lemma after_app t h h' : after E t (h ++ h') = from (after E t h) h'. Proof. apply from_app. Qed.
  Lemma from_keep h : forall s k, inv s -> (0 <= kfind k s)%Z -> kfind k (from s h) = kfind k s.
  Proof.
    induction h as [|op h IH]; intros s k I H; auto. change (from s (op :: h)) with (from (fst (perform E op s)) h). pose proof (perform_step op s I) as ST. rewrite IH.
    - now apply (so_keep _ _ _ ST).
    - apply (so_inv _ _ _ ST).
    - now rewrite (so_keep _ _ _ ST).
  Qed.
  Lemma from_have h : forall s o m, inv s -> mget s o = Some m -> ~ In (Delete o) h -> mget (from s h) o = Some m.
  Proof.
    induction h as [|op h IH]; intros s o m I H N; auto. change (from s (op :: h)) with (from (fst (perform E op s)) h). pose proof (perform_step op s I) as ST. apply IH.
    - apply (so_inv _ _ _ ST).
    - apply (so_have _ _ _ ST); auto. intros ->. apply N. now left.
    - intros X. apply N. now right.
  Qed.
  Lemma from_size h : forall s, inv s -> (size s <= size (from s h))%Z.
  Proof. induction h as [|op h IH]; intros s I; [cbn; lia|]. change (from s (op :: h)) with (from (fst (perform E op s)) h). pose proof (perform_step op s I) as ST. specialize (IH _ (so_inv _ _ _ ST)). pose proof (so_size _ _ _ ST). lia. Qed.
  Lemma from_gone h : forall s o, inv s -> (o < size s)%Z -> mget s o = None -> mget (from s h) o = None.
  Proof.
    induction h as [|op h IH]; intros s o I L N; auto. change (from s (op :: h)) with (from (fst (perform E op s)) h). pose proof (perform_step op s I) as ST. apply IH.
    - apply (so_inv _ _ _ ST).
    - pose proof (so_size _ _ _ ST). lia.
    - now apply (so_gone _ _ _ ST).
  Qed.
  Lemma from_full h : forall s, inv s -> (forall o, ~ In (Delete o) h) -> ~ In None (ms_mats s) -> ~ In None (ms_mats (from s h)).
  Proof.
    induction h as [|op h IH]; intros s I N F; auto. change (from s (op :: h)) with (from (fst (perform E op s)) h). pose proof (perform_step op s I) as ST. apply IH.
    - apply (so_inv _ _ _ ST).
    - intros o X. apply (N o). now right.
    - apply (so_full _ _ _ ST); auto. intros o ->. apply (N o). now left.
  Qed.

  (** what a successful request leaves behind *)
  Lemma created_after Q ref k s s' r m : inv s -> created E Q ref k s s' r -> (exists o, r = okay ref o m) -> (0 <= kfind k s')%Z /\ mget s' (kfind k s') = Some m /\ r = okay ref (kfind k s') m.
  Proof.
    intros I CR [o R]. unfold created in CR. destruct (Z.leb_spec 0 (kfind k s)) as [L|L].
    - destruct CR as [-> CR]. destruct (mget s (kfind k s)) as [x|] eqn:X; [|rewrite R in CR; destruct ref; discriminate].
      assert (x = m) as -> by (rewrite R in CR; destruct ref; cbn in CR; congruence). auto.
    - destruct CR as [(x & -> & G & GM & LE)|([[x X]|X] & _)]; [|subst r; destruct ref; discriminate..].
      assert (x = m) as -> by (destruct ref; cbn in R; congruence). split; [lia|auto].
  Qed.
  Lemma create_found ref k s m : inv s -> (0 <= kfind k s)%Z -> mget s (kfind k s) = Some m -> create_ E ref k s = (s, okay ref (kfind k s) m).
  Proof.
    intros I L G. destruct (create_ok E PC ND ref k s I) as (s' & r & _ & -> & CR). unfold created in CR. destruct (Z.leb_spec 0 (kfind k s)); [|lia]. destruct CR as [-> ->]. now rewrite G.
  Qed.
  (** all the ways to ask for a matrix that is there *)
  Lemma all_agree s k o m : inv s -> kfind k s = o -> (0 <= o)%Z -> mget s o = Some m ->
    perform E (Create k) s = (s, OMat o m) /\ perform E (Lookup k) s = (s, ORef m) /\ perform E (Find k) s = (s, ORef m) /\ perform E (Get o) s = (s, ORef m).
  Proof.
    intros I F L G. cbn [perform]. rewrite lookup_create, !(create_found _ k s m) by (subst; auto). rewrite G. subst o. split; [reflexivity|]. split; [reflexivity|]. split; auto.
    unfold find_. destruct (Z.ltb_spec (kfind k s) 0); [lia|]. now rewrite G.
  Qed.
  Lemma asked_after t h op k m o : asked op k (answer E t h op) o m ->
    let s := after E t (h ++ [op]) in (0 <= kfind k s)%Z /\ mget s (kfind k s) = Some m /\ (op = Create k -> kfind k s = o).
  Proof.
    intros A s. unfold s. rewrite after_app. cbn [from fold_left]. unfold answer in A. pose proof (after_inv t h) as I.
    destruct A as [[-> A]|[-> A]]; cbn [perform] in *; rewrite ?lookup_create in *.
    - destruct (create_ok E PC ND false k _ I) as (s' & r & _ & X & CR). rewrite X in *. cbn [fst snd] in *.
      destruct (created_after _ _ _ _ _ _ m I CR) as (L & G & R); [exists o; exact A|]. split; auto. split; auto. intros _. subst r. cbn in R. congruence.
    - destruct (create_ok E PC ND true k _ I) as (s' & r & _ & X & CR). rewrite X in *. cbn [fst snd] in *.
      destruct (created_after _ _ _ _ _ _ m I CR) as (L & G & R); [exists o; exact A|]. split; auto. split; auto. discriminate.
  Qed.
  Lemma asked_later t h op h2 k k' m o : asked op k (answer E t h op) o m -> same_request E k k' ->
    exists o', (op = Create k -> o' = o) /\ (~ In (Delete o') h2 -> let s := after E t (h ++ op :: h2) in
    perform E (Create k') s = (s, OMat o' m) /\ perform E (Lookup k') s = (s, ORef m) /\ perform E (Find k') s = (s, ORef m) /\ perform E (Get o') s = (s, ORef m)).
  Proof.
    intros A S. apply samb_spec in S. destruct (asked_after _ _ _ _ _ _ A) as (L & G & O). set (s1 := after E t (h ++ [op])) in *.
    exists (kfind k s1). split; auto. intros ND2 s. assert (X : s = from s1 h2). { unfold s, s1. change (op :: h2) with ([op] ++ h2). now rewrite app_assoc, after_app. }
    assert (I : inv s1) by apply after_inv. assert (I2 : inv s) by apply after_inv. apply all_agree; auto.
    - rewrite <- (i_alias _ _ I2 k k' S). rewrite X. now apply from_keep.
    - rewrite X. now apply from_have.
  Qed.
  Lemma asked_distinct t h op h2 op' k k' o o' m m' : op = Create k -> op' = Create k' -> asked op k (answer E t h op) o m -> asked op' k' (answer E t (h ++ op :: h2) op') o' m' ->
    (o = o' <-> same_request E k k').
  Proof.
    intros O O' A A'. pose proof (asked_after _ _ _ _ _ _ A) as (L & G & F). pose proof (asked_after _ _ _ _ _ _ A') as (L' & G' & F'). specialize (F O). specialize (F' O').
    set (s1 := after E t (h ++ [op])) in *. set (s2 := after E t ((h ++ op :: h2) ++ [op'])) in *.
    assert (X : s2 = from s1 (h2 ++ [op'])). { unfold s2, s1. rewrite <- after_app, <- !app_assoc. reflexivity. }
    assert (I : inv s1) by apply after_inv. assert (I2 : inv s2) by apply after_inv.
    assert (K : kfind k s2 = o) by (rewrite X, from_keep; auto). rewrite <- (samb_spec E). split; intros H.
    - apply (i_inj _ _ I2); [lia|congruence].
    - rewrite <- K, <- F'. now apply (i_alias _ _ I2).
  Qed.
  Lemma asked_made t h op k m o : asked op k (answer E t h op) o m -> made E k m.
  Proof. intros A. destruct (asked_after _ _ _ _ _ _ A) as (L & G & _). eapply i_orig; [apply after_inv|exact G]. Qed.
  (** a request that fails *)
  Lemma failed t h k x : answer E t h (Create k) = OThrow x \/ answer E t h (Lookup k) = OThrow x ->
    answer E t h (Find k) = OThrow XMissing /\
    forall op, op = Create k \/ op = Lookup k -> answer E t (h ++ [op]) (Find k) = OThrow XMissing /\
      forall k' m, answer E t h (Find k') = ORef m -> answer E t (h ++ [op]) (Find k') = ORef m.
  Proof.
    intros A. pose proof (after_inv t h) as I. set (s := after E t h) in *.
    assert (X : exists ref, snd (create_ E ref k s) = OThrow x). { unfold answer in A. cbn [perform] in A. fold s in A. rewrite lookup_create in A. destruct A; eauto. }
    destruct X as [ref X]. destruct (create_ok E PC ND ref k s I) as (s' & r & _ & Y & CR). rewrite Y in X. cbn in X. subst r.
    assert (L : (kfind k s < 0)%Z).
    { unfold created in CR. destruct (Z.leb_spec 0 (kfind k s)); auto. destruct CR as [_ CR]. destruct (mget s (kfind k s)); destruct ref; discriminate. }
    assert (FS : find_ E k s = OThrow XMissing) by (unfold find_; destruct (Z.ltb_spec (kfind k s) 0); [auto|lia]).
    split; [unfold answer; cbn; fold s; now rewrite FS|].
    assert (W : forall ref', exists s2 x2, create_ E ref' k s = (s2, OThrow x2) /\ grows E (side E k) s s2 /\ (kfind k s2 < 0)%Z).
    { intros ref'. destruct (make E k s) as [s2 [[o m]|r]] eqn:MK.
      - exfalso. pose proof (make_ok E PC ND k s I L) as (G & N & R). rewrite MK in *. cbn [fst snd] in *. destruct R as (? & ? & ? & ?).
        destruct (finish E PC ND ref k o m s2 (g_inv _ _ _ _ G) N H H0 H1) as (s3 & FI & _).
        unfold create_, full_acts, run_acts in Y. cbn [fold_left] in Y. unfold act_find, found in Y. cbn [fst snd] in Y. destruct (Z.leb_spec 0 (kfind k s)); [lia|].
        unfold act_make in Y. cbn [fst snd] in Y. rewrite MK, FI in Y. cbn in Y. injection Y as _ Y. destruct ref; discriminate.
      - pose proof (make_ok E PC ND k s I L) as (G & N & R). rewrite MK in *. cbn [fst snd] in *.
        unfold create_, full_acts, run_acts in *. cbn [fold_left] in *. unfold act_find, found in *. cbn [fst snd] in *. destruct (Z.leb_spec 0 (kfind k s)); [lia|].
        unfold act_make in *. cbn [fst snd] in *. rewrite MK in *. cbn in *. injection Y as -> ->. exists s', x. auto. }
    intros op O. unfold answer. rewrite !after_app. cbn [from fold_left]. fold s.
    assert (Z0 : exists s2, fst (perform E op s) = s2 /\ grows E (side E k) s s2 /\ (kfind k s2 < 0)%Z).
    { destruct O as [-> | ->]; cbn [perform]; rewrite ?lookup_create; [destruct (W false) as (s2 & x2 & -> & G)|destruct (W true) as (s2 & x2 & -> & G)]; exists s2; auto. }
    destruct Z0 as (s2 & -> & G & N). split.
    - cbn. unfold find_. destruct (Z.ltb_spec (kfind k s2) 0); [auto|lia].
    - intros k' m. cbn. unfold find_. fold s. destruct (Z.ltb_spec (kfind k' s) 0); [discriminate|]. destruct (mget s (kfind k' s)) as [m'|] eqn:MG; [|discriminate]. intros [= <-].
      rewrite (g_keep _ _ _ _ G) by auto. destruct (Z.ltb_spec (kfind k' s) 0); [lia|]. destruct (g_mats _ _ _ _ G) as [l X]. now rewrite (mget_ext s s2 _ _ _ X MG).
  Qed.
  (** what never happens *)
  Definition proper (r : mout M) : Prop := r <> OAssert /\ r <> OUndef.
  Lemma created_proper Q ref k s s' r : created E Q ref k s s' r -> proper r.
  Proof.
    unfold created. destruct (0 <=? kfind k s)%Z.
    - intros [_ ->]. destruct (mget s (kfind k s)); destruct ref; split; discriminate.
    - intros [(m & -> & _)|([[x ->]| ->] & _)]; try destruct ref; split; discriminate.
  Qed.
  Lemma answers_proper t h op : proper (answer E t h op) \/ exists o, op = Delete o /\ o = size (after E t h).
  Proof.
    pose proof (after_inv t h) as I. unfold answer. set (s := after E t h) in *. destruct op as [k|k|k|o|m|o|l n parts|b|i b]; cbn [perform]; rewrite ?lookup_create.
    - left. destruct (create_ok E PC ND false k s I) as (s' & r & _ & -> & CR). eapply created_proper; exact CR.
    - left. destruct (create_ok E PC ND true k s I) as (s' & r & _ & -> & CR). eapply created_proper; exact CR.
    - left. cbn. unfold find_. destruct (kfind k s <? 0)%Z; [split; discriminate|]. destruct (mget s (kfind k s)); split; discriminate.
    - left. cbn. destruct (mget s o); split; discriminate.
    - left. split; discriminate.
    - unfold delete_matrix. destruct ((o <? 0)%Z || (size s <? o)%Z); [left; split; discriminate|]. destruct (Z.eqb_spec o (size s)); [right; eauto|].
      left. destruct (nth (Z.to_nat o) (ms_mats s) None); split; discriminate.
    - left. unfold register, composite. pose proof (gather_ok E PC ND l n parts s I) as G. destruct (gather E l n parts s) as [s1 [ms|x]]; destruct G as [G R].
      + destruct (e_compose E (ms_t s1) l n ms) as [t' [m|]]; cbn; split; discriminate.
      + cbn. destruct R as [[y ->]| ->]; split; discriminate.
    - left. unfold add_book. destruct (e_added E _ _ _ true) as [t' [b'|]]; split; discriminate.
    - left. unfold merge_book. destruct (book s i) as [b0|]; [|split; discriminate]. destruct (e_merge E b0 b) as [b1 [|]]; [destruct (e_added E _ _ _ false) as [t' [b'|]]|]; split; discriminate.
  Qed.
  Lemma full_found t h k : (forall o, ~ In (Delete o) h) -> (0 <= kfind k (after E t h))%Z -> exists m, mget (after E t h) (kfind k (after E t h)) = Some m.
  Proof.
    intros N L. pose proof (after_inv t h) as I. pose proof (i_bound _ _ I k) as Bd.
    assert (F : ~ In None (ms_mats (after E t h))) by (apply (from_full h (empty_system t)); auto; apply empty_inv).
    destruct (mget (after E t h) (kfind k (after E t h))) as [m|] eqn:G; eauto. exfalso. apply F. unfold mget in G.
    destruct (Z.ltb_spec (kfind k (after E t h)) 0); [lia|]. destruct (Z.leb_spec (size (after E t h)) (kfind k (after E t h))); [lia|]. cbn in G. rewrite <- G. apply nth_In. lia.
  Qed.
  (** deletion *)
  Lemma delete_spec t h o : let s := after E t h in o <> size s ->
    (answer E t h (Delete o) = OBool true <-> exists m, answer E t h (Get o) = ORef m) /\ (answer E t h (Delete o) = OBool true \/ answer E t h (Delete o) = OBool false) /\
    (forall h2, answer E t h (Delete o) = OBool true -> answer E t (h ++ Delete o :: h2) (Get o) = OThrow XMissing) /\
    (forall o', o' <> o -> answer E t (h ++ [Delete o]) (Get o') = answer E t h (Get o')).
  Proof.
    intros s NE. pose proof (after_inv t h) as I. fold s in I. unfold answer. fold s. cbn [perform fst snd].
    assert (D : forall m, mget s o = Some m -> delete_matrix o s = (set_mats (clear_at (ms_mats s) (Z.to_nat o)) s, OBool true) /\ (o < size s)%Z).
    { intros m G. unfold delete_matrix. pose proof G as G2. apply mget_Some in G2 as [L N]. assert (Z.to_nat o < length (ms_mats s)) by (apply nth_error_Some; congruence).
      destruct (Z.ltb_spec o 0); [lia|]. destruct (Z.ltb_spec (size s) o); [lia|]. cbn. destruct (Z.eqb_spec o (size s)); [lia|]. rewrite (nth_error_nth _ _ None N). split; auto; lia. }
    assert (D' : mget s o = None -> delete_matrix o s = (s, OBool false)).
    { intros G. unfold delete_matrix. unfold mget in G. destruct (Z.ltb_spec o 0); auto. destruct (Z.ltb_spec (size s) o); auto. cbn. destruct (Z.eqb_spec o (size s)); [lia|].
      destruct (Z.leb_spec (size s) o); [lia|]. cbn in G. now rewrite G. }
    destruct (mget s o) as [m|] eqn:G.
    - destruct (D m eq_refl) as [-> L]. cbn [snd]. split; [split; eauto|]. split; auto. split.
      + intros h2 _. rewrite after_app. cbn [from fold_left]. fold s. change (fold_left (fun s op => fst (perform E op s)) h2 (fst (perform E (Delete o) s))) with (from (fst (perform E (Delete o) s)) h2).
        pose proof (perform_step (Delete o) s I) as ST. cbn [perform] in *. destruct (D m eq_refl) as [-> _]. cbn [fst snd].
        rewrite (from_gone h2); auto.
        * pose proof (so_inv _ _ _ ST) as I2. destruct (D m eq_refl) as [DD _]. rewrite DD in I2. exact I2.
        * cbn. rewrite clear_at_length. exact L.
        * destruct (mget (set_mats (clear_at (ms_mats s) (Z.to_nat o)) s) o) eqn:X; auto. apply mget_Some in X as [_ X]. cbn in X. rewrite clear_at_nth, Nat.eqb_refl in X. destruct (nth_error (ms_mats s) (Z.to_nat o)); discriminate.
      + intros o' NO. rewrite after_app. cbn [from fold_left perform]. fold s. destruct (D m eq_refl) as [-> _]. cbn [fst].
        assert (X : mget (set_mats (clear_at (ms_mats s) (Z.to_nat o)) s) o' = mget s o').
        { unfold mget. cbn [ms_mats set_mats]. rewrite clear_at_length. destruct (Z.ltb_spec o' 0); auto. destruct (Z.leb_spec (size s) o'); auto. cbn.
          assert (Y : nth_error (clear_at (ms_mats s) (Z.to_nat o)) (Z.to_nat o') = nth_error (ms_mats s) (Z.to_nat o')).
          { rewrite clear_at_nth. destruct (Nat.eqb_spec (Z.to_nat o) (Z.to_nat o')); auto. apply mget_Some in G as [? _]. lia. }
          rewrite (nth_error_nth' _ None) in Y by (rewrite clear_at_length; lia). rewrite (nth_error_nth' (ms_mats s) None) in Y by lia. congruence. }
        now rewrite X.
    - rewrite (D' eq_refl). cbn [snd]. split; [split; [discriminate|intros [m H]; discriminate]|]. split; auto. split; [discriminate|].
      intros o' NO. rewrite after_app. cbn [from fold_left perform]. fold s. now rewrite (D' eq_refl).
  Qed.
  Lemma deleted_forever t h k o m h2 h3 : answer E t h (Create k) = OMat o m -> ~ In (Delete o) h2 ->
    answer E t ((h ++ Create k :: h2) ++ Delete o :: h3) (Create k) = ORuntime /\ answer E t ((h ++ Create k :: h2) ++ Delete o :: h3) (Lookup k) = ORuntime.
  Proof.
    intros A N. destruct (asked_later t h (Create k) h2 k k m o) as (o' & O & H); [left; auto|apply samb_spec; auto; apply samb_refl; auto|]. rewrite (O eq_refl) in H. specialize (H N). cbv zeta in H.
    set (s := after E t (h ++ Create k :: h2)) in *. destruct H as (HC & _ & _ & HG).
    assert (I : inv s) by apply after_inv. assert (G : mget s o = Some m) by (cbn in HG; destruct (mget s o); congruence).
    assert (K : kfind k s = o /\ (0 <= o)%Z).
    { split; [|apply mget_Some in G; tauto]. cbn [perform] in HC. destruct (create_ok E PC ND false k s I) as (s' & r & _ & X & CR). rewrite X in HC. injection HC as -> ->.
      destruct (created_after _ _ _ _ _ _ m I CR) as (_ & _ & R); [exists o; reflexivity|]. cbn in R. congruence. }
    destruct K as [K L]. assert (LS : (o < size s)%Z) by (rewrite <- K; apply (i_bound _ _ I)).
    destruct (delete_spec t (h ++ Create k :: h2) o) as (D1 & _ & D3 & _); [fold s; lia|].
    specialize (D3 h3). assert (D4 : answer E t (h ++ Create k :: h2) (Delete o) = OBool true) by (apply D1; unfold answer; fold s; cbn; rewrite G; eauto). specialize (D3 D4). clear D4 D1.
    set (s2 := after E t ((h ++ Create k :: h2) ++ Delete o :: h3)) in *. assert (I2 : inv s2) by apply after_inv.
    assert (G2 : mget s2 o = None) by (unfold answer in D3; fold s2 in D3; cbn in D3; destruct (mget s2 o); congruence).
    assert (K2 : kfind k s2 = o). { unfold s2. rewrite after_app. fold s. rewrite from_keep; auto. lia. }
    unfold answer. fold s2. cbn [perform]. rewrite lookup_create.
    split; [destruct (create_ok E PC ND false k s2 I2) as (s' & r & _ & -> & CR)|destruct (create_ok E PC ND true k s2 I2) as (s' & r & _ & -> & CR)];
      unfold created in CR; rewrite K2 in CR; (destruct (Z.leb_spec 0 o); [|lia]); destruct CR as [_ ->]; now rewrite G2.
  Qed.
End P.
