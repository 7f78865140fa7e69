From Coq Require Import List Arith ZArith Bool Lia.
From Verif Require Import LockModel MsModel MsSpec MsProofs.
Import ListNotations.

Section P.
  Context {T M P C B : Type} (E : menv T M P C B).
  Notation key := (key P). Notation mstate := (mstate T M P B).
  Hypothesis (PC : poly_classes E) (ND : e_kind E <> Derived).
  Notation kfind := (kfind E). Notation keq := (keq E).

  Definition samb (k k' : key) : bool := keq (plain_key E k) (plain_key E k').
  Lemma samb_refl k : samb k k = true. Proof. apply keq_refl, PC. Qed.
  Lemma samb_sym k k' : samb k k' = true -> samb k' k = true. Proof. apply keq_sym, PC. Qed.
  Lemma samb_trans a b c : samb a b = true -> samb b c = true -> samb a c = true. Proof. apply keq_trans, PC. Qed.
  Lemma keq_eq (k k' : key) : (forall l p, k <> KPoly l p) -> (forall l n p, k <> KNNPoly l n p) -> keq k k' = true <-> k = k'.
  Proof.
    intros N1 N2. destruct k as [l|l w|l p|a r|l n|l n w|l n p|o]; try (exfalso; eapply N1; reflexivity); try (exfalso; eapply N2; reflexivity);
      destruct k'; cbn; try (split; discriminate); unfold loc_eqb, nnloc_eqb, two_eqb; cbn [fst snd]; rewrite ?andb_true_iff, ?Nat.eqb_eq, ?weqb_spec; intuition congruence.
  Qed.
  Lemma samb_spec k k' : samb k k' = true <-> same_request E k k'.
  Proof.
    unfold samb, same_request. destruct (plain_key E k) as [l|l w|l p|a r|l n|l n w|l n p|o] eqn:X; try (apply keq_eq; intros; discriminate); destruct (plain_key E k'); cbn; try (split; discriminate);
      unfold poly_eqb, nnpoly_eqb, two_eqb; cbn [fst snd]; rewrite ?andb_true_iff, ?Nat.eqb_eq; tauto.
  Qed.
  Lemma samb_plain k k' : e_kind E <> Pauli -> samb k k' = keq k k'.
  Proof. clear ND. intros N. unfold samb, plain_key. destruct (e_kind E); congruence. Qed.
  Lemma samb_keq k k' : keq k k' = true -> samb k k' = true.
  Proof.
    intros H. unfold samb, plain_key. destruct (e_kind E); auto.
    destruct k as [l|l w|l p|a r|l n|l n w|l n p|o], k' as [l'|l' w'|l' p'|a' r'|l' n'|l' n' w'|l' n' p'|o']; try discriminate H; auto; cbn in H; unfold nnpoly_eqb, nnloc_eqb, two_eqb in H; cbn [fst snd] in H;
      rewrite !andb_true_iff, !Nat.eqb_eq in H; [destruct H as [-> ->]; destruct n'|destruct H as [[-> ->] H]; destruct n'..]; cbn; unfold poly_eqb, nnpoly_eqb, loc_eqb, nnloc_eqb, two_eqb; cbn [fst snd]; rewrite ?Nat.eqb_refl; auto.
  Qed.
  Lemma partner_samb k j : e_kind E = Pauli -> pauli_partner k = Some j -> plain_key E k = plain_key E j /\ keq k j = false /\ forall k', samb k k' = keq k k' || keq j k'.
  Proof.
    intros KP PJ. unfold samb, plain_key. rewrite KP.
    destruct k as [l|l w|l p|a r|l [|n]|l [|n] w|l [|n] p|o]; cbn in PJ; try discriminate; injection PJ as <-; (split; [reflexivity|]); (split; [reflexivity|]);
      intros [l'|l' w'|l' p'|a' r'|l' [|n']|l' [|n'] w'|l' [|n'] p'|o']; cbn; unfold poly_eqb, nnpoly_eqb, loc_eqb, nnloc_eqb, two_eqb; cbn [fst snd Nat.eqb]; rewrite ?andb_true_r, ?andb_false_r, ?orb_false_r; reflexivity.
  Qed.
  Lemma no_partner_samb k : e_kind E = Pauli -> pauli_partner k = None -> forall k', samb k k' = keq k k'.
  Proof.
    intros KP PJ. unfold samb, plain_key. rewrite KP.
    destruct k as [l|l w|l p|a r|l [|n]|l [|n] w|l [|n] p|o]; cbn in PJ; try discriminate;
      intros [l'|l' w'|l' p'|a' r'|l' [|n']|l' [|n'] w'|l' [|n'] p'|o']; cbn; unfold poly_eqb, nnpoly_eqb, loc_eqb, nnloc_eqb, two_eqb; cbn [fst snd Nat.eqb]; rewrite ?andb_false_r; reflexivity.
  Qed.

  Notation size s := (Z.of_nat (length (ms_mats s))).
  Record inv (s : mstate) : Prop := mk_inv {
    i_wf : wf s;
    i_bound : forall k, (kfind k s < size s)%Z;
    i_alias : forall k k', samb k k' = true -> kfind k s = kfind k' s;
    i_inj : forall k k', (0 <= kfind k s)%Z -> kfind k s = kfind k' s -> samb k k' = true;
    i_orig : forall k m, mget s (kfind k s) = Some m -> made E k m }.

  Lemma mget_Some (s : mstate) o (m : M) : mget s o = Some m <-> (0 <= o)%Z /\ nth_error (ms_mats s) (Z.to_nat o) = Some (Some m).
  Proof.
    unfold mget. destruct (Z.ltb_spec o 0); cbn; [split; [discriminate|lia]|]. destruct (Z.leb_spec (size s) o); cbn.
    - split; [discriminate|]. intros [_ N]. assert (Z.to_nat o < length (ms_mats s)) by (apply nth_error_Some; congruence). lia.
    - rewrite (nth_error_nth' _ (@None M)) by lia. intuition congruence.
  Qed.
  Lemma mget_ext (s s' : mstate) l o (m : M) : ms_mats s' = ms_mats s ++ l -> mget s o = Some m -> mget s' o = Some m.
  Proof. rewrite !mget_Some. intros -> [PO N]. split; auto. rewrite nth_error_app1; auto. apply nth_error_Some. congruence. Qed.
  Lemma mget_old (s s' : mstate) l o : ms_mats s' = ms_mats s ++ l -> (o < size s)%Z -> mget s' o = mget s o.
  Proof.
    intros X L. unfold mget. rewrite X, app_length. destruct (Z.ltb_spec o 0); cbn; auto.
    destruct (Z.leb_spec (Z.of_nat (length (ms_mats s) + length l)) o); [lia|]. destruct (Z.leb_spec (size s) o); [lia|]. apply app_nth1. lia.
  Qed.

  (** from [s] to [s'] nothing is lost, and only keys in [Q] are added *)
  Record grows (Q : key -> Prop) (s s' : mstate) : Prop := mk_grows {
    g_inv : inv s';
    g_mats : exists l, ms_mats s' = ms_mats s ++ map Some l;
    g_books : ms_books s' = ms_books s;
    g_keep : forall k, (0 <= kfind k s)%Z -> kfind k s' = kfind k s;
    g_new : forall k, (kfind k s < 0)%Z -> (0 <= kfind k s')%Z -> Q k }.
  Lemma grows_refl (Q : key -> Prop) s : inv s -> grows Q s s.
  Proof. intros I. constructor; auto; [exists []; now rewrite app_nil_r|intros; lia]. Qed.
  Lemma grows_trans (Q : key -> Prop) s1 s2 s3 : grows Q s1 s2 -> grows Q s2 s3 -> grows Q s1 s3.
  Proof.
    intros [I2 [l2 M2] B2 K2 N2] [I3 [l3 M3] B3 K3 N3]. constructor; auto.
    - exists (l2 ++ l3). now rewrite M3, M2, map_app, app_assoc.
    - congruence.
    - intros k H. rewrite K3; auto. rewrite K2; auto.
    - intros k H1 H3. destruct (Z.lt_ge_cases (kfind k s2) 0); [apply N3; auto|apply N2; auto].
  Qed.
  Lemma grows_weaken (Q Q' : key -> Prop) s s' : (forall k, Q k -> Q' k) -> grows Q s s' -> grows Q' s s'.
  Proof. intros H [I MM BB K N]. constructor; auto. Qed.
  Lemma grows_low (Q : key -> Prop) k s s' : grows Q s s' -> ~ Q k -> (kfind k s < 0)%Z -> (kfind k s' < 0)%Z.
  Proof. intros G NQ L. destruct (Z.lt_ge_cases (kfind k s') 0); auto. exfalso. apply NQ. eapply g_new; eauto. Qed.

  (** appending a matrix that nobody knows of *)
  Lemma append_inv s t (x : M) : inv s -> inv (set_mats (ms_mats s ++ [Some x]) (set_t t s)) /\ grows (fun _ => False) s (set_mats (ms_mats s ++ [Some x]) (set_t t s)).
  Proof.
    intros [W Bd Al In Or]. assert (I : inv (set_mats (ms_mats s ++ [Some x]) (set_t t s))).
    { constructor.
      - exact W.
      - intros k. rewrite kfind_mats, kfind_t. cbn [ms_mats set_mats]. rewrite app_length. specialize (Bd k). cbn [length]. lia.
      - intros k k' H. rewrite !kfind_mats, !kfind_t. auto.
      - intros k k'. rewrite !kfind_mats, !kfind_t. auto.
      - intros k m. rewrite kfind_mats, kfind_t. rewrite (mget_old s _ [Some x]); auto. }
    split; auto. constructor; auto.
    - exists [x]. reflexivity.
    - intros k. rewrite kfind_mats, kfind_t. intros; lia.
  Qed.
  Lemma set_t_inv s t : inv s -> grows (fun _ => False) s (set_t t s).
  Proof.
    intros [W Bd Al In Or]. assert (I : inv (set_t t s)).
    { constructor.
      - exact W.
      - intros k. rewrite kfind_t. apply Bd.
      - intros k k' H. rewrite !kfind_t. auto.
      - intros k k'. rewrite !kfind_t. auto.
      - intros k m. rewrite kfind_t. exact (Or k m). }
    constructor; auto.
    - exists []. now rewrite app_nil_r.
    - intros k. rewrite kfind_t. intros; lia.
  Qed.

  Definition okay (ref : bool) (o : Z) (m : M) : mout M := if ref then ORef m else OMat o m.
  (** the matrix just made gets its key and its alias *)
  Lemma finish ref k o m s : inv s -> (kfind k s < 0)%Z -> mget s o = Some m -> (forall k', kfind k' s <> o) -> made E k m ->
    exists s', act_notify E ref k (act_index E k (s, LBuilt o m)) = (s', LOut (okay ref o m)) /\ grows (fun k' => samb k k' = true) s s' /\ kfind k s' = o /\ ms_mats s' = ms_mats s.
  Proof.
    intros I N G Fr Mk. pose proof G as G'. apply mget_Some in G' as [PO NE]. assert (LO : (o < size s)%Z) by (assert (Z.to_nat o < length (ms_mats s)) by (apply nth_error_Some; congruence); lia).
    pose proof I as [W Bd Al In Or].
    assert (D : forall s', wf s' -> ms_mats s' = ms_mats s -> ms_books s' = ms_books s -> (forall k', kfind k' s' = if samb k k' then o else kfind k' s) ->
              grows (fun k' => samb k k' = true) s s' /\ kfind k s' = o).
    { intros s' W' Ms Bs F. split; [|rewrite F, samb_refl; reflexivity].
      assert (I' : inv s').
      { constructor; auto.
        - intros k'. rewrite F, Ms. destruct (samb k k'); auto.
        - intros a b S. rewrite !F. destruct (samb k a) eqn:A, (samb k b) eqn:D; auto.
          + rewrite (samb_trans _ _ _ A S) in D. discriminate.
          + rewrite (samb_trans _ _ _ D (samb_sym _ _ S)) in A. discriminate.
        - intros a b. rewrite !F. destruct (samb k a) eqn:A, (samb k b) eqn:D; auto; intros H X.
          + eapply samb_trans; [apply samb_sym; exact A|exact D].
          + exfalso. eapply Fr. symmetry. exact X.
          + exfalso. eapply Fr. exact X.
        - intros a x. rewrite F. destruct (samb k a) eqn:A.
          + intros X. assert (X2 : mget s o = Some x) by (unfold mget in *; now rewrite Ms in X). rewrite G in X2. injection X2 as <-. eapply made_same; [apply samb_spec; exact A|exact Mk].
          + intros X. apply Or. unfold mget in *. now rewrite Ms in X. }
      constructor; auto.
      - exists []. now rewrite app_nil_r.
      - intros a H. rewrite F. destruct (samb k a) eqn:A; auto. exfalso. rewrite (Al _ _ A) in N. lia.
      - intros a H. rewrite F. destruct (samb k a) eqn:A; auto. intros; lia. }
    unfold act_index. cbn [snd fst]. destruct (kinsert_new E PC k o s W PO N) as (s1 & -> & W1 & M1 & B1 & T1 & F1). rewrite Z.eqb_refl. cbn [andb]. rewrite orb_true_r.
    unfold act_notify. cbn [snd fst]. unfold alias. destruct (e_kind E) eqn:KI; [| |congruence].
    - exists s1. split; [reflexivity|]. destruct (D s1 W1 M1 B1) as [D1 D2]; [|auto]. intros k'. rewrite F1, samb_plain; congruence.
    - destruct (pauli_partner k) as [j|] eqn:PJ.
      + destruct (partner_samb k j KI PJ) as (PK & NJ & SJ).
        assert (NJ' : (kfind j s1 < 0)%Z). { rewrite F1, NJ. rewrite <- (Al k j); auto. unfold samb. rewrite PK. apply keq_refl, PC. }
        destruct (kinsert_new E PC j o s1 W1 PO NJ') as (s2 & -> & W2 & M2 & B2 & T2 & F2). rewrite Z.eqb_refl. cbn [andb orb]. rewrite orb_true_r.
        exists s2. split; [reflexivity|]. destruct (D s2 W2) as [D1 D2]; [congruence|congruence| |split; [exact D1|split; [exact D2|congruence]]].
        intros k'. rewrite F2, F1, SJ. destruct (keq j k'), (keq k k'); reflexivity.
      + exists s1. split; [reflexivity|]. destruct (D s1 W1 M1 B1) as [D1 D2]; [|auto]. intros k'. now rewrite F1, no_partner_samb.
  Qed.

  (** find or create, for any way of making the matrix *)
  Definition maker := (key -> mstate -> mstate * (Z * M + mout M))%type.
  Definition gact (G : maker) (k : key) : act := fun x =>
    match snd x with LNone => match G k (fst x) with (s', inl (o, m)) => (s', LBuilt o m) | (s', inr r) => (s', LOut r) end | _ => x end.
  Definition bad (r : mout M) : Prop := (exists x, r = OThrow x) \/ r = ORuntime.
  Definition made_ok (Q : key -> Prop) (k : key) (s : mstate) (r : mstate * (Z * M + mout M)) : Prop :=
    grows Q s (fst r) /\ (kfind k (fst r) < 0)%Z /\
    match snd r with
    | inl (o, m) => mget (fst r) o = Some m /\ (forall k', kfind k' (fst r) <> o) /\ made E k m /\ (size s <= o)%Z
    | inr x => bad x
    end.
  (** the outcomes of a request for [k] *)
  Definition created (Q : key -> Prop) (ref : bool) (k : key) (s s' : mstate) (r : mout M) : Prop :=
    if (0 <=? kfind k s)%Z then s' = s /\ r = match mget s (kfind k s) with Some m => okay ref (kfind k s) m | None => ORuntime end
    else (exists m, r = okay ref (kfind k s') m /\ grows (fun k' => Q k' \/ samb k k' = true) s s' /\ mget s' (kfind k s') = Some m /\ (size s <= kfind k s')%Z) \/
         (bad r /\ grows Q s s' /\ (kfind k s' < 0)%Z).
  Lemma run_created (G : maker) Q ref k s : inv s -> ((kfind k s < 0)%Z -> made_ok Q k s (G k s)) ->
    exists s' r, run_acts [act_find E ref k; gact G k; act_index E k; act_notify E ref k] s = (s', LOut r) /\ created Q ref k s s' r.
  Proof.
    intros I MK. unfold run_acts. cbn [fold_left]. unfold act_find, found, created. cbn [fst snd].
    destruct (Z.leb_spec 0 (kfind k s)) as [L|L].
    - destruct (mget s (kfind k s)) as [m|]; cbn; eauto.
    - unfold gact. cbn [fst snd]. specialize (MK L). unfold made_ok in MK. destruct (G k s) as [s1 [[o m]|x]]; cbn [fst snd] in MK.
      + destruct MK as (GR & N & MG & FR & MD & LO). destruct (finish ref k o m s1 (g_inv _ _ _ GR) N MG FR MD) as (s2 & -> & G2 & F2 & M2).
        exists s2, (okay ref o m). split; [reflexivity|]. left. exists m. rewrite F2. split; [reflexivity|]. split; [|split; auto].
        * eapply grows_trans; [eapply grows_weaken; [|exact GR]|eapply grows_weaken; [|exact G2]]; cbn; auto.
        * unfold mget in *. now rewrite M2.
      + destruct MK as (GR & N & BD). exists s1, x. split; [reflexivity|]. right. auto.
  Qed.
  Lemma created_grows Q ref k s s' r : inv s -> created Q ref k s s' r -> grows (fun k' => Q k' \/ samb k k' = true) s s'.
  Proof.
    intros I CR. unfold created in CR. destruct (Z.leb_spec 0 (kfind k s)).
    - destruct CR as [-> _]. apply grows_refl; auto.
    - destruct CR as [(m & _ & G & _)|(_ & G & _)]; auto. eapply grows_weaken; [|exact G]. cbn; auto.
  Qed.

  (** the simple factories *)
  Definition none (k : key) : Prop := False.
  Definition wrap (F : factory_t) : maker := fun k s => match F k s with (s', inl x) => (s', inl x) | (s', inr e) => (s', inr (OThrow e)) end.
  Lemma store_made_ok k s r : inv s -> (kfind k s < 0)%Z -> (forall m t, r = (t, Some m) -> made E k m) ->
    made_ok none k s (match store_made r s with (s', inl x) => (s', inl x) | (s', inr e) => (s', inr (OThrow e)) end).
  Proof.
    intros I N MD. destruct r as [t [m|]]; cbn.
    - destruct (append_inv s t m I) as [I' G]. unfold made_ok. cbn [fst snd]. split; [exact G|]. split; [rewrite kfind_mats, kfind_t; auto|].
      split; [|split; [|split; [eauto|lia]]].
      + apply mget_Some. split; [lia|]. rewrite Nat2Z.id. cbn. rewrite nth_error_app2 by lia. now rewrite Nat.sub_diag.
      + intros k'. rewrite kfind_mats, kfind_t. pose proof (i_bound _ I k'). cbn in *. lia.
    - unfold made_ok. cbn [fst snd]. split; [apply set_t_inv; auto|]. split; [now rewrite kfind_t|]. left. eauto.
  Qed.
  Lemma factory1_ok k s : inv s -> (kfind k s < 0)%Z -> (forall l p, k <> KPoly l p) -> (forall l n p, k <> KNNPoly l n p) -> made_ok none k s (wrap (factory1 E) k s).
  Proof.
    intros I N N1 N2. unfold wrap, factory1. destruct k as [l|l w|l p|a r|l n|l n w|l n p|o] eqn:K;
      try (apply store_made_ok; auto; intros m t R; eapply made_generated; [..|exact R]; intros; auto; discriminate).
    destruct (mget s (Z.of_nat a)) as [m0|]; [destruct (book s r) as [b|]|].
    - apply store_made_ok; auto. intros m t R. eapply made_substituted. exact R.
    - unfold made_ok. cbn [fst snd]. split; [apply grows_refl; auto|]. split; auto. left. eauto.
    - unfold made_ok. cbn [fst snd]. split; [apply grows_refl; auto|]. split; auto. left. eauto.
  Qed.
  Lemma act_build_wrap F k x : act_build F k x = gact (wrap F) k x.
  Proof. unfold act_build, gact, wrap. destruct (snd x); auto. destruct (F k (fst x)) as [s' [[o m]|e]]; reflexivity. Qed.
  Lemma create1_ok k s : inv s -> (forall l p, k <> KPoly l p) -> (forall l n p, k <> KNNPoly l n p) ->
    exists s' r, create1 E k s = (s', r) /\ created none false k s s' r.
  Proof.
    intros I N1 N2. destruct (run_created (wrap (factory1 E)) none false k s I) as (s' & r & RU & CR); [intros; now apply factory1_ok|].
    exists s', r. split; auto. unfold create1, create_acts. unfold run_acts in *. cbn [fold_left] in *. rewrite act_build_wrap, RU. reflexivity.
  Qed.
  Definition loc_key (l n : nat) (k : key) : Prop := exists w, samb (part_key E l n w) k = true.
  Lemma part_key_simple l n w : (forall l' p, part_key E l n w <> KPoly l' p) /\ (forall l' n' p, part_key E l n w <> KNNPoly l' n' p).
  Proof. unfold part_key. destruct (e_kind E); split; discriminate. Qed.
  Lemma created_made Q k s s' o m : inv s -> created Q false k s s' (OMat o m) -> made E k m.
  Proof.
    intros I CR. unfold created in CR. destruct (Z.leb_spec 0 (kfind k s)) as [L|L].
    - destruct CR as [-> CR]. destruct (mget s (kfind k s)) as [x|] eqn:X; [|discriminate]. injection CR as -> ->. eapply i_orig; eauto.
    - destruct CR as [(x & X & G & GM & _)|([[x X]|X] & _)]; [|discriminate..]. injection X as -> ->. eapply i_orig; [exact (g_inv _ _ _ G)|exact GM].
  Qed.
  Lemma created_bad Q k s s' r : created Q false k s s' r -> (exists o m, r = OMat o m) \/ bad r.
  Proof.
    unfold created. destruct (0 <=? kfind k s)%Z.
    - intros [-> ->]. destruct (mget s (kfind k s)); [left; cbn; eauto|right; now right].
    - intros [(x & -> & _)|(H & _)]; auto. left. cbn. eauto.
  Qed.
  Lemma gather_ok l n parts : forall s, inv s ->
    match gather E l n parts s with
    | (s', inl ms) => grows (loc_key l n) s s' /\ made_parts E l n parts ms
    | (s', inr x) => grows (loc_key l n) s s' /\ bad x
    end.
  Proof.
    induction parts as [|[w c] parts IH]; intros s I; cbn [gather].
    - split; [apply grows_refl; auto|constructor].
    - destruct (part_key_simple l n w) as [N1 N2]. destruct (create1_ok (part_key E l n w) s I N1 N2) as (s1 & r & -> & CR).
      assert (G1 : grows (loc_key l n) s s1).
      { eapply grows_weaken; [|exact (created_grows _ _ _ _ _ _ I CR)]. intros k [[]|H]. exists w. exact H. }
      destruct (created_bad _ _ _ _ _ CR) as [(o & m & ->)|BD].
      + specialize (IH s1 (g_inv _ _ _ G1)). destruct (gather E l n parts s1) as [s2 [ms|x]]; destruct IH as [G2 R].
        * split; [eapply grows_trans; eauto|]. constructor; auto. exact (created_made _ _ _ _ _ _ I CR).
        * split; [eapply grows_trans; eauto|auto].
      + destruct BD as [[x ->]| ->]; (split; [exact G1|]); [left; eauto|now right].
  Qed.
  Lemma composite_ok k l n p parts t0 s : k = KPoly l p /\ n = 0 \/ k = KNNPoly l n p -> parts = e_monos E t0 p -> inv s -> (kfind k s < 0)%Z ->
    made_ok (loc_key l n) k s (composite E l n parts s).
  Proof.
    intros K -> I N. pose proof (gather_ok l n (e_monos E t0 p) s I) as G. unfold composite. destruct (gather E l n (e_monos E t0 p) s) as [s1 [ms|x]]; destruct G as [G R].
    - assert (N1 : (kfind k s1 < 0)%Z).
      { eapply grows_low; [exact G| |exact N]. intros [w H]. apply samb_spec in H. unfold same_request, part_key, plain_key in H.
        destruct K as [[-> ->]| ->]; destruct (e_kind E); try destruct n; discriminate H. }
      pose proof (store_made_ok k s1 (e_compose E (ms_t s1) l n ms) (g_inv _ _ _ G) N1) as SM. destruct SM as (G2 & N2 & R2).
      { intros m t X. eapply made_composed; eauto. }
      destruct (store_made (e_compose E (ms_t s1) l n ms) s1) as [s2 [[o m]|e]]; cbn [fst snd] in *; unfold made_ok; cbn [fst snd].
      + split; [eapply grows_trans; [exact G|eapply grows_weaken; [|exact G2]; intros ? []]|]. split; auto. destruct R2 as (? & ? & ? & ?). repeat (split; auto).
        destruct (g_mats _ _ _ G) as [l' X]. rewrite X, app_length in *. lia.
      + split; [eapply grows_trans; [exact G|eapply grows_weaken; [|exact G2]; intros ? []]|]. split; auto.
    - unfold made_ok. cbn [fst snd]. split; auto. split; auto. eapply grows_low; [exact G| |exact N]. intros [w H]. apply samb_spec in H. unfold same_request, part_key, plain_key in H.
      destruct K as [[-> ->]| ->]; destruct (e_kind E); try destruct n; discriminate H.
  Qed.
  (** which further keys a request may add *)
  Definition side (k k' : key) : Prop := match k with KPoly l _ => loc_key l 0 k' | KNNPoly l n _ => loc_key l n k' | _ => False end.
  Lemma kind_cases : e_kind E = Plain \/ e_kind E = Pauli.
  Proof. destruct (e_kind E); auto. congruence. Qed.
  Lemma make_ok k s : inv s -> (kfind k s < 0)%Z -> made_ok (side k) k s (make E k s).
  Proof.
    intros I N. unfold make. fold (wrap (factory1 E) k s).
    destruct kind_cases as [KI|KI]; rewrite KI;
      destruct k as [l|l w|l p|a r|l n|l n w|l n p|o]; try (apply factory1_ok; auto; discriminate);
      eapply (composite_ok _ _ _ p); auto.
  Qed.
  Lemma create_ok ref k s : inv s -> exists s' r, run_acts (full_acts E ref k) s = (s', LOut r) /\ create_ E ref k s = (s', r) /\ created (side k) ref k s s' r.
  Proof.
    intros I. destruct (run_created (make E) (side k) ref k s I) as (s' & r & RU & CR); [intros; now apply make_ok|].
    assert (X : run_acts (full_acts E ref k) s = (s', LOut r)) by exact RU. exists s', r. split; auto. split; auto. unfold create_. now rewrite X.
  Qed.
  Lemma empty_inv t : inv (empty_system t).
  Proof.
    assert (F : forall k, kfind k (empty_system t) = (-1)%Z) by (intros []; cbn; auto; unfold vfind; cbn; destruct l || destruct o; auto).
    constructor.
    - repeat split; constructor.
    - intros k. rewrite F. cbn. lia.
    - intros. now rewrite !F.
    - intros k k'. rewrite F. lia.
    - intros k m. rewrite F. cbn. discriminate.
  Qed.
End P.
