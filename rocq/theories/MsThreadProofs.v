From Coq Require Import List Arith ZArith Bool Lia.
From Verif Require Import LockModel LockSpec LockProofs MsModel MsSpec MsProofs MsInvProofs MsHistProofs.
Import ListNotations.

Section P.
  Context {T M P C B : Type} (E : menv T M P C B).
  Notation key := (key P). Notation mstate := (mstate T M P B). Notation mop := (mop M P C B). Notation mloc := (mloc M).
  Hypothesis (PC : poly_classes E) (ND : e_kind E <> Derived).

  Lemma serve_disciplined ops : disciplined (serve E ops).
  Proof.
    induction ops as [|op ops IH]; cbn [serve]; [constructor|].
    assert (EX : forall (o : lop mstate mloc), lo_excl o = true -> reads_only o) by (intros o H X; congruence).
    assert (SH : forall op', (forall s, fst (perform E op' s) = s) -> reads_only (simple_lop E false op')).
    { intros op' H _ f [<-|[]] m l. cbn. apply H. }
    destruct op; constructor; auto.
    - intros _ f [<-|[]] m l. reflexivity.
    - intros []; auto. constructor; auto.
  Qed.
  (** where a thread is: requests to come, and whether the first of them has been looked up in vain *)
  Definition at_ (x : list mop * bool) : prog mstate mloc :=
    match x with
    | (Lookup k :: ops, true) => POp (create_lop E true k) (fun _ => serve E ops)
    | (ops, _) => serve E ops
    end.
  Definition upd (f : nat -> list mop * bool) t x u := if Nat.eqb u t then x else f u.
  Lemma run_simple excl op s : run_lop LNone (simple_lop E excl op) s = (fst (perform E op s), LOut (snd (perform E op s))). Proof. reflexivity. Qed.
  Lemma run_create ref k s : inv E s -> run_lop LNone (create_lop E ref k) s = (fst (create_ E ref k s), LOut (snd (create_ E ref k s))).
  Proof. intros I. destruct (create_ok E PC ND ref k s I) as (s' & r & RU & -> & _). exact RU. Qed.
  Lemma run_peek k s : run_lop LNone (peek_lop E k) s = (s, found E true k s). Proof. reflexivity. Qed.
  Lemma peek_cases k s : found E true k s = LNone \/ exists r, found E true k s = LOut r /\ perform E (Lookup k) s = (s, r).
  Proof.
    cbn [perform]. unfold lookup. destruct (found E true k s) eqn:F; eauto. unfold found in F. destruct (0 <=? kfind E k s)%Z; [|discriminate]. destruct (mget s (kfind E k s)); discriminate.
  Qed.

  Definition served (f : nat -> list mop * bool) (t : nat) (hist : list (nat * mop * mout M)) (rest : list mop) (q : option (prog mstate mloc)) : Prop :=
    fst (f t) = map fst (told t hist) ++ rest /\ exists b, q = Some (at_ (rest, b)).
  Lemma log_history t0 : forall log (f : nat -> list mop * bool) before m,
    (forall t, snd (f t) = true -> exists k ops, fst (f t) = Lookup k :: ops) ->
    sequential LNone (after E t0 before) log m -> (forall t, follows t (at_ (f t)) log) ->
    exists hist, plausible E t0 before hist /\ (forall t, exists rest, served f t hist rest (remaining t (at_ (f t)) log)) /\
      map (fun e => (fst (fst e), snd e)) hist = results log /\ m = after E t0 (before ++ map (fun e => snd (fst e)) hist).
  Proof.
    induction log as [|[[t o] l] log IH]; intros f before m PB SQ FO.
    - exists []. inversion SQ; subst. cbn. rewrite app_nil_r. split; auto. split; auto. intros t. exists (fst (f t)). split; [reflexivity|]. exists (snd (f t)). now destruct (f t).
    - inversion SQ as [|? ? ? ? ? SQ']; subst. pose proof (FO t) as FT. cbn in FT. rewrite Nat.eqb_refl in FT.
      pose proof (after_inv E PC ND t0 before) as I. set (s := after E t0 before) in *.
      (* a step that answers the first request *)
      assert (ANS : forall op ops r o', f t = (op :: ops, false) \/ f t = (op :: ops, true) -> run_lop LNone o s = (fst (perform E op s), LOut r) -> r = snd (perform E op s) ->
                (exists k, at_ (f t) = POp o' k /\ k (LOut r) = serve E ops /\ o' = o) ->
                exists hist, plausible E t0 before hist /\ (forall t1, exists rest, served f t1 hist rest (remaining t1 (at_ (f t1)) ((t, o, snd (run_lop LNone o s)) :: log))) /\
                  map (fun e => (fst (fst e), snd e)) hist = results ((t, o, snd (run_lop LNone o s)) :: log) /\ m = after E t0 (before ++ map (fun e => snd (fst e)) hist)).
      { intros op ops r o' FE RU -> (k & AT & KS & ->). rewrite RU in *. cbn [fst snd] in *. rewrite AT in FT. destruct FT as [_ FT]. rewrite KS in FT.
        destruct (IH (upd f t (ops, false)) (before ++ [op]) m) as (hist & PL & SE & RE & ->).
        - intros u. unfold upd. destruct (Nat.eqb u t); [discriminate|apply PB].
        - rewrite after_app. exact SQ'.
        - intros u. unfold upd. destruct (Nat.eqb_spec u t); [subst; exact (match ops as x return follows t (serve E x) log -> follows t (at_ (x, false)) log with [] => fun h => h | op1 :: _ => match op1 with Lookup _ | _ => fun h => h end end FT)|].
          specialize (FO u). cbn in FO. destruct (Nat.eqb_spec t u); [congruence|exact FO].
        - exists ((t, op, snd (perform E op s)) :: hist). split; [cbn; split; auto|]. split; [|split].
          + intros u. destruct (SE u) as (rest & S1 & S2). exists rest. unfold served, told in *. unfold upd in S1, S2. cbn [filter fst snd remaining]. destruct (Nat.eqb_spec u t) as [->|NE].
            * rewrite Nat.eqb_refl. cbn [map fst snd app]. split; [destruct FE as [-> | ->]; cbn [fst] in *; now rewrite S1|]. rewrite AT, KS.
              assert (AO : at_ (ops, false) = serve E ops) by (destruct ops as [|[] ?]; reflexivity). rewrite AO in S2. exact S2.
            * destruct (Nat.eqb_spec t u); [congruence|]. split; auto.
          + cbn. now rewrite RE.
          + cbn. now rewrite <- app_assoc. }
      destruct (f t) as [ops pend] eqn:FE. destruct ops as [|op ops].
      { exfalso. destruct pend; destruct FT. }
      destruct (match op with Lookup _ => true | _ => false end) eqn:OP.
      + destruct op as [| k | | | | | | |]; try discriminate OP. destruct pend.
        * (* looking up again, with the write lock *)
          cbn in FT. destruct FT as [<- FT]. eapply (ANS (Lookup k) ops); [right; reflexivity| |reflexivity|].
          -- cbn [perform]. rewrite lookup_create. apply run_create; auto.
          -- eexists. split; [reflexivity|]. split; reflexivity.
        * cbn in FT. destruct FT as [<- FT]. destruct (peek_cases k s) as [PE|(r & PE & PF)].
          -- (* a miss *)
             rewrite run_peek in *. cbn [fst snd] in *. rewrite PE in *. fold s in SQ'. destruct (IH (upd f t (Lookup k :: ops, true)) before m) as (hist & PL & SE & RE & ->).
             ++ intros u. unfold upd. destruct (Nat.eqb u t); [cbn; eauto|apply PB].
             ++ exact SQ'.
             ++ intros u. unfold upd. destruct (Nat.eqb_spec u t); [subst; exact FT|]. specialize (FO u). cbn in FO. destruct (Nat.eqb_spec t u); [congruence|exact FO].
             ++ exists hist. split; auto. split; [|split; auto]. intros u. destruct (SE u) as (rest & S1 & S2). exists rest. unfold served, told in *. unfold upd in S1, S2. cbn [remaining].
                destruct (Nat.eqb_spec u t) as [->|NE].
                ** rewrite FE, Nat.eqb_refl. cbn [fst] in *. split; auto.
                ** destruct (Nat.eqb_spec t u); [congruence|]. split; auto.
          -- eapply (ANS (Lookup k) ops r); [left; reflexivity| |now rewrite PF|].
             ++ rewrite run_peek, PE, PF. reflexivity.
             ++ eexists. split; [reflexivity|]. split; reflexivity.
      + assert (pend = false) as ->. { destruct pend; auto. destruct (PB t) as (k & ops' & X); [now rewrite FE|]. rewrite FE in X. cbn in X. injection X as -> ->. discriminate. }
        destruct op; try discriminate OP; cbn in FT; destruct FT as [<- FT]; eapply ANS; try (left; reflexivity); try reflexivity; try (eexists; split; [reflexivity|split; reflexivity]);
          try (rewrite run_simple; reflexivity). cbn [perform]. now apply run_create.
  Qed.
  Lemma threads_history t0 (threads : list (list mop)) st : lexec LNone (lstart (map (serve E) threads) (empty_system t0)) st ->
    exists hist, plausible E t0 [] hist /\
      (forall t, exists rest, nth t threads [] = map fst (told t hist) ++ rest /\ ((exists r, nth_error (l_ths st) t = Some (TIdle (PDone r))) -> rest = [])) /\
      map (fun e => (fst (fst e), snd e)) hist = results (l_log st) /\
      ((forall th, In th (l_ths st) -> busy th = false) -> l_mem st = after E t0 (map (fun e => snd (fst e)) hist)).
  Proof.
    intros EX. assert (D : Forall disciplined (map (serve E) threads)) by (apply Forall_forall; intros p I; apply in_map_iff in I as (ops & <- & _); apply serve_disciplined).
    destruct (linearizable LNone _ _ _ D EX) as (m & SQ & IDLE & TI & FO).
    pose proof (exec_linv LNone _ _ _ D EX) as LI.
    set (f := fun t => (nth t threads [], false) : list mop * bool).
    assert (AT : forall t, at_ (f t) = serve E (nth t threads [])) by (intros t; unfold f, at_; destruct (nth t threads []) as [|[] ?]; reflexivity).
    assert (NT : forall t, t < length threads -> nth_error (map (serve E) threads) t = Some (serve E (nth t threads []))).
    { intros t L. rewrite nth_error_map, (nth_error_nth' threads []) by auto. reflexivity. }
    assert (FOL : forall t, follows t (at_ (f t)) (l_log st)).
    { intros t. rewrite AT. destruct (Nat.lt_ge_cases t (length threads)) as [L|L]; [apply FO; auto|]. rewrite nth_overflow by auto. cbn.
      clear -TI L. rewrite map_length in TI. induction (l_log st) as [|[[u o] l] log IH]; cbn; auto. inversion TI; subst. cbn in *. destruct (Nat.eqb_spec u t); [lia|auto]. }
    destruct (log_history t0 (l_log st) f [] m) as (hist & PL & SE & RE & MM); [discriminate|exact SQ|exact FOL|].
    exists hist. split; auto. split; [|split; auto].
    - intros t. destruct (SE t) as (rest & S1 & b & S2). exists rest. split; auto. intros [r N].
      destruct (Nat.lt_ge_cases t (length threads)) as [L|L].
      + destruct (li_prog _ _ _ _ LI t _ _ N (NT t L)) as (_ & _ & q & Q & <-). rewrite AT in S2. rewrite S2 in Q. injection Q as Q. destruct rest as [|[] ?]; auto; destruct b; discriminate.
      + cbn in S1. rewrite nth_overflow in S1 by auto. symmetry in S1. now apply app_eq_nil in S1.
    - intros ID. rewrite <- (IDLE ID) in MM. exact MM.
  Qed.

  Lemma plausible_split t0 : forall hist before i j e1 e2, plausible E t0 before hist -> i < j -> nth_error hist i = Some e1 -> nth_error hist j = Some e2 ->
    exists h1 h2, snd e1 = answer E t0 h1 (snd (fst e1)) /\ snd e2 = answer E t0 (h1 ++ snd (fst e1) :: h2) (snd (fst e2)) /\ incl h2 (map (fun e => snd (fst e)) hist).
  Proof.
    assert (ONE : forall hist before j e2, plausible E t0 before hist -> nth_error hist j = Some e2 -> exists h2, snd e2 = answer E t0 (before ++ h2) (snd (fst e2)) /\ incl h2 (map (fun e => snd (fst e)) hist)).
    { induction hist as [|[[u op] r] hist IH]; intros before j e2 PL N; [destruct j; discriminate|]. destruct PL as [R PL]. destruct j as [|j].
      - injection N as <-. exists []. rewrite app_nil_r. split; [exact R|intros ? []].
      - destruct (IH _ _ _ PL N) as (h2 & A & I). exists (op :: h2). rewrite <- app_assoc in A. split; [exact A|]. cbn. intros x [<-|X]; [now left|right; auto]. }
    induction hist as [|[[u op] r] hist IH]; intros before i j e1 e2 PL L N1 N2; [destruct i; discriminate|]. destruct PL as [R PL]. destruct j as [|j]; [lia|]. destruct i as [|i].
    - injection N1 as <-. cbn in N2. destruct (ONE _ _ _ _ PL N2) as (h2 & A & I). exists before, h2. cbn. rewrite <- app_assoc in A. split; auto. split; [exact A|]. intros x X. right. auto.
    - destruct (IH _ i j e1 e2 PL) as (h1 & h2 & A1 & A2 & I); auto; [lia|]. exists h1, h2. split; auto. split; auto. intros x X. right. now apply I.
  Qed.
  Lemma one_matrix t0 hist e1 e2 k1 k2 m1 m2 : plausible E t0 [] hist -> (forall e o, In e hist -> snd (fst e) <> Delete o) -> In e1 hist -> In e2 hist ->
    asks (snd (fst e1)) k1 -> asks (snd (fst e2)) k2 -> same_request E k1 k2 -> matrix_of (snd e1) = Some m1 -> matrix_of (snd e2) = Some m2 -> m1 = m2.
  Proof.
    intros PL NDl I1 I2 A1 A2 SR M1 M2. apply In_nth_error in I1 as [i N1], I2 as [j N2].
    assert (G : forall i j e1 e2 k1 k2 m1 m2, i < j -> nth_error hist i = Some e1 -> nth_error hist j = Some e2 -> asks (snd (fst e1)) k1 -> asks (snd (fst e2)) k2 -> same_request E k1 k2 ->
              matrix_of (snd e1) = Some m1 -> matrix_of (snd e2) = Some m2 -> m1 = m2).
    { clear - PC ND PL NDl. intros i j e1 e2 k1 k2 m1 m2 L N1 N2 A1 A2 SR M1 M2. destruct (plausible_split t0 hist [] i j e1 e2 PL L N1 N2) as (h1 & h2 & R1 & R2 & IN).
      assert (AK : exists o, asked (snd (fst e1)) k1 (answer E t0 h1 (snd (fst e1))) o m1).
      { rewrite <- R1. pose proof (after_inv E PC ND t0 h1) as I.
        destruct A1 as [A|A]; rewrite A in R1 |- *; unfold answer in R1; cbn [perform] in R1; rewrite ?lookup_create in R1.
        - destruct (create_ok E PC ND false k1 _ I) as (s' & r & _ & X & CR). rewrite X in R1. cbn in R1. exists (kfind E k1 s'). left. split; auto. rewrite R1 in M1 |- *.
          assert (O : exists o, r = OMat o m1) by (destruct (created_bad _ _ _ _ _ _ CR) as [(o & m & ->)|[[x ->]| ->]]; cbn in M1; try discriminate; injection M1 as ->; eauto). destruct O as [o ->].
          destruct (created_after E _ false _ _ _ _ m1 I CR) as (_ & _ & Y); [exists o; reflexivity|]. exact Y.
        - destruct (create_ok E PC ND true k1 _ I) as (s' & r & _ & X & CR). rewrite X in R1. cbn in R1. exists 0%Z. right. split; auto. rewrite R1 in M1 |- *.
          unfold created in CR. destruct (0 <=? kfind E k1 (after E t0 h1))%Z.
          + destruct CR as [_ ->]. destruct (mget _ _); cbn in M1; [injection M1 as ->; reflexivity|discriminate].
          + destruct CR as [(m & -> & _)|([[x ->]| ->] & _)]; cbn in M1; try discriminate. injection M1 as ->. reflexivity. }
      destruct AK as [o AK]. destruct (asked_later E PC ND t0 h1 (snd (fst e1)) h2 k1 k2 m1 o AK SR) as (o' & _ & H).
      assert (ND2 : ~ In (Delete o') h2). { intros X. apply IN, in_map_iff in X as (e & X & Y). exact (NDl e o' Y X). }
      specialize (H ND2). cbv zeta in H. destruct H as (H1 & H2 & _). unfold answer in R2. destruct A2 as [A|A]; rewrite A in R2; rewrite ?H1, ?H2 in R2; cbn in R2; rewrite R2 in M2; cbn in M2; congruence. }
    destruct (Nat.lt_trichotomy i j) as [L|[->|L]].
    - eapply G; eauto.
    - rewrite N1 in N2. injection N2 as <-. congruence.
    - symmetry. eapply G; [exact L|exact N2|exact N1|eauto..]. apply samb_spec. apply samb_sym; auto. apply samb_spec; auto.
  Qed.
End P.
