From Coq Require Import List Arith ZArith Bool Lia.
From Verif Require Import LockModel LockSpec LockProofs MsModel MsSpec MsProofs MsInvProofs MsHistProofs MsThreadProofs.
Import ListNotations.

Section P.
  Context {T M P C B : Type} (E : menv T M P C B).
  Notation key := (key P). Notation mstate := (mstate T M P B). Notation mop := (mop M P C B).
  Hypothesis (PC : poly_classes E) (ND : e_kind E <> Derived).

  Lemma t_again t h op h2 k k' m o : asked op k (answer E t h op) o m -> same_request E k k' ->
    exists o', (op = Create k -> o' = o) /\ (~ In (Delete o') h2 -> let h' := h ++ op :: h2 in
    answer E t h' (Create k') = OMat o' m /\ answer E t h' (Lookup k') = ORef m /\ answer E t h' (Find k') = ORef m /\ answer E t h' (Get o') = ORef m /\
    after E t (h' ++ [Create k']) = after E t h' /\ after E t (h' ++ [Lookup k']) = after E t h').
  Proof.
    intros A S. destruct (asked_later E PC ND t h op h2 k k' m o A S) as (o' & O & H). exists o'. split; auto. intros N h'. specialize (H N). cbv zeta in H. fold h' in H. destruct H as (H1 & H2 & H3 & H4).
    unfold answer. rewrite H1, H2, H3, H4. rewrite !after_app. cbn [from fold_left]. rewrite H1, H2. cbn. repeat (split; [reflexivity|]). reflexivity.
  Qed.
  Lemma t_distinct t h h2 k k' o o' m m' : answer E t h (Create k) = OMat o m -> answer E t (h ++ Create k :: h2) (Create k') = OMat o' m' -> (o = o' <-> same_request E k k').
  Proof. intros A A'. eapply (asked_distinct E PC ND t h (Create k) h2 (Create k') k k' o o' m m'); auto; left; auto. Qed.
  Lemma t_made t h k m : (exists o, answer E t h (Create k) = OMat o m) \/ answer E t h (Lookup k) = ORef m -> made E k m.
  Proof. intros [[o A]|A]; [apply (asked_made E PC ND t h (Create k) k m o); left; auto|apply (asked_made E PC ND t h (Lookup k) k m 0%Z); right; auto]. Qed.
  Definition full (s : mstate) : Prop := ~ In None (ms_mats s).
  Lemma grows_full Q s s' : grows E Q s s' -> full s -> full s'.
  Proof. intros G F. exact (so_full _ _ _ _ (grows_step E (Get 0%Z) Q s s' G) ltac:(discriminate) F). Qed.
  Lemma full_mget s k : inv E s -> full s -> (0 <= kfind E k s)%Z -> exists m, mget s (kfind E k s) = Some m.
  Proof.
    intros I F L. pose proof (i_bound _ _ I k) as Bd. destruct (mget s (kfind E k s)) as [m|] eqn:G; eauto. exfalso. apply F. unfold mget in G.
    destruct (Z.ltb_spec (kfind E k s) 0); [lia|]. destruct (Z.leb_spec (Z.of_nat (length (ms_mats s))) (kfind E k s)); [lia|]. cbn in G. rewrite <- G. apply nth_In. lia.
  Qed.
  Lemma run_full (G : maker) Q ref k s : inv E s -> full s -> ((kfind E k s < 0)%Z -> made_ok E Q k s (G k s) /\ forall s', G k s <> (s', inr ORuntime)) ->
    exists s' r, run_acts [act_find E ref k; gact G k; act_index E k; act_notify E ref k] s = (s', LOut r) /\ r <> ORuntime.
  Proof.
    intros I F MK. unfold run_acts. cbn [fold_left]. unfold act_find, found. cbn [fst snd].
    destruct (Z.leb_spec 0 (kfind E k s)) as [L|L].
    - destruct (full_mget s k I F L) as [m ->]. cbn. eexists _, _. split; [reflexivity|]. destruct ref; discriminate.
    - unfold gact. cbn [fst snd]. destruct (MK L) as [MO NR]. unfold made_ok in MO. destruct (G k s) as [s1 [[o m]|x]]; cbn [fst snd] in MO.
      + destruct MO as (GR & N & MG & FR & MD & LO). destruct (finish E PC ND ref k o m s1 (g_inv _ _ _ _ GR) N MG FR MD) as (s2 & -> & _). eexists _, _. split; [reflexivity|]. destruct ref; discriminate.
      + exists s1, x. split; [reflexivity|]. intros ->. now apply (NR s1).
  Qed.
  Lemma wrap_nr F k (s s' : mstate) : wrap F k s <> (s', inr (@ORuntime M)).
  Proof. unfold wrap. destruct (F k s) as [s1 [x|e]]; discriminate. Qed.
  Lemma create1_full k s : inv E s -> full s -> (forall l p, k <> KPoly l p) -> (forall l n p, k <> KNNPoly l n p) -> snd (create1 E k s) <> ORuntime.
  Proof.
    intros I F N1 N2. destruct (run_full (wrap (factory1 E)) none false k s I F) as (s' & r & RU & NR).
    - intros L. split; [now apply factory1_ok|]. intros s'. apply wrap_nr.
    - unfold create1, create_acts. unfold run_acts in *. cbn [fold_left] in *. rewrite act_build_wrap, RU. exact NR.
  Qed.
  Lemma gather_full l n parts : forall s s', inv E s -> full s -> gather E l n parts s <> (s', inr ORuntime).
  Proof.
    induction parts as [|[w c] parts IH]; intros s s' I F; cbn [gather]; [discriminate|].
    destruct (part_key_simple E ND l n w) as [N1 N2]. pose proof (create1_full _ s I F N1 N2) as NR. destruct (create1_ok E PC ND (part_key E l n w) s I N1 N2) as (s1 & r & X & CR). rewrite X in *. cbn in NR.
    pose proof (created_grows _ _ _ _ _ _ _ I CR) as G1.
    destruct (created_bad _ _ _ _ _ _ CR) as [(o & m & ->)|[[x ->]| ->]]; [|discriminate|congruence].
    specialize (IH s1). destruct (gather E l n parts s1) as [s2 [ms|x]] eqn:GA; [discriminate|]. intros [= <- ->]. exact (IH s2 (g_inv _ _ _ _ G1) (grows_full _ _ _ G1 F) eq_refl).
  Qed.
  Lemma make_full k s s' : inv E s -> full s -> make E k s <> (s', inr ORuntime).
  Proof.
    intros I F. unfold make. fold (wrap (factory1 E) k s).
    assert (CO : forall l n parts, composite E l n parts s <> (s', inr ORuntime)).
    { intros l n parts. unfold composite. destruct (gather E l n parts s) as [s1 [ms|x]] eqn:GA.
      - destruct (store_made (e_compose E (ms_t s1) l n ms) s1) as [s2 [y|e]]; discriminate.
      - intros [= <- ->]. exact (gather_full _ _ _ _ _ I F GA). }
    destruct (kind_cases E ND) as [KI|KI]; rewrite KI; destruct k; auto using wrap_nr.
  Qed.
  Lemma t_present t h k : (forall o, ~ In (Delete o) h) -> answer E t h (Create k) <> ORuntime /\ answer E t h (Lookup k) <> ORuntime.
  Proof.
    intros N. pose proof (after_inv E PC ND t h) as I. assert (F : full (after E t h)) by (apply (from_full E PC ND h (empty_system t)); auto; apply empty_inv). set (s := after E t h) in *.
    assert (CR : forall ref, snd (create_ E ref k s) <> ORuntime).
    { intros ref. destruct (run_full (make E) (side E k) ref k s I F) as (s' & r & RU & NR).
      - intros L. split; [now apply make_ok|]. intros s'. now apply make_full.
      - unfold create_. unfold full_acts. change (act_make E k) with (gact (make E) k). rewrite RU. exact NR. }
    split; [exact (CR false)|]. unfold answer. cbn [perform]. fold s. rewrite lookup_create. apply CR.
  Qed.
  Lemma t_threads_one t0 (threads : list (list mop)) st : lexec LNone (lstart (map (serve E) threads) (empty_system t0)) st -> (forall ops o, In ops threads -> ~ In (Delete o) ops) ->
    exists hist, (forall t, exists rest, nth t threads [] = map fst (told t hist) ++ rest) /\ map (fun e => (fst (fst e), snd e)) hist = results (l_log st) /\
      forall e1 e2 k1 k2 m1 m2, In e1 hist -> In e2 hist -> asks (snd (fst e1)) k1 -> asks (snd (fst e2)) k2 -> same_request E k1 k2 -> matrix_of (snd e1) = Some m1 -> matrix_of (snd e2) = Some m2 -> m1 = m2.
  Proof.
    intros EX N. destruct (threads_history E PC ND t0 threads st EX) as (hist & PL & SE & RE & _). exists hist. split; [intros t; destruct (SE t) as (rest & S & _); eauto|]. split; auto.
    intros e1 e2 k1 k2 m1 m2 I1 I2 A1 A2 SR M1 M2. eapply (one_matrix E PC ND t0 hist e1 e2); eauto.
    intros e o I X. destruct (SE (fst (fst e))) as (rest & S & _). destruct (Nat.lt_ge_cases (fst (fst e)) (length threads)) as [L|L].
    - apply (N (nth (fst (fst e)) threads []) o); [now apply nth_In|]. rewrite S. apply in_app_iff. left. apply in_map_iff. exists (snd (fst e), snd e). split; [exact X|].
      unfold told. apply in_map_iff. exists e. split; auto. apply filter_In. split; auto. apply Nat.eqb_refl.
    - rewrite nth_overflow in S by auto. symmetry in S. apply app_eq_nil in S as [S _].
      assert (Y : In (snd (fst e)) (map fst (told (fst (fst e)) hist))). { apply in_map_iff. exists (snd (fst e), snd e). split; auto. unfold told. apply in_map_iff. exists e. split; auto. apply filter_In. split; auto. apply Nat.eqb_refl. }
      rewrite S in Y. destruct Y.
  Qed.
  (** substitution uses the matrix and the rulebook as they are when it is first asked for *)
  Lemma t_substituted t h a r o m : answer E t h (Find (KSub a r)) = OThrow XMissing -> (forall x, ~ In (Delete x) h) -> answer E t h (Create (KSub a r)) = OMat o m ->
    exists m0 b t', answer E t h (Get (Z.of_nat a)) = ORef m0 /\ book (after E t h) r = Some b /\ e_subst E (ms_t (after E t h)) m0 b = (t', Some m).
  Proof.
    intros FI N A. pose proof (after_inv E PC ND t h) as I. assert (F : full (after E t h)) by (apply (from_full E PC ND h (empty_system t)); auto; apply empty_inv). unfold answer in *. set (s := after E t h) in *. cbn [perform snd] in *.
    assert (L : (kfind E (KSub a r) s < 0)%Z). { unfold find_ in FI. destruct (Z.ltb_spec (kfind E (KSub a r) s) 0); auto. destruct (full_mget s (KSub a r) I F) as [x X]; [lia|]. rewrite X in FI. discriminate. }
    pose proof (make_ok E PC ND (KSub a r) s I L) as MK. unfold create_, full_acts, run_acts in A; cbn [fold_left] in A; unfold act_find, found in A; cbn [fst snd] in A.
    destruct (Z.leb_spec 0 (kfind E (KSub a r) s)); [lia|]. unfold act_make in A. cbn [fst snd] in A.
    assert (MM : make E (KSub a r) s = wrap (factory1 E) (KSub a r) s) by (unfold make; destruct (e_kind E); reflexivity). rewrite MM in *. unfold wrap, factory1 in *.
    destruct (mget s (Z.of_nat a)) as [m0|]; [destruct (book s r) as [b|]|]; try discriminate A.
    destruct (e_subst E (ms_t s) m0 b) as [t' [m'|]] eqn:SU; [|discriminate A]. exists m0, b, t'. split; auto. split; auto.
    cbn [store_made] in *. destruct (push m' (set_t t' s)) as [s' o'] eqn:PU. unfold made_ok in MK. cbn [fst snd] in MK. destruct MK as (G & NN & R1 & R2 & R3 & R4).
    destruct (finish E PC ND false _ o' m' s' (g_inv _ _ _ _ G) NN R1 R2 R3) as (s3 & FIN & _). rewrite FIN in A. cbn in A. injection A as _ ->. exact SU.
  Qed.
End P.

(** rulebooks *)
Section Books.
  Context {T M P C B : Type} (E : menv T M P C B).
  Notation mop := (mop M P C B). Notation mstate := (mstate T M P B).
  Lemma book_set_length (l : list (option B)) b : forall i, length (book_set l i b) = length l.
  Proof. induction l as [|x l IH]; intros [|i]; cbn; auto. Qed.
  Lemma book_set_nth (l : list (option B)) b : forall i j, nth j (book_set l i b) None = if Nat.eqb i j && (i <? length l) then b else nth j l None.
  Proof.
    induction l as [|x l IH]; intros i j; [rewrite andb_false_r; now destruct i|]. destruct i as [|i], j as [|j]; try reflexivity. cbn [book_set nth Nat.eqb length]. rewrite IH. reflexivity.
  Qed.
  Lemma book_set_spec (l : list (option B)) i b : length (book_set l i b) = length l /\ forall j, nth j (book_set l i b) None = if Nat.eqb i j && (i <? length l) then b else nth j l None.
  Proof. split; [apply book_set_length|]. intros j. apply book_set_nth. Qed.
  Lemma after_snoc t h op : after E t (h ++ [op]) = fst (perform E op (after E t h)).
  Proof. unfold after. rewrite fold_left_app. reflexivity. Qed.
  Lemma t_add t h b : let n := length (ms_books (after E t h)) in let s' := after E t (h ++ [AddBook b]) in
    match e_added E (ms_t (after E t h)) n (e_name E n b) true with
    | (_, Some b') => answer E t h (AddBook b) = OBook n /\ book s' n = Some b' /\ length (ms_books s') = S n /\ forall i, i <> n -> book s' i = book (after E t h) i
    | (_, None) => answer E t h (AddBook b) = OThrow XFactory /\ ms_books s' = ms_books (after E t h)
    end.
  Proof.
    cbv zeta. rewrite after_snoc. unfold answer. set (s := after E t h). cbn [perform]. unfold add_book.
    change (ms_t (set_books (ms_books s ++ [Some (e_name E (length (ms_books s)) b)]) s)) with (ms_t s).
    destruct (e_added E (ms_t s) (length (ms_books s)) (e_name E (length (ms_books s)) b) true) as [t' [b'|]]; cbn [fst snd].
    - split; [reflexivity|]. cbn [ms_books set_t set_books]. unfold book. cbn [ms_books set_t set_books].
      destruct (book_set_spec (ms_books s ++ [Some (e_name E (length (ms_books s)) b)]) (length (ms_books s)) (Some b')) as [LE NT]. rewrite LE, app_length. cbn [length].
      split; [rewrite NT, Nat.eqb_refl, app_length; cbn [length]; destruct (Nat.ltb_spec (length (ms_books s)) (length (ms_books s) + 1)); [reflexivity|lia]|]. split; [lia|].
      intros i NE. rewrite NT. destruct (Nat.eqb_spec (length (ms_books s)) i); [congruence|]. cbn. destruct (Nat.lt_ge_cases i (length (ms_books s))).
      + now rewrite app_nth1.
      + rewrite !nth_overflow; auto. rewrite app_length. cbn. lia.
    - split; [reflexivity|]. cbn [ms_books set_t set_books]. apply removelast_last.
  Qed.
  Lemma t_merge t h i b : let s := after E t h in let s' := after E t (h ++ [MergeBook i b]) in
    length (ms_books s') = length (ms_books s) /\ (forall j, j <> i -> book s' j = book s j) /\
    match book s i with
    | None => answer E t h (MergeBook i b) = OThrow XMissing /\ s' = s
    | Some b0 => match e_merge E b0 b with
                 | (b1, false) => answer E t h (MergeBook i b) = OThrow XFactory /\ book s' i = Some b1
                 | (b1, true) => match e_added E (ms_t s) i b1 false with
                                 | (_, Some b2) => answer E t h (MergeBook i b) = OBook i /\ book s' i = Some b2
                                 | (_, None) => answer E t h (MergeBook i b) = OThrow XFactory /\ book s' i = Some b1
                                 end
                 end
    end.
  Proof.
    cbv zeta. rewrite after_snoc. unfold answer. set (s := after E t h). cbn [perform]. unfold merge_book.
    destruct (book s i) as [b0|] eqn:BI; [|auto].
    assert (LI : i < length (ms_books s)). { destruct (Nat.lt_ge_cases i (length (ms_books s))); auto. unfold book in BI. rewrite nth_overflow in BI by auto. discriminate. }
    destruct (e_merge E b0 b) as [b1 ok]. destruct (book_set_spec (ms_books s) i (Some b1)) as [L1 N1].
    assert (X : forall j, (Nat.eqb i j && (i <? length (ms_books s)))%bool = Nat.eqb i j) by (intros j; destruct (Nat.ltb_spec i (length (ms_books s))); [apply andb_true_r|lia]).
    destruct ok; [|cbn [fst snd]; unfold book; cbn [ms_books set_books]].
    - change (ms_t (set_books (book_set (ms_books s) i (Some b1)) s)) with (ms_t s). destruct (e_added E (ms_t s) i b1 false) as [t' [b2|]]; cbn [fst snd]; unfold book; cbn [ms_books set_t set_books].
      + destruct (book_set_spec (book_set (ms_books s) i (Some b1)) i (Some b2)) as [L2 N2]. rewrite L2, L1. split; auto. split; [|split; auto].
        * intros j NE. rewrite N2, N1. destruct (Nat.eqb_spec i j); [congruence|reflexivity].
        * rewrite N2, L1, X, Nat.eqb_refl. reflexivity.
      + split; auto. split; [|split; auto].
        * intros j NE. rewrite N1. destruct (Nat.eqb_spec i j); [congruence|reflexivity].
        * rewrite N1, X, Nat.eqb_refl. reflexivity.
    - split; auto. split; [|split; auto].
      + intros j NE. rewrite N1. destruct (Nat.eqb_spec i j); [congruence|reflexivity].
      + rewrite N1, X, Nat.eqb_refl. reflexivity.
  Qed.
End Books.
