From Coq Require Import List NArith Arith Bool Sorted Lia.
From Verif Require Import ParModel LockModel LockSpec LockProofs StorageModel StorageSpec StorageProofs.
Import ListNotations.

Section Threads.
  Context {A : Type} (sig : N).
  Notation bop := (bank_op A).
  Definition upd (f : nat -> list bop) t l u := if Nat.eqb u t then l else f u.

  Lemma log_history : forall log (ops : nat -> list bop) (b : bank A) m,
    sequential BNone b log m -> (forall t, follows t (bank_thread sig (ops t)) log) ->
    exists hist : list (nat * bop),
      (forall t, exists rest, ops t = map snd (filter (fun e => Nat.eqb (fst e) t) hist) ++ rest) /\
      log = map (fun e => (fst (fst e), bank_lop sig (snd (fst e)), snd e)) (combine hist (snd (bank_run sig (map snd hist) b))) /\
      m = fst (bank_run sig (map snd hist) b).
  Proof.
    induction log as [|[[t o] l] log IH]; intros ops b m SQ FO.
    - exists []. inversion SQ; subst. cbn. split; eauto.
    - inversion SQ as [|? ? ? ? ? SQ']; subst. pose proof (FO t) as FT. cbn in FT. rewrite Nat.eqb_refl in FT.
      destruct (ops t) as [|op rest] eqn:OP; [destruct FT|]. destruct FT as [<- FT].
      destruct (IH (upd ops t rest) _ _ SQ') as (hist & PR & LG & ->).
      { intros u. unfold upd. destruct (Nat.eqb_spec u t); [subst; exact FT|]. specialize (FO u). cbn in FO. destruct (Nat.eqb_spec t u); [congruence|exact FO]. }
      exists ((t, op) :: hist). split; [|split].
      + intros u. destruct (PR u) as (rest' & E). unfold upd in E. cbn. destruct (Nat.eqb_spec u t).
        * subst u. rewrite Nat.eqb_refl, OP. cbn. exists rest'. now rewrite <- E.
        * destruct (Nat.eqb_spec t u); [congruence|]. eauto.
      + cbn [map snd fst bank_run combine]. cbv zeta. cbn [map snd fst combine]. f_equal. exact LG.
      + reflexivity.
  Qed.
  Lemma threads_history (threads : list (list bop)) st :
    lexec BNone (lstart (map (bank_thread sig) threads) new_bank) st ->
    exists hist : list (nat * bop),
      (forall t, exists rest, nth t threads [] = map snd (filter (fun e => Nat.eqb (fst e) t) hist) ++ rest) /\
      l_log st = map (fun e => (fst (fst e), bank_lop sig (snd (fst e)), snd e)) (combine hist (snd (bank_run sig (map snd hist) new_bank))) /\
      ((forall th, In th (l_ths st) -> busy th = false) -> l_mem st = after sig (map snd hist)).
  Proof.
    intros E. apply linearizable in E as (m & SQ & ME & TI & FO).
    - apply (log_history _ (fun t => nth t threads [])) in SQ as (hist & PR & LG & ->); [exists hist; auto|].
      intros t. destruct (nth_error threads t) eqn:N.
      + rewrite (nth_error_nth _ _ _ N). apply FO. now rewrite nth_error_map, N.
      + rewrite nth_overflow by now apply nth_error_None. apply nth_error_None in N. rewrite map_length in TI. clear -TI N.
        induction TI as [|[[u o] l] log T TI IH]; cbn; auto. destruct (Nat.eqb_spec u t); auto. cbn in T. lia.
    - apply Forall_forall. intros p I. apply in_map_iff in I as (ops & <- & _). apply bank_disciplined.
  Qed.
End Threads.

Section Monoid.
  Context {A : Type}.
  Definition mop (o : lop (monoid A) (option A)) : Prop := o = look \/ exists x, o = look_and_create x.
  Lemma monoid_full x n : forall log m, sequential None (Some x, n) log m -> Forall (fun e => mop (snd (fst e))) log ->
    m = (Some x, n) /\ Forall (fun e => snd e = Some x) log.
  Proof.
    induction log as [|[[t o] l] log IH]; intros m SQ F; inversion SQ as [|? ? ? ? ? SQ']; subst; auto. inversion F as [|? ? M F']; subst.
    cbn in M. destruct M as [->|[y ->]]; cbn in *; apply IH in SQ' as [-> SQ']; auto.
  Qed.
  Lemma monoid_seq : forall log m, sequential None (None, 0) log m -> Forall (fun e => mop (snd (fst e))) log ->
    (m = (None, 0) /\ Forall (fun e => snd e = None /\ snd (fst e) = look) log) \/
    exists x, m = (Some x, 1) /\ Forall (fun e => (snd e = None /\ snd (fst e) = look) \/ snd e = Some x) log /\ exists e, In e log /\ snd (fst e) = look_and_create x.
  Proof.
    induction log as [|[[t o] l] log IH]; intros m SQ F; inversion SQ as [|? ? ? ? ? SQ']; subst; auto. inversion F as [|? ? M F']; subst.
    cbn in M. destruct M as [->|[y ->]]; cbn in *.
    - destruct (IH m SQ' F') as [[-> G]|(x & -> & G & e & I & E)]; [left; auto|right]. exists x. split; auto. split; [constructor; auto|]. exists e. auto.
    - right. exists y. apply monoid_full in SQ' as [-> G]; auto. split; auto. split.
      + constructor; auto. eapply Forall_impl; [|exact G]. cbn. auto.
      + eexists. split; [now left|]. reflexivity.
  Qed.
  Lemma create_disciplined (x : A) : disciplined (create_if_empty x).
  Proof.
    constructor; [intros _ f [<-|[]] m l; reflexivity|]. intros [y|]; constructor; [|intros; constructor]. intros X. discriminate.
  Qed.
  Lemma follows_mop t (x : A) : forall log, follows t (create_if_empty x) log -> Forall (fun e => fst (fst e) = t -> snd (fst e) = look \/ snd (fst e) = look_and_create x) log.
  Proof.
    assert (H0 : forall log r, follows t (PDone r : prog (monoid A) (option A)) log -> Forall (fun e => fst (fst e) = t -> False) log).
    { induction log as [|[[u o] l] log IH]; intros r; cbn; [constructor|]. destruct (Nat.eqb_spec u t); [tauto|]. intros H. constructor; cbn; eauto. }
    assert (H1 : forall log, follows t (POp (look_and_create x) PDone) log -> Forall (fun e => fst (fst e) = t -> snd (fst e) = look_and_create x) log).
    { induction log as [|[[u o] l] log IH]; cbn; [constructor|]. destruct (Nat.eqb_spec u t).
      - intros [<- F]. constructor; cbn; auto. apply H0 in F. eapply Forall_impl; [|exact F]. cbn. tauto.
      - intros H. constructor; cbn; auto. congruence. }
    induction log as [|[[u o] l] log IH]; cbn; [constructor|]. destruct (Nat.eqb_spec u t).
    - intros [<- F]. constructor; cbn; auto. destruct l; [apply H0 in F|apply H1 in F]; (eapply Forall_impl; [|exact F]); cbn; tauto.
    - intros H. constructor; cbn; auto. congruence.
  Qed.
  Lemma returned t (x : A) r : forall log, remaining t (create_if_empty x) log = Some (PDone r) -> follows t (create_if_empty x) log ->
    exists e, In e log /\ snd e = r /\ (snd (fst e) = look_and_create x \/ r <> None).
  Proof.
    assert (H0 : forall log r' q, remaining t (PDone r' : prog (monoid A) (option A)) log = Some q -> q = PDone r').
    { induction log as [|[[u o] l] log IH]; intros r' q; cbn; [now intros [= <-]|]. destruct (Nat.eqb u t); [discriminate|]. apply IH. }
    assert (H1 : forall log, remaining t (POp (look_and_create x) PDone) log = Some (PDone r) -> follows t (POp (look_and_create x) PDone) log ->
      exists e, In e log /\ snd e = r /\ snd (fst e) = look_and_create x).
    { induction log as [|[[u o] l] log IH]; cbn; [discriminate|]. destruct (Nat.eqb u t).
      - intros R [<- F]. apply H0 in R as [= ->]. eexists. split; [now left|]. auto.
      - intros R F. destruct (IH R F) as (e & I & E). eauto. }
    induction log as [|[[u o] l] log IH]; cbn; [discriminate|]. destruct (Nat.eqb u t).
    - intros R [<- F]. destruct l as [y|].
      + apply H0 in R as [= ->]. eexists. split; [now left|]. cbn. split; auto. right. discriminate.
      + destruct (H1 log R F) as (e & I & E & G). exists e. cbn. auto.
    - intros R F. destruct (IH R F) as (e & I & E). eauto.
  Qed.

  Lemma created_once (xs : list A) st : lexec None (lstart (map create_if_empty xs) (None, 0)) st ->
    (forall th, In th (l_ths st) -> busy th = false) ->
    l_mem st = (None, 0) \/ exists x, In x xs /\ l_mem st = (Some x, 1) /\ forall t r, nth_error (l_ths st) t = Some (TIdle (PDone r)) -> r = Some x.
  Proof.
    intros E IDLE.
    assert (D : Forall disciplined (map (@create_if_empty A) xs)) by (apply Forall_forall; intros p I; apply in_map_iff in I as (x & <- & _); apply create_disciplined).
    pose proof (exec_linv None _ _ _ D E) as [LEN (m & SQ & _ & FREE) _ TI PR].
    assert (ME : l_mem st = m) by (apply FREE; intros th I; specialize (IDLE th I); destruct th; cbn in *; congruence).
    destruct (linearizable None _ _ _ D E) as (_ & _ & _ & _ & FO).
    assert (OPS : forall e, In e (l_log st) -> exists x, In x xs /\ (snd (fst e) = look \/ snd (fst e) = look_and_create x)).
    { intros e I. rewrite Forall_forall in TI. pose proof (TI e I) as LT. rewrite map_length in LT. destruct (nth_error xs (fst (fst e))) as [x|] eqn:N; [|apply nth_error_None in N; lia].
      exists x. split; [eauto using nth_error_In|]. assert (F : follows (fst (fst e)) (create_if_empty x) (l_log st)) by (apply FO; now rewrite nth_error_map, N).
      apply follows_mop in F. rewrite Forall_forall in F. apply (F e I eq_refl). }
    assert (MO : Forall (fun e => mop (snd (fst e))) (l_log st)).
    { apply Forall_forall. intros e I. destruct (OPS e I) as (x & _ & [H|H]); [now left|right; eauto]. }
    destruct (monoid_seq _ _ SQ MO) as [[EM _]|(x & EM & G & e & I & C)]; [left; congruence|right].
    exists x. split; [|split; [congruence|]].
    - destruct (OPS e I) as (y & Y & [H|H]); assert (H' := eq_trans (eq_sym C) H); [discriminate|]. injection H' as H1. assert (K : y = x).
      { apply (f_equal (fun f => fst (fst (f ((None, 0), None))))) in H1. cbn in H1. congruence. } now subst.
    - intros t r N. destruct (nth_error xs t) as [y|] eqn:NX.
      + assert (P : nth_error (map create_if_empty xs) t = Some (create_if_empty y)) by now rewrite nth_error_map, NX.
        destruct (PR t _ _ N P) as (F & _ & q & RE & <-). destruct (returned _ _ _ _ RE F) as (e' & I' & <- & H). rewrite Forall_forall in G.
        destruct (G e' I') as [[H1 H2]|H1]; auto. rewrite H2 in H. destruct H; [discriminate|congruence].
      + apply nth_error_None in NX. assert (t < length (l_ths st)) by (apply nth_error_Some; congruence). rewrite map_length in LEN. lia.
  Qed.
End Monoid.

Section Promises.
  Context {A : Type}.
  Implicit Types (h : list (bank_op A)) (x y : A).
  Local Open Scope N_scope.
  Lemma prefix_ops {h1 h2 : list (bank_op A)} : Forall key_op (h1 ++ h2) -> Forall key_op h1.
  Proof. now rewrite Forall_app. Qed.
  Lemma store_result sig h s x k : result sig h (Store s x) = BKey k -> k = (if s then sign_index_add else sign_index) sig (bk_next (after sig h)).
  Proof. unfold result. rewrite run_store. cbn. now intros [= <-]. Qed.
  Lemma prefix_key sig h1 s x h2 k : sig < 2 ^ 32 -> Forall key_op (h1 ++ Store s x :: h2) -> ~ In Clear h2 -> stored (h1 ++ Store s x :: h2) <= 2 ^ 32 ->
    result sig h1 (Store s x) = BKey k -> stored h1 < 2 ^ 32 /\ k = key_of sig (stored h1).
  Proof.
    intros SG KO NC B R. destruct (stored_app h1 (Store s x :: h2)) as (n & E & F); [cbn; intros [?|?]; [discriminate|tauto]|].
    specialize (F s x h2 eq_refl). assert (L : stored h1 < 2 ^ 32) by lia. split; auto. rewrite (store_key sig h1 s x SG (prefix_ops KO) L) in R. now injection R as <-.
  Qed.
  Lemma key_range sig i : sig < 2 ^ 32 -> i < 2 ^ 32 -> key_of sig i < 2 ^ 64.
  Proof. intros S I. now apply key_parts. Qed.

  Lemma kept sig h1 s x h2 k : sig < 2 ^ 32 -> Forall key_op (h1 ++ Store s x :: h2) -> stored (h1 ++ Store s x :: h2) <= 2 ^ 32 ->
    result sig h1 (Store s x) = BKey k -> ~ In (Release k) h2 -> ~ In Clear h2 -> result sig (h1 ++ Store s x :: h2) (Get k) = BFound x.
  Proof.
    intros SG KO B R NR NC. destruct (prefix_key sig h1 s x h2 k SG KO NC B R) as [L KE].
    assert (AX : alive sig (h1 ++ Store s x :: h2) k x) by (exists h1, h2, s; auto).
    destruct (get_spec sig _ k SG (eq_ind_r (fun k => k < 2 ^ 64) (key_range sig _ SG L) KE) KO B) as [[C _]|[(C & y & AY & ->)|(C & NA & _)]].
    - subst k. destruct (key_parts sig _ SG L) as [C' _]. congruence.
    - f_equal. exact (alive_unique sig _ k _ _ SG KO B AY AX).
    - now apply NA in AX.
  Qed.
  Lemma distinct sig h1 s x h2 s' y k k' : sig < 2 ^ 32 -> Forall key_op (h1 ++ Store s x :: h2) -> stored (h1 ++ Store s x :: h2) < 2 ^ 32 -> ~ In Clear h2 ->
    result sig h1 (Store s x) = BKey k -> result sig (h1 ++ Store s x :: h2) (Store s' y) = BKey k' -> k <> k'.
  Proof.
    intros SG KO B NC R R'. destruct (prefix_key sig h1 s x h2 k SG KO NC (N.lt_le_incl _ _ B) R) as [L KE].
    rewrite (store_key sig _ s' y SG KO B) in R'. injection R' as <-. subst k. intros E. apply key_inj in E.
    destruct (stored_app h1 (Store s x :: h2)) as (n & E' & F); [cbn; intros [?|?]; [discriminate|tauto]|]. specialize (F s x h2 eq_refl). lia.
  Qed.
  Lemma dead sig h1 s x h2 k : sig < 2 ^ 32 -> result sig h1 (Store s x) = BKey k -> forall h3, let h := h1 ++ Store s x :: h2 ++ Release k :: h3 in
    Forall key_op h -> stored h <= 2 ^ 32 -> ~ In Clear (h2 ++ h3) -> forall y, ~ alive sig h k y.
  Proof.
    intros SG R. induction h3 as [|op h3 IH] using rev_ind; intros h KO B NC y.
    - unfold h. replace (h1 ++ Store s x :: h2 ++ [Release k]) with ((h1 ++ Store s x :: h2) ++ [Release k]) by now rewrite <- app_assoc.
      rewrite alive_snoc. intros [(_ & N & _)|(? & N & _)]; congruence.
    - rewrite app_assoc, in_app_iff in NC. set (g := h1 ++ Store s x :: h2 ++ Release k :: h3).
      assert (E : h = g ++ [op]) by (unfold h, g; rewrite <- !app_assoc; cbn; now rewrite <- !app_assoc).
      rewrite E in *. clear h E. assert (NG : ~ In Clear (h2 ++ h3)) by tauto. assert (NO : op <> Clear) by (intros ->; apply NC; right; now left).
      assert (BG : stored g <= 2 ^ 32) by (rewrite stored_snoc in B; destruct op; auto; [lia|congruence]).
      rewrite alive_snoc. intros [(AY & _)|(s' & -> & R')].
      + revert AY. apply IH; auto. exact (prefix_ops KO).
      + rewrite stored_snoc in B. assert (BL : stored g < 2 ^ 32) by lia.
        apply (distinct sig h1 s x (h2 ++ Release k :: h3) s' y k k SG); auto.
        * exact (prefix_ops KO).
        * rewrite in_app_iff in *. cbn. intros [?|[?|?]]; try discriminate; tauto.
  Qed.
  Lemma released sig h1 s x h2 h3 k : sig < 2 ^ 32 -> let h := h1 ++ Store s x :: h2 ++ Release k :: h3 in Forall key_op h -> stored h <= 2 ^ 32 ->
    result sig h1 (Store s x) = BKey k -> ~ In Clear (h2 ++ h3) -> result sig h (Get k) = BNotFound.
  Proof.
    intros SG h KO B R NC. assert (NC' : ~ In Clear (h2 ++ Release k :: h3)) by (rewrite in_app_iff in *; cbn; intros [?|[?|?]]; try discriminate; tauto).
    destruct (prefix_key sig h1 s x _ k SG KO NC' B R) as [L KE].
    destruct (get_spec sig _ k SG (eq_ind_r (fun k => k < 2 ^ 64) (key_range sig _ SG L) KE) KO B) as [[C _]|[(C & y & AY & _)|(C & NA & ->)]]; auto.
    - subst k. destruct (key_parts sig _ SG L) as [C' _]. congruence.
    - exfalso. revert AY. now apply dead.
  Qed.
  Lemma foreign sig h k : k < 2 ^ 64 -> k / 2 ^ 32 <> sig ->
    bank_run1 sig (Get k) (after sig h) = (after sig h, BBadSignature) /\ bank_run1 sig (Release k) (after sig h) = (after sig h, BBadSignature).
  Proof.
    intros K NE. assert (C : check_signature sig k = false) by (rewrite signature_div by assumption; now apply N.eqb_neq).
    rewrite run_get, run_release. unfold find_or_throw. rewrite C. auto.
  Qed.
  Lemma exact_get sig h k : sig < 2 ^ 32 -> k < 2 ^ 64 -> k / 2 ^ 32 = sig -> Forall key_op h -> stored h <= 2 ^ 32 ->
    (forall x, result sig h (Get k) = BFound x <-> alive sig h k x) /\ (result sig h (Get k) = BNotFound <-> forall x, ~ alive sig h k x) /\
    (forall x, alive sig h k x -> result sig h (Release k) = BNone /\ result sig (h ++ [Release k]) (Get k) = BNotFound).
  Proof.
    intros SG K E KO B. assert (C : check_signature sig k = true) by (rewrite signature_div by assumption; now apply N.eqb_eq).
    assert (REL : forall x, alive sig h k x -> result sig h (Release k) = BNone /\ result sig (h ++ [Release k]) (Get k) = BNotFound).
    { intros x AX. split.
      - destruct (get_spec sig h k SG K KO B) as [[C' _]|[(_ & y & AY & RY)|(_ & NA & _)]]; [congruence| |now apply NA in AX].
        unfold result in *. rewrite run_get in RY. cbn [snd] in RY. now rewrite run_release, RY.
      - assert (KO' : Forall key_op (h ++ [Release k])) by (rewrite Forall_app; split; auto).
        destruct (get_spec sig (h ++ [Release k]) k SG K KO') as [[C' _]|[(_ & y & AY & RY)|(_ & NA & RY)]]; auto; [now rewrite stored_snoc|congruence|].
        apply alive_snoc in AY as [(_ & N & _)|(s & N & _)]; congruence. }
    destruct (get_spec sig h k SG K KO B) as [[C' _]|[(_ & x & AX & RX)|(_ & NA & RX)]]; [congruence| |]; rewrite RX.
    - split; [|split; auto].
      + intros y. split; [now intros [= <-]|]. intros AY. f_equal. exact (alive_unique sig _ k _ _ SG KO B AX AY).
      + split; [discriminate|]. intros NA. now apply NA in AX.
    - split; [|split; auto; tauto]. intros y. split; [discriminate|]. intros AY. now apply NA in AY.
  Qed.
End Promises.

Section Wrap.
  Local Open Scope N_scope.
  Definition many (n : nat) : list (bank_op bool) := repeat (Store false true) n.
  Lemma many_stored n : stored (many n) = N.of_nat n.
  Proof.
    unfold many. induction n; [reflexivity|]. replace (repeat (Store false true) (S n)) with (repeat (Store false true) n ++ [Store false true]).
    - rewrite stored_snoc, IHn. lia.
    - clear. induction n; cbn; auto. now rewrite IHn.
  Qed.
  Lemma many_ops n : Forall key_op (many n).
  Proof. apply Forall_forall. intros op I. apply repeat_spec in I. subst. exact Logic.I. Qed.
  Lemma wrap_any n : N.of_nat n = 2 ^ 32 -> exists (h : list (bank_op bool)) k, Forall key_op h /\ ~ In Clear h /\
    result 1 h (Store false false) = BKey k /\ ~ In (Release k) h /\ result 1 (h ++ [Store false false]) (Get k) = BFound true.
  Proof.
    intros EN.
    exists (many n), (key_of 1 0). assert (B : stored (many n) <= 2 ^ 32) by (rewrite many_stored; lia).
    destruct (after_inv 1 ltac:(lia) (many n) (many_ops n) B) as [NX S I AL]. rewrite many_stored, EN, N.mod_same in NX by lia.
    split; [apply many_ops|]. split; [intros H; apply repeat_spec in H; discriminate|]. split; [unfold result; rewrite run_store, NX; reflexivity|].
    split; [intros H; apply repeat_spec in H; discriminate|].
    assert (AX : alive 1 (many n) (key_of 1 0) true).
    { destruct n as [|n]; [cbn in EN; discriminate|]. exists [], (many n), false. split; [reflexivity|]. split; [reflexivity|].
      split; intros H; apply repeat_spec in H; discriminate. }
    apply AL in AX as (i & E & IN). apply key_inj in E. subst i.
    unfold result. rewrite run_get. cbn [snd]. unfold find_or_throw. replace (check_signature 1 (key_of 1 0)) with true by reflexivity.
    replace (get_index (key_of 1 0)) with 0 by reflexivity. rewrite after_snoc, run_store. cbn [fst bk_objs]. rewrite NX.
    rewrite emplace_there; [|exact S|apply in_map_iff; exists (0, true); auto]. apply (lookup_in _ _ _ S) in IN. now rewrite IN.
  Qed.
  Lemma wrap_refuted : exists (h : list (bank_op bool)) k, Forall key_op h /\ ~ In Clear h /\
    result 1 h (Store false false) = BKey k /\ ~ In (Release k) h /\ result 1 (h ++ [Store false false]) (Get k) = BFound true.
  Proof. exact (wrap_any (N.to_nat (2 ^ 32)) (N2Nat.id (2 ^ 32))). Qed.
  Lemma clear_refuted : exists (h : list (bank_op bool)) k, result 1 [] (Store false true) = BKey k /\ h = [Store false true; Clear; Store false false] /\ result 1 h (Get k) = BFound false.
  Proof. exists [Store false true; Clear; Store false false], (key_of 1 0). split; [reflexivity|]. split; [reflexivity|]. vm_compute. reflexivity. Qed.
End Wrap.
