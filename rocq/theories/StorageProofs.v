From Coq Require Import List NArith Arith Bool Sorted Lia.
From Verif Require Import ParModel LockModel LockSpec LockProofs StorageModel StorageSpec.
Import ListNotations.
Local Open Scope N_scope.

(** keys *)
Lemma shl32 s : N.shiftl s 32 = s * 4294967296.
Proof. rewrite N.shiftl_mul_pow2. reflexivity. Qed.
Lemma index_mod k : get_index k = k mod 4294967296.
Proof. unfold get_index. now rewrite N.land_ones. Qed.
Lemma signature_div s k : k < 2 ^ 64 -> check_signature s k = N.eqb (k / 4294967296) s.
Proof.
  intros H. unfold check_signature. rewrite N.shiftr_land, N.shiftr_shiftl_l by lia. rewrite N.sub_diag, N.shiftl_0_r, N.land_ones, N.shiftr_div_pow2.
  change (2 ^ 32) with 4294967296. rewrite N.mod_small; auto. apply N.div_lt_upper_bound; [lia|]. change (4294967296 * 4294967296) with (2 ^ 64). exact H.
Qed.
Lemma sign_add s i : i < 2 ^ 32 -> sign_index s i = sign_index_add s i.
Proof.
  intros H. unfold sign_index, sign_index_add. rewrite N.lor_comm, N.add_comm. symmetry. rewrite <- N.lxor_lor; [apply N.add_nocarry_lxor|].
  all: apply N.bits_inj_0; intros n; rewrite N.land_spec; destruct (N.lt_ge_cases n 32);
    [rewrite N.shiftl_spec_low by assumption; apply andb_false_r|].
  all: destruct (N.eq_dec i 0) as [->|Z]; [now rewrite N.bits_0|]; rewrite (N.bits_above_log2 i n); auto;
    apply N.log2_lt_pow2 in H; lia.
Qed.
Definition key_of (sig i : N) : N := sig * 4294967296 + i.
Lemma sign_key sig i (sh : bool) : i < 2 ^ 32 -> (if sh then sign_index_add else sign_index) sig i = key_of sig i.
Proof. intros H. unfold key_of. destruct sh; rewrite ?(sign_add _ _ H); unfold sign_index_add; now rewrite shl32. Qed.
Lemma key_split sig k : sig < 2 ^ 32 -> k < 2 ^ 64 -> check_signature sig k = true -> k = key_of sig (get_index k).
Proof.
  intros S K C. rewrite signature_div in C by assumption. apply N.eqb_eq in C. unfold key_of. rewrite index_mod, <- C.
  rewrite (N.div_mod k 4294967296) at 1 by lia. lia.
Qed.
Lemma key_parts sig i : sig < 2 ^ 32 -> i < 2 ^ 32 -> check_signature sig (key_of sig i) = true /\ get_index (key_of sig i) = i /\ key_of sig i < 2 ^ 64.
Proof.
  intros S I. change (2 ^ 32) with 4294967296 in *. assert (K : key_of sig i < 2 ^ 64) by (unfold key_of; change (2 ^ 64) with (4294967296 * 4294967296); nia).
  split; [|split; auto].
  - rewrite signature_div by assumption. unfold key_of. rewrite N.div_add_l by lia. rewrite N.div_small by assumption. apply N.eqb_eq. lia.
  - rewrite index_mod. unfold key_of. rewrite N.add_comm, N.mod_add by lia. now apply N.mod_small.
Qed.
Lemma key_inj sig i j : key_of sig i = key_of sig j -> i = j.
Proof. unfold key_of. lia. Qed.

Section Bank.
  Context {A : Type}.
  Implicit Types (m : list (N * A)) (b : bank A) (h : list (bank_op A)).
  Notation below := (fun x y : N * A => fst x < fst y).
  Definition msorted m := StronglySorted below m.

  (** the map *)
  Lemma lookup_in i x : forall m, msorted m -> (lookup i m = Some x <-> In (i, x) m).
  Proof.
    unfold lookup. induction m as [|[j y] m IH]; intros S; cbn; [split; [discriminate|intros []]|]. inversion S as [|? ? S' F]; subst. rewrite Forall_forall in F.
    destruct (N.eqb_spec j i) as [->|NE]; cbn.
    - split; [intros [= ->]; now left|]. intros [[= ->]|I]; auto. apply F in I. cbn in I. lia.
    - rewrite (IH S'). split; [now right|]. intros [[= -> ->]|I]; [congruence|auto].
  Qed.
  Lemma emplace_in i x : forall m, ~ In i (map fst m) -> forall e, In e (emplace i x m) <-> e = (i, x) \/ In e m.
  Proof.
    induction m as [|[j y] m IH]; intros NI e; cbn; [intuition congruence|]. destruct (N.ltb_spec i j); [cbn; intuition congruence|].
    cbn in NI. destruct (N.eqb_spec i j); [exfalso; apply NI; left; congruence|]. cbn. rewrite IH by tauto. intuition.
  Qed.
  Lemma emplace_there i x : forall m, msorted m -> In i (map fst m) -> emplace i x m = m.
  Proof.
    induction m as [|[j y] m IH]; intros S; cbn; [intros []|]. inversion S as [|? ? S' F]; subst. rewrite Forall_forall in F.
    intros I. destruct (N.ltb_spec i j).
    - destruct I as [->|I]; [lia|]. apply in_map_iff in I as ([i' z] & <- & I). apply F in I. cbn in *. lia.
    - destruct (N.eqb_spec i j); auto. destruct I as [->|I]; [congruence|]. now rewrite IH.
  Qed.
  Lemma emplace_sorted i x : forall m, msorted m -> msorted (emplace i x m).
  Proof.
    induction m as [|[j y] m IH]; intros S; cbn; [repeat constructor|]. inversion S as [|? ? S' F]; subst.
    destruct (N.ltb_spec i j); [constructor; auto; constructor; auto; eapply Forall_impl; [|exact F]; cbn; intros; lia|].
    destruct (N.eqb_spec i j); auto. constructor; [now apply IH|]. rewrite Forall_forall in *. intros e I.
    destruct (in_dec N.eq_dec i (map fst m)) as [D|D].
    - rewrite emplace_there in I; auto.
    - apply emplace_in in I as [->|I]; auto. cbn. lia.
  Qed.
  Lemma filter_sorted (f : N * A -> bool) : forall m, msorted m -> msorted (filter f m).
  Proof.
    induction m as [|e m IH]; intros S; cbn; auto. inversion S as [|? ? S' F]; subst. destruct (f e); auto. constructor; [now apply IH|].
    rewrite Forall_forall in *. intros y I. apply filter_In in I as [I _]. auto.
  Qed.

  (** the operations, run alone *)
  Lemma run_store sig sh x b : bank_run1 sig (Store sh x) b =
    (mk_bank (emplace (bk_next b) x (bk_objs b)) ((bk_next b + 1) mod 2 ^ 32), BKey ((if sh then sign_index_add else sign_index) sig (bk_next b))).
  Proof. reflexivity. Qed.
  Lemma run_get sig k b : bank_run1 sig (Get k) b = (b, find_or_throw sig k b).
  Proof. reflexivity. Qed.
  Lemma run_release sig k b : bank_run1 sig (Release k) b =
    match find_or_throw sig k b with BFound _ => (mk_bank (erase (get_index k) (bk_objs b)) (bk_next b), BNone) | o => (b, o) end.
  Proof. cbn. now destruct (find_or_throw sig k b). Qed.

  Lemma after_snoc sig h op : after sig (h ++ [op]) = fst (bank_run1 sig op (after sig h)).
  Proof.
    unfold after. generalize (@new_bank A). induction h as [|o h IH]; intros b; [reflexivity|].
    cbn [app bank_run]. cbv zeta. cbn [fst]. apply IH.
  Qed.
  Lemma stored_snoc h op : stored (h ++ [op]) = match op with Store _ _ => stored h + 1 | Clear => 0 | _ => stored h end.
  Proof. unfold stored. rewrite fold_left_app. cbn. reflexivity. Qed.

  Lemma alive_snoc sig h op k x : alive sig (h ++ [op]) k x <->
    (alive sig h k x /\ op <> Release k /\ op <> Clear) \/ (exists s, op = Store s x /\ result sig h op = BKey k).
  Proof.
    split.
    - intros (h1 & h2 & s & E & R & NR & NC). destruct h2 as [|o h2 _] using rev_ind.
      + apply app_inj_tail in E as [-> ->]. right. eauto.
      + rewrite app_comm_cons, app_assoc in E. apply app_inj_tail in E as [-> ->]. left. rewrite in_app_iff in NR, NC. cbn in NR, NC.
        split; [|split; intros ->; tauto]. exists h1, h2, s. intuition.
    - intros [((h1 & h2 & s & -> & R & NR & NC) & NR' & NC')|(s & -> & R)].
      + exists h1, (h2 ++ [op]), s. rewrite !in_app_iff. cbn. split; [now rewrite <- app_assoc|]. intuition.
      + exists h, [], s. intuition.
  Qed.

  Record binv (sig : N) h : Prop := {
    bi_next : bk_next (after sig h) = stored h mod 2 ^ 32;
    bi_sorted : msorted (bk_objs (after sig h));
    bi_ids : forall i x, In (i, x) (bk_objs (after sig h)) -> i < stored h;
    bi_alive : forall k x, alive sig h k x <-> exists i, k = key_of sig i /\ In (i, x) (bk_objs (after sig h))
  }.
  Lemma after_inv sig : sig < 2 ^ 32 -> forall h, Forall key_op h -> stored h <= 2 ^ 32 -> binv sig h.
  Proof.
    intros SG. induction h as [|op h IH] using rev_ind.
    - intros _ _. constructor; cbn; auto; [constructor|intros ? ? []|]. intros k x. split; [|intros (i & _ & [])].
      intros (h1 & h2 & s & E & _). destruct h1; discriminate.
    - rewrite stored_snoc. intros K. apply Forall_app in K as [K1 K2]. inversion K2 as [|? ? K3 _]; subst. specialize (IH K1).
      assert (NOP : fst (bank_run1 sig op (after sig h)) = after sig h -> (forall s x, op <> Store s x) -> op <> Clear -> (forall k x, op = Release k -> ~ alive sig h k x) ->
        stored h <= 2 ^ 32 -> binv sig (h ++ [op])).
      { intros E NS NC NR B. destruct (IH B) as [N S I AL]. rewrite <- (after_snoc sig h op) in E. constructor; rewrite ?E; auto.
        - rewrite stored_snoc. destruct op; congruence.
        - rewrite stored_snoc. destruct op; auto; congruence.
        - intros k x. rewrite alive_snoc, <- AL. split; [intros [(? & _)|(s & E' & _)]; auto; now apply NS in E'|].
          intros ALV. left. split; auto. split; auto. intros E'. now apply (NR k x). }
      destruct op as [sh x|k|k| |i| | |]; try (apply NOP; [reflexivity|discriminate..]); clear NOP.
      + (* store *)
        intros B. destruct IH as [N S I AL]; [lia|]. rewrite N.mod_small in N by lia.
        assert (LT : stored h < 2 ^ 32) by lia.
        assert (NI : ~ In (bk_next (after sig h)) (map fst (bk_objs (after sig h)))).
        { intros H. apply in_map_iff in H as ([i y] & E & H). apply I in H. cbn in E. lia. }
        constructor; rewrite after_snoc, run_store; cbn [fst bk_objs bk_next].
        * rewrite stored_snoc, N. reflexivity.
        * now apply emplace_sorted.
        * intros i y H. rewrite stored_snoc. apply emplace_in in H as [[= -> ->]|H]; auto; [lia|]. apply I in H. lia.
        * intros k y. rewrite alive_snoc. unfold result. rewrite run_store. cbn [snd].
          rewrite sign_key by lia. setoid_rewrite (emplace_in _ x _ NI). rewrite AL. split.
          -- intros [((i & -> & H) & _)|(s & [= -> ->] & [= <-])]; eauto.
          -- intros (i & -> & [[= -> ->]|H]); [right; eauto|left; split; [eauto|split; discriminate]].
      + (* release *)
        intros B. destruct (IH B) as [N S I AL]. cbn in K3.
        pose proof (run_release sig k (after sig h)) as RR.
        unfold find_or_throw in RR. destruct (check_signature sig k) eqn:C.
        * pose proof (key_split sig k SG K3 C) as KE.
          destruct (lookup (get_index k) (bk_objs (after sig h))) as [y|] eqn:LK.
          -- apply (lookup_in _ _ _ S) in LK. assert (AF : after sig (h ++ [Release k]) = mk_bank (erase (get_index k) (bk_objs (after sig h))) (bk_next (after sig h))) by (rewrite after_snoc, RR; reflexivity).
             constructor; rewrite ?AF; cbn [bk_next bk_objs].
             ++ now rewrite stored_snoc.
             ++ now apply filter_sorted.
             ++ intros i z H. rewrite stored_snoc. apply filter_In in H as [H _]. eauto.
             ++ intros k' z. rewrite alive_snoc, AL. split.
                ** intros [((i & -> & H) & NR & _)|(s & E & _)]; [|discriminate]. exists i. split; auto. apply filter_In. split; auto. cbn.
                   destruct (N.eqb_spec i (get_index k)); auto. subst i. rewrite <- KE in NR. congruence.
                ** intros (i & -> & H). apply filter_In in H as [H NE]. cbn in NE. left. split; eauto. split; [|discriminate]. intros [= E]. rewrite KE in E.
                   apply key_inj in E. rewrite E, N.eqb_refl in NE. discriminate.
          -- assert (AF : after sig (h ++ [Release k]) = after sig h) by (rewrite after_snoc, RR; reflexivity). constructor; rewrite ?AF, ?stored_snoc; auto.
             intros k' z. rewrite alive_snoc, AL. split; [intros [(H & _)|(s & E & _)]; [exact H|discriminate]|].
             intros (i & -> & H). left. split; eauto. split; [|discriminate]. intros [= E]. rewrite KE in E. apply key_inj in E. subst i.
             apply (lookup_in _ _ _ S) in H. congruence.
        * assert (AF : after sig (h ++ [Release k]) = after sig h) by (rewrite after_snoc, RR; reflexivity). constructor; rewrite ?AF, ?stored_snoc; auto.
          intros k' z. rewrite alive_snoc, AL. split; [intros [(H & _)|(s & E & _)]; [exact H|discriminate]|].
          intros (i & -> & H). left. split; eauto. split; [|discriminate]. intros [= ->].
          apply I in H. destruct (key_parts sig i SG) as (C' & _); [lia|]. congruence.
      + (* clear *)
        intros _. constructor; rewrite after_snoc, ?stored_snoc; cbn; auto; [constructor|intros ? ? []|].
        intros k x. rewrite alive_snoc. split; [intros [(_ & _ & H)|(s & E & _)]; [congruence|discriminate]|intros (i & _ & [])].
  Qed.

  Lemma get_spec sig h k : sig < 2 ^ 32 -> k < 2 ^ 64 -> Forall key_op h -> stored h <= 2 ^ 32 ->
    (check_signature sig k = false /\ result sig h (Get k) = BBadSignature) \/
    (check_signature sig k = true /\ exists x, alive sig h k x /\ result sig h (Get k) = BFound x) \/
    (check_signature sig k = true /\ (forall x, ~ alive sig h k x) /\ result sig h (Get k) = BNotFound).
  Proof.
    intros SG K H B. destruct (after_inv sig SG h H B) as [N S I AL]. unfold result. rewrite run_get. cbn [snd]. unfold find_or_throw.
    destruct (check_signature sig k) eqn:C; [right|now left]. pose proof (key_split sig k SG K C) as KE.
    destruct (lookup (get_index k) (bk_objs (after sig h))) as [x|] eqn:LK.
    - left. split; auto. exists x. split; auto. apply AL. exists (get_index k). split; auto. now apply lookup_in in LK.
    - right. split; auto. split; auto. intros x AX. apply AL in AX as (i & E & IN). rewrite KE in E. apply key_inj in E. subst i. apply lookup_in in IN; auto. congruence.
  Qed.
  Lemma alive_unique sig h k x y : sig < 2 ^ 32 -> Forall key_op h -> stored h <= 2 ^ 32 -> alive sig h k x -> alive sig h k y -> x = y.
  Proof.
    intros SG H B X Y. destruct (after_inv sig SG h H B) as [N S I AL]. apply AL in X as (i & -> & X). apply AL in Y as (j & E & Y). apply key_inj in E. subst j.
    apply (lookup_in _ _ _ S) in X. apply (lookup_in _ _ _ S) in Y. congruence.
  Qed.
  Lemma store_key sig h sh x : sig < 2 ^ 32 -> Forall key_op h -> stored h < 2 ^ 32 -> result sig h (Store sh x) = BKey (key_of sig (stored h)).
  Proof.
    intros SG H B. destruct (after_inv sig SG h H) as [N S I AL]; [lia|]. unfold result. rewrite run_store. cbn [snd]. rewrite N, N.mod_small by assumption. now rewrite sign_key.
  Qed.
  Lemma stored_app h1 h2 : ~ In Clear h2 -> exists n, stored (h1 ++ h2) = stored h1 + n /\ (forall s x h3, h2 = Store s x :: h3 -> 1 <= n).
  Proof.
    induction h2 as [|op h2 IH] using rev_ind; intros NC.
    - exists 0. rewrite app_nil_r. split; [lia|discriminate].
    - rewrite in_app_iff in NC. destruct IH as (n & E & F); [tauto|]. rewrite app_assoc, stored_snoc, E.
      destruct op; try (exists n; split; [reflexivity|intros s x0 h3 EQ; destruct h2; [discriminate|]; injection EQ as -> _; now apply (F s x0 h2)]).
      + exists (n + 1). split; [lia|]. lia.
      + cbn in NC. tauto.
  Qed.

  (** sizes and iteration *)
  Lemma loop_spec b : msorted (bk_objs b) -> forall m m', bk_objs b = m ++ m' -> forall fuel, (length m' <= fuel)%nat ->
    bank_loop fuel b (item (hd_error m')) = Some m'.
  Proof.
    intros S m m'. revert m. induction m' as [|[i x] m' IH]; intros m E fuel F; [destruct fuel; reflexivity|].
    destruct fuel; [cbn in F; lia|]. cbn [hd_error item bank_loop bank_run1 run_lop bank_lop lo_steps bank_steps fold_left fst snd].
    replace (upper_bound i (bk_objs b)) with (hd_error m').
    - rewrite (IH (m ++ [(i, x)])); [reflexivity|now rewrite <- app_assoc|cbn in F; lia].
    - rewrite E in *. clear -S. induction m as [|[j y] m IH]; cbn in *.
      + unfold upper_bound. cbn. rewrite N.ltb_irrefl. inversion S as [|? ? S' F]; subst. destruct m' as [|[j y] m']; auto. cbn.
        inversion F; subst. cbn in *. destruct (N.ltb_spec i j); [reflexivity|lia].
      + inversion S as [|? ? S' F]; subst. rewrite Forall_forall in F. assert (j < i) by (apply (F (i, x)); apply in_app_iff; right; now left).
        unfold upper_bound in *. cbn. destruct (N.ltb_spec i j); [lia|]. now apply IH.
  Qed.
  Lemma iterate_spec sig h : sig < 2 ^ 32 -> Forall key_op h -> stored h <= 2 ^ 32 ->
    exists l, bank_loop (length l) (after sig h) (result sig h First) = Some l /\ result sig h Size = BSize (length l) /\ result sig h Empty = BEmpty (match l with [] => true | _ => false end) /\
      StronglySorted (fun x y => fst x < fst y) l /\ forall i x, In (i, x) l <-> i < 2 ^ 32 /\ alive sig h (sign_index sig i) x.
  Proof.
    intros SG H B. destruct (after_inv sig SG h H B) as [N S I AL]. exists (bk_objs (after sig h)). split; [|split; [reflexivity|split; [reflexivity|split; [exact S|]]]].
    - unfold result. cbn [bank_run1 run_lop bank_lop lo_steps bank_steps fold_left fst snd]. now apply (loop_spec _ S []).
    - intros i x. split.
      + intros IN. pose proof (I _ _ IN). assert (L : i < 2 ^ 32) by lia. split; auto. apply AL. exists i. split; auto. now apply (sign_key sig i false).
      + intros [L AX]. apply AL in AX as (j & E & IN). rewrite (sign_key sig i false L) in E. apply key_inj in E. now subst.
  Qed.

  (** threads *)
  Lemma bank_disciplined sig ops : @disciplined (bank A) (bank_out A) (bank_thread sig ops).
  Proof.
    induction ops as [|op ops IH]; cbn; constructor; auto. intros X f F m l. destruct op; try discriminate; cbn in F; destruct F as [<-|[]]; reflexivity.
  Qed.
End Bank.
