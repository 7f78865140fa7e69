(** What the workers making an extended matrix are given to do; the extended matrix they make. *)
From Coq Require Import List ZArith Arith Bool Sorted Permutation Lia.
From Verif Require Import CoreModel FieldModel FieldProofs AlgModel InfModel InfSpec TreeModel TreeSpec TreeProofs MatModel MatProofs
  FTabModel FTabSpec FTabListProofs FTabProofs FTabTableProofs FTabProductProofs FTabValueProofs ExtMatModel ExtMatSpec ExtMatProofs ExtMatParProofs.
Import ListNotations.

Lemma collect_map {X Y} (f : X -> fout Y) g l : (forall x, In x l -> f x = FOk (g x)) -> collect f l = FOk (map g l).
Proof. induction l as [|x l IH]; intros H; [reflexivity|]. cbn. rewrite (H x (or_introl eq_refl)). cbn [fbind]. rewrite IH; [reflexivity|]. intros y I. apply H. now right. Qed.
Lemma collect_undef {X Y} (f : X -> fout Y) l x : In x l -> f x = FUndef -> (forall y, In y l -> f y = FUndef \/ exists z, f y = FOk z) -> collect f l = FUndef.
Proof.
  induction l as [|y l IH]; intros I Hx H; [destruct I|]. cbn. destruct I as [->|I]; [now rewrite Hx|]. destruct (H y (or_introl eq_refl)) as [->|[z ->]]; [reflexivity|]. cbn [fbind].
  rewrite IH; auto. intros a Ia. apply H. now right.
Qed.
Lemma in_combine_seq {X} (l : list X) : forall s i x, In (i, x) (List.combine (seq s (length l)) l) <-> s <= i /\ nth_error l (i - s) = Some x.
Proof.
  induction l as [|a l IH]; intros s i x; cbn; [split; [intros []|intros [_ H]; destruct (i - s); discriminate]|]. rewrite IH. split.
  - intros [E|[H1 H2]]; [injection E as <- <-; rewrite Nat.sub_diag; split; [lia|reflexivity]|]. split; [lia|]. replace (i - s) with (S (i - S s)) by lia. exact H2.
  - intros [H1 H2]. destruct (Nat.eq_dec i s) as [->|N]; [rewrite Nat.sub_diag in H2; cbn in H2; injection H2 as ->; now left|right]. split; [lia|]. replace (i - s) with (S (i - S s)) in H2 by lia. exact H2.
Qed.
Lemma nth_skip {X} (l : list X) : forall a i, nth_error (skipn a l) i = nth_error l (a + i).
Proof. induction l as [|x l IH]; intros a i; [rewrite skipn_nil; destruct i, (a + 0), a; reflexivity || (destruct (a + S i); reflexivity) || idtac; now destruct (S a + S i)|destruct a; [reflexivity|cbn; apply IH]]. Qed.

Section Prog.
  Variables (outcomes : list nat) (srcs : list (list nat)) (nt : network) (L : nat).
  Hypothesis MK : make_network outcomes srcs = Some nt.
  Notation sound_table := (sound_table srcs nt L).
  Notation factor_list := (factor_list srcs nt L).
  Variables (t : ftab) (cols exts : list nat) (workers : nat).
  Hypothesis S1 : sound_table t.
  Hypothesis Hc : forall k, In k cols -> k < length (ft_syms t).
  Hypothesis He : forall k, In k exts -> k < length (ft_syms t).
  Notation n := (length cols).
  Definition fa (k : nat) : list nat := match nth_error (ft_entries t) k with Some e => fe_syms e | None => [] end.
  Lemma fa_factors k : k < length (ft_syms t) -> factors t k (fa k) /\ factors_by_id t k = FOk (fa k) /\ factor_list t (fa k).
  Proof.
    intros Lk. destruct (known srcs nt L t k S1 Lk) as [e [E1 E2]]. unfold fa, factors_by_id. rewrite E1, E2. cbn [fbind]. split; [now exists e|]. split; [reflexivity|].
    apply (factors_list outcomes srcs nt L MK t k (fe_syms e) S1). now exists e.
  Qed.
  Definition side (col : nat) : list action :=
    ACopy col :: map (fun x => AReq (combine_factors (fa (nth col cols 0)) (fa (snd x))) (both (fst x) col)) (List.combine (seq n (length exts)) exts).
  Definition cornr (j : nat) : list action :=
    AReq (combine_factors (fa (nth j exts 0)) (fa (nth j exts 0))) [(n + j, n + j)] ::
    map (fun x => AReq (combine_factors (fa (nth j exts 0)) (fa (snd x))) (both (fst x) (n + j))) (List.combine (seq (n + S j) (length (skipn (S j) exts))) (skipn (S j) exts)).
  Definition prog_of (w : nat) : list action :=
    concat (map side (strided n w workers n)) ++ concat (map cornr (strided (length exts) w workers (length exts))).
  Lemma requests_ok colf col row l : (forall k, In k l -> k < length (ft_syms t)) ->
    requests t colf col row l = FOk (map (fun x => AReq (combine_factors colf (fa (snd x))) (both (fst x) col)) (List.combine (seq row (length l)) l)).
  Proof.
    intros H. unfold requests. apply collect_map. intros [i x] I. apply in_combine_r in I. cbn [fst snd]. destruct (fa_factors x (H x I)) as [_ [-> _]]. reflexivity.
  Qed.
  Lemma nth_in_range l j : (forall k, In k l -> k < length (ft_syms t)) -> j < length l -> nth j l 0 < length (ft_syms t).
  Proof. intros H Lj. apply H. now apply nth_In. Qed.
  Lemma program_ok w : w < workers -> program t cols exts workers w = FOk (prog_of w).
  Proof.
    intros Hw. unfold program. rewrite (collect_map _ side).
    - cbn [fbind]. rewrite (collect_map _ cornr); [reflexivity|]. intros j I. apply strided_mod in I; [|exact Hw]. destruct I as [Lj _].
      destruct (fa_factors (nth j exts 0) (nth_in_range exts j He Lj)) as [_ [-> _]]. cbn [fbind]. rewrite requests_ok; [reflexivity|]. intros k Ik. apply He. rewrite <- (firstn_skipn (S j) exts). apply in_app_iff. now right.
    - intros j I. apply strided_mod in I; [|exact Hw]. destruct I as [Lj _].
      destruct (fa_factors (nth j cols 0) (nth_in_range cols j Hc Lj)) as [_ [-> _]]. cbn [fbind]. rewrite requests_ok; [reflexivity|exact He].
  Qed.
  Definition progs_of : list (list action) := map prog_of (seq 0 workers).

  (** the three kinds of actions *)
  Inductive kind : action -> Prop :=
  | KCopy col : col < n -> kind (ACopy col)
  | KSide col j a b : nth_error cols col = Some a -> nth_error exts j = Some b -> kind (AReq (combine_factors (fa a) (fa b)) (both (n + j) col))
  | KDiag j a : nth_error exts j = Some a -> kind (AReq (combine_factors (fa a) (fa a)) [(n + j, n + j)])
  | KCorner i j a b : j < i -> nth_error exts j = Some a -> nth_error exts i = Some b -> kind (AReq (combine_factors (fa a) (fa b)) (both (n + i) (n + j))).
  Lemma nth_of l j : j < length l -> nth_error l j = Some (nth j l 0).
  Proof. intros H. now apply nth_error_nth'. Qed.
  Lemma prog_kind p a : In p progs_of -> In a p -> kind a.
  Proof.
    intros Ip Ia. apply in_map_iff in Ip. destruct Ip as [w [<- Iw]]. apply in_seq in Iw. unfold prog_of in Ia. apply in_app_iff in Ia. destruct Ia as [Ia|Ia]; apply in_concat in Ia; destruct Ia as [l [Il Ia]]; apply in_map_iff in Il;
      destruct Il as [j [<- Ij]]; apply strided_mod in Ij; try lia; destruct Ij as [Lj _]; destruct Ia as [<-|Ia].
    - now constructor.
    - apply in_map_iff in Ia. destruct Ia as [[i x] [<- Ix]]. apply in_combine_seq in Ix. cbn [fst snd]. destruct Ix as [Li Ex]. replace i with (n + (i - n)) by lia. apply KSide; [now apply nth_of|exact Ex].
    - apply KDiag. now apply nth_of.
    - apply in_map_iff in Ia. destruct Ia as [[i x] [<- Ix]]. apply in_combine_seq in Ix. cbn [fst snd]. destruct Ix as [Li Ex]. rewrite nth_skip in Ex. replace (S j + (i - (n + S j))) with (i - n) in Ex by lia. replace i with (n + (i - n)) at 1 by lia.
      apply KCorner; [lia|now apply nth_of|exact Ex].
  Qed.
  Lemma in_progs (p : list action) w : w < workers -> p = prog_of w -> In p progs_of.
  Proof. intros H ->. apply in_map. apply in_seq. lia. Qed.
  Lemma kind_prog a : 0 < workers -> kind a -> exists p, In p progs_of /\ In a p.
  Proof.
    intros W [col Hcol|col j x y Hx Hy|j x Hx|i j x y Lt Hx Hy].
    - exists (prog_of (col mod workers)). split; [apply (in_progs _ (col mod workers)); [apply Nat.mod_upper_bound; lia|reflexivity]|]. apply in_app_iff. left. apply in_concat. exists (side col). split; [|now left].
      apply in_map. apply strided_mod; [apply Nat.mod_upper_bound; lia|]. auto.
    - assert (Lc : col < n) by (apply nth_error_Some; congruence). assert (x = nth col cols 0) as -> by (apply nth_of in Lc; congruence).
      exists (prog_of (col mod workers)). split; [apply (in_progs _ (col mod workers)); [apply Nat.mod_upper_bound; lia|reflexivity]|]. apply in_app_iff. left. apply in_concat. exists (side col). split.
      + apply in_map. apply strided_mod; [apply Nat.mod_upper_bound; lia|]. auto.
      + right. apply in_map_iff. exists (n + j, y). split; [reflexivity|]. apply in_combine_seq. split; [lia|]. replace (n + j - n) with j by lia. exact Hy.
    - assert (Lj : j < length exts) by (apply nth_error_Some; congruence). assert (x = nth j exts 0) as -> by (apply nth_of in Lj; congruence).
      exists (prog_of (j mod workers)). split; [apply (in_progs _ (j mod workers)); [apply Nat.mod_upper_bound; lia|reflexivity]|]. apply in_app_iff. right. apply in_concat. exists (cornr j). split; [|now left].
      apply in_map. apply strided_mod; [apply Nat.mod_upper_bound; lia|]. auto.
    - assert (Lj : j < length exts) by (apply nth_error_Some; congruence). assert (x = nth j exts 0) as -> by (apply nth_of in Lj; congruence).
      exists (prog_of (j mod workers)). split; [apply (in_progs _ (j mod workers)); [apply Nat.mod_upper_bound; lia|reflexivity]|]. apply in_app_iff. right. apply in_concat. exists (cornr j). split.
      + apply in_map. apply strided_mod; [apply Nat.mod_upper_bound; lia|]. auto.
      + right. apply in_map_iff. exists (n + i, y). split; [reflexivity|]. apply in_combine_seq. split; [lia|]. rewrite nth_skip. replace (S j + (n + i - (n + S j))) with i by lia. exact Hy.
  Qed.
  Lemma kind_good ks cells : kind (AReq ks cells) -> factor_list t ks.
  Proof.
    intros K. inversion K as [|col j x y Hx Hy|j x Hx|i j x y Lt Hx Hy]; subst; apply combine_list; try assumption; apply fa_factors;
      first [apply Hc; eapply nth_error_In; eassumption|apply He; eapply nth_error_In; eassumption].
  Qed.
  Lemma asked_good ks : asked progs_of ks -> factor_list t ks.
  Proof. intros [p [cells [Ip Ia]]]. apply (kind_good ks cells). now apply (prog_kind p). Qed.
  Lemma same_cells p p' a a' x : In p progs_of -> In p' progs_of -> In a p -> In a' p' -> In x (cells_of n a) -> In x (cells_of n a') ->
    match a, a' with ACopy _, ACopy _ => True | AReq ks _, AReq ks' _ => ks = ks' | _, _ => False end.
  Proof.
    intros Ip Ip' Ia Ia' Ix Ix'. apply (prog_kind p) in Ia; [|exact Ip]. apply (prog_kind p') in Ia'; [|exact Ip']. destruct x as [r q].
    assert (Cp : forall col, In (r, q) (cells_of n (ACopy col)) -> col < n -> r < n /\ q < n).
    { intros col I Lc. cbn in I. apply in_map_iff in I. destruct I as [i [E I]]. injection E as <- <-. apply in_seq in I. lia. }
    assert (Sd : forall col j, In (r, q) (both (n + j) col) -> (r = n + j /\ q = col) \/ (r = col /\ q = n + j)) by (intros col j [E|[E|[]]]; injection E as <- <-; auto).
    assert (Lc : forall col (y : nat), nth_error cols col = Some y -> col < n) by (intros; apply nth_error_Some; congruence).
    destruct Ia as [c1 H1|c1 j1 x1 y1 Hx1 Hy1|j1 x1 Hx1|i1 j1 x1 y1 Lt1 Hx1 Hy1]; destruct Ia' as [c2 H2|c2 j2 x2 y2 Hx2 Hy2|j2 x2 Hx2|i2 j2 x2 y2 Lt2 Hx2 Hy2]; cbn [cells_of] in Ix, Ix'; try exact I.
    all: try (apply Cp in Ix; [|assumption]); try (apply Cp in Ix'; [|assumption]).
    all: try (apply Lc in Hx1 as Lc1); try (apply Lc in Hx2 as Lc2).
    all: try (apply Sd in Ix); try (apply Sd in Ix').
    all: try (destruct Ix as [Ix|[]]; injection Ix as <- <-); try (destruct Ix' as [Ix'|[]]; injection Ix' as Ix1' Ix2').
    all: try lia.
    - assert (c1 = c2) as -> by lia. assert (j1 = j2) as -> by lia. congruence.
    - assert (j1 = j2) as -> by lia. congruence.
    - assert (j1 = j2) as -> by lia. assert (i1 = i2) as -> by lia. congruence.
  Qed.
  (** when everything has one factor *)
  Lemma combine_two a b : a <> 0 -> b <> 0 -> length (combine_factors [a] [b]) <= 2.
  Proof.
    intros Ha Hb. rewrite combine_cons. cbn [nmerge]. destruct (b <? a); cbn [nmerge hd]; (match goal with |- context [?z =? 0] => destruct (Nat.eqb_spec z 0); [lia|] end);
      cbn [drop_to]; repeat (match goal with |- context [if ?z then _ else _] => destruct z end; cbn [length]; try lia).
  Qed.
  Lemma short_no_clash : (forall k, In k cols \/ In k exts -> exists j, j <> 0 /\ factors t k [j]) -> ~ clash t progs_of.
  Proof.
    intros Sh [a [x [r [Aa [Ab [Fa Fb]]]]]]. pose proof (request_len outcomes srcs nt L MK t progs_of S1 asked_good a Aa Fa) as La.
    assert (Lb : length (a ++ x :: r) <= 2); [|rewrite app_length in Lb; cbn in Lb; lia].
    destruct Ab as [p [cells [Ip Ib]]]. apply (prog_kind p) in Ib; [|exact Ip].
    assert (Sf : forall k, In k cols \/ In k exts -> exists j, j <> 0 /\ fa k = [j]).
    { intros k Hk. destruct (Sh k Hk) as [j [Nj [e [H1 H2]]]]. exists j. split; [exact Nj|]. unfold fa. now rewrite H1. }
    assert (Ic : forall l j (u : nat), nth_error l j = Some u -> In u l) by (intros; eapply nth_error_In; eassumption).
    revert Ib. generalize (a ++ x :: r). intros b Ib. inversion Ib as [|col j u v Hx Hy|j u Hx|i j u v Lt Hx Hy]; subst; apply Ic in Hx; try apply Ic in Hy.
    - destruct (Sf u (or_introl Hx)) as [p1 [N1 ->]], (Sf v (or_intror Hy)) as [p2 [N2 ->]]. now apply combine_two.
    - destruct (Sf u (or_intror Hx)) as [p1 [N1 ->]]. now apply combine_two.
    - destruct (Sf u (or_intror Hx)) as [p1 [N1 ->]], (Sf v (or_intror Hy)) as [p2 [N2 ->]]. now apply combine_two.
  Qed.

  (** * The matrix *)
  Variables (A : Type) (mono : nat -> A) (src : nat -> nat -> A) (grow_to : nat -> nat).
  Lemma request_written s ks cells : 0 < workers -> inv A mono t n src progs_of s -> mdone progs_of s -> kind (AReq ks cells) ->
    exists id, factors (fst (mfinish t grow_to s)) id ks /\ forall i j, In (i, j) cells -> ms_mat s i j = mono id.
  Proof.
    intros W I Dn K. destruct (kind_prog _ W K) as [p [Ip Ia]]. destruct (done_written _ _ _ _ _ _ s p (AReq ks cells) I Dn Ip Ia) as [id [G H]]. exists id. split; [|exact H].
    apply (given_factors outcomes srcs nt L MK A mono t n src progs_of S1 asked_good grow_to s ks id I G).
  Qed.
  Lemma finish_matrix s : 0 < workers -> inv A mono t n src progs_of s -> mdone progs_of s ->
    let t' := fst (mfinish t grow_to s) in sound_table t' /\ grows t t' /\ fresh t t' /\ extended mono t' src cols exts (snd (mfinish t grow_to s)).
  Proof.
    intros W I Dn t'. destruct (finish_step outcomes srcs nt L MK A mono t n src progs_of S1 asked_good grow_to s I) as [B1 [B2 B3]]. fold t' in B1, B2, B3. split; [exact B1|]. split; [exact B2|]. split; [exact B3|].
    assert (In' : forall (l : list nat) j x, nth_error l j = Some x -> In x l) by (intros l j x H; eapply nth_error_In; exact H). constructor; cbn [mfinish snd].
    - intros i j Li Lj. destruct (kind_prog (ACopy j) W (KCopy j Lj)) as [p [Ip Ia]]. apply (done_written _ _ _ _ _ _ s p (ACopy j) I Dn Ip Ia). cbn. apply in_map_iff. exists i. split; [reflexivity|]. apply in_seq. lia.
    - intros i j a b Ha Hb. destruct (request_written s _ _ W I Dn (KSide i j a b Ha Hb)) as [id [F H]]. exists id. rewrite !H by (cbn; auto). split; [reflexivity|]. split; [reflexivity|].
      apply (prodsym_ok outcomes srcs nt L MK); [exact B1|]. exists (fa a), (fa b). split; [apply (grows_factors t); [exact B2|]; apply fa_factors; eauto|]. split; [apply (grows_factors t); [exact B2|]; apply fa_factors; eauto|exact F].
    - assert (C : forall i j a b, j < i -> nth_error exts i = Some a -> nth_error exts j = Some b -> exists id, ms_mat s (n + i) (n + j) = mono id /\ ms_mat s (n + j) (n + i) = mono id /\ product_symbol t' id b a).
      { intros i j a b Lt Ha Hb. destruct (request_written s _ _ W I Dn (KCorner i j b a Lt Hb Ha)) as [id [F H]]. exists id. rewrite !H by (cbn; auto). split; [reflexivity|]. split; [reflexivity|].
        apply (prodsym_ok outcomes srcs nt L MK); [exact B1|]. exists (fa b), (fa a). split; [apply (grows_factors t); [exact B2|]; apply fa_factors; eauto|]. split; [apply (grows_factors t); [exact B2|]; apply fa_factors; eauto|exact F]. }
      intros i j a b Ha Hb. destruct (lt_eq_lt_dec i j) as [[Lt| ->]|Lt].
      + destruct (C j i b a Lt Hb Ha) as [id [X [Y Z]]]. exists id. auto.
      + assert (a = b) as -> by congruence. destruct (request_written s _ _ W I Dn (KDiag j b Hb)) as [id [F H]]. exists id. rewrite !H by (cbn; auto). split; [reflexivity|]. split; [reflexivity|].
        apply (prodsym_ok outcomes srcs nt L MK); [exact B1|]. exists (fa b), (fa b). split; [apply (grows_factors t); [exact B2|]; apply fa_factors; eauto|]. split; [apply (grows_factors t); [exact B2|]; apply fa_factors; eauto|exact F].
      + destruct (C i j a b Lt Ha Hb) as [id [X [Y Z]]]. exists id. split; [exact X|]. split; [exact Y|]. now apply prodsym_sym_value.
  Qed.
  Lemma programs_ok : programs t cols exts workers = FOk progs_of.
  Proof. unfold programs. apply collect_map. intros w I. apply in_seq in I. apply program_ok. lia. Qed.
  Lemma parallel_ok : 0 < workers -> exists progs, programs t cols exts workers = FOk progs /\ forall order,
    (mrun mono t n src progs (mstart mono progs) order = FTerminate /\ clash t progs) \/
    exists s, mrun mono t n src progs (mstart mono progs) order = FOk s /\
      ((forall w prog, nth_error progs w = Some prog -> 2 * length prog <= count_occ Nat.eq_dec order w) -> mdone progs s) /\
      (mdone progs s -> let t' := fst (mfinish t grow_to s) in sound_table t' /\ grows t t' /\ fresh t t' /\ extended mono t' src cols exts (snd (mfinish t grow_to s))).
  Proof.
    intros W. exists progs_of. split; [apply programs_ok|]. intros order.
    destruct (run_ok srcs nt L A mono t n src progs_of asked_good same_cells order _ (start_inv A mono t n src progs_of)) as [[s [E [I _]]]|[E C]]; [|left; auto].
    right. exists s. split; [exact E|]. split; [|intros Dn; now apply finish_matrix].
    intros Hk. now apply (run_done srcs nt L A mono t n src progs_of asked_good same_cells order).
  Qed.
  Lemma parallel_single : (forall k, In k cols \/ In k exts -> exists j, j <> 0 /\ factors t k [j]) -> exists progs, programs t cols exts workers = FOk progs /\ ~ clash t progs.
  Proof. intros H. exists progs_of. split; [apply programs_ok|now apply short_no_clash]. Qed.
End Prog.
