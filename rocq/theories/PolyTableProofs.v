(** Polynomials and symbol tables: term orders, tables without null symbols, polynomials built from operator polynomials. *)
From Coq Require Import List NArith ZArith Arith Bool Sorted Permutation Lia Ring Field.
From Verif Require Import CoreModel CoreSpec FieldModel FieldProofs SymModel SymSpec SymProofs SymFinalProofs SymMoreProofs PolyModel PolySpec PolyProofs PolyOpsProofs.
Import ListNotations.

(** * Orders *)
Lemma pair_less_spec x y : pair_less x y = true <-> (fst x < fst y)%N \/ (fst x = fst y /\ (snd x < snd y)%N).
Proof.
  unfold pair_less. destruct (N.ltb_spec (fst x) (fst y)); cbn; [split; auto|]. destruct (N.ltb_spec (fst y) (fst x)); cbn; [split; [discriminate|lia]|].
  rewrite N.ltb_lt. lia.
Qed.
Section Orders.
  Variable R : rfield.
  Notation mono := (mono R).
  Lemma id_less_order t : term_order t (@id_less R).
  Proof.
    exists N.of_nat. split; [intros; lia|]. intros x y _ _. unfold id_less. destruct (Nat.ltb_spec (m_id x) (m_id y)); [split; [lia|auto]|].
    destruct (Nat.ltb_spec (m_id y) (m_id x)); [split; [discriminate|lia]|]. destruct (m_cj x), (m_cj y); cbn; split; intros; try discriminate; try lia; auto; try (right; repeat split; auto; lia);
    match goal with H : _ \/ _ |- _ => destruct H as [H|[_ [? ?]]]; [lia|discriminate] end.
  Qed.
  Lemma id_more_order t : term_order t (@id_more R).
  Proof.
    exists (fun i => N.of_nat (length (t_syms t) - i)). split; [intros; lia|]. intros x y Kx Ky. unfold in_table in *. unfold id_more. destruct (Nat.ltb_spec (m_id y) (m_id x)); [split; [lia|auto]|].
    destruct (Nat.ltb_spec (m_id x) (m_id y)); [split; [discriminate|lia]|]. destruct (m_cj x), (m_cj y); cbn; split; intros; try discriminate; try lia; auto; try (right; repeat split; auto; lia);
    match goal with H : _ \/ _ |- _ => destruct H as [H|[_ [? ?]]]; [lia|discriminate] end.
  Qed.
  Lemma id_less_keys (x y : mono) : id_less x y = pair_less (id_less_key x) (id_less_key y).
  Proof.
    apply eq_true_iff_eq. rewrite pair_less_spec. unfold id_less, id_less_key. cbn [fst snd]. destruct (Nat.ltb_spec (m_id x) (m_id y)); [split; [lia|auto]|].
    destruct (Nat.ltb_spec (m_id y) (m_id x)); [split; [discriminate|lia]|]. destruct (m_cj x), (m_cj y); cbn; split; intros; try discriminate; try lia; auto.
  Qed.
  Lemma id_more_keys (x y : mono) : (N.of_nat (m_id x) <= uint64_max)%N -> (N.of_nat (m_id y) <= uint64_max)%N -> id_more x y = pair_less (id_more_key x) (id_more_key y).
  Proof.
    intros Bx By. apply eq_true_iff_eq. rewrite pair_less_spec. unfold id_more, id_more_key. cbn [fst snd]. destruct (Nat.ltb_spec (m_id y) (m_id x)); [split; [lia|auto]|].
    destruct (Nat.ltb_spec (m_id x) (m_id y)); [split; [discriminate|lia]|]. destruct (m_cj x), (m_cj y); cbn [cj_num Bool.eqb negb]; split; intros; try discriminate; try lia; auto.
  Qed.
  Lemma sym_of_word t id : sy_seq (sym_of t id) = symbol_word t id.
  Proof. unfold sym_of, symbol_word. destruct (nth_error (t_syms t) id) as [s|] eqn:E; [now rewrite (nth_error_nth _ _ _ E)|]. rewrite nth_overflow; [reflexivity|now apply nth_error_None]. Qed.
  Lemma lexi K a b x y : (x < K)%N -> (y < K)%N -> (a * K + x < b * K + y <-> a < b \/ (a = b /\ x < y))%N.
  Proof.
    intros Hx Hy. destruct (N.lt_trichotomy a b) as [H|[->|H]].
    - assert ((a + 1) * K <= b * K)%N by (apply N.mul_le_mono_r; lia). lia.
    - lia.
    - assert ((b + 1) * K <= a * K)%N by (apply N.mul_le_mono_r; lia). lia.
  Qed.
  Lemma lexi_eq K a b x y : (x < K)%N -> (y < K)%N -> (a * K + x = b * K + y -> a = b /\ x = y)%N.
  Proof.
    intros Hx Hy E. destruct (N.lt_trichotomy a b) as [H|[->|H]].
    - assert ((a + 1) * K <= b * K)%N by (apply N.mul_le_mono_r; lia). lia.
    - lia.
    - assert ((b + 1) * K <= a * K)%N by (apply N.mul_le_mono_r; lia). lia.
  Qed.
  Lemma hash_order c V t : lawful c V -> reachable c V t -> term_order t (@hash_less R t).
  Proof.
    intros LW RT. pose proof (reachable_hinv c V LW t RT) as I. set (n := length (t_syms t)). set (K := N.of_nat (2 * n + 2)).
    set (h := fun id => match symbol_word t id with Some q => hs_hash q | None => uint64_max end).
    set (k := fun id => match symbol_word t id with Some q => 0%N | None => (N.of_nat id * 2)%N end).
    assert (BK : forall id, id < n -> (k id < K)%N) by (intros id H; unfold k, K; destruct (symbol_word t id); lia).
    assert (INJ : forall i j q q', symbol_word t i = Some q -> symbol_word t j = Some q' -> hs_hash q = hs_hash q' -> i = j).
    { intros i j q q' A B E. destruct (hi_seq c V t I _ _ A) as (_ & A' & _). destruct (hi_seq c V t I _ _ B) as (_ & B' & _). rewrite E in A'. rewrite A' in B'. injection B'. lia. }
    assert (BIG : forall i, symbol_word t i = None -> 2 <= i).
    { intros [|[|i]] H; [rewrite (hi_zero c V t I) in H; discriminate|rewrite (hi_one c V t I) in H; discriminate|lia]. }
    exists (fun id => (h id * K + k id)%N). split.
    - intros i j Hi Hj E. apply lexi_eq in E; [|now apply BK|now apply BK]. destruct E as [E1 E2]. unfold h, k in *.
      destruct (symbol_word t i) as [q|] eqn:A, (symbol_word t j) as [q'|] eqn:B; [exact (INJ _ _ _ _ A B E1)| | |lia].
      + apply BIG in B. lia.
      + apply BIG in A. lia.
    - intros x y Kx Ky. unfold hash_less. rewrite pair_less_spec, lexi by (apply BK; assumption). unfold hash_key. rewrite !sym_of_word. unfold h, k.
      destruct (symbol_word t (m_id x)) as [q|] eqn:A, (symbol_word t (m_id y)) as [q'|] eqn:B; cbn [fst snd].
      + split; [intros [H|[H1 H2]]; [auto|right]|intros [[H|[H1 H2]]|[H1 [H2 H3]]]; [auto|lia|right]].
        * repeat split; [exact (INJ _ _ _ _ A B H1)|destruct (m_cj x); [destruct (m_cj y); cbn in H2; lia|reflexivity]|destruct (m_cj y); [reflexivity|destruct (m_cj x); cbn in H2; lia]].
        * rewrite H1 in A. rewrite A in B. injection B as ->. rewrite H2, H3. cbn. lia.
      + pose proof (BIG _ B) as G. split; [intros [H|[H1 H2]]; [auto|left; right; split; [exact H1|lia]]|intros [[H|[H1 H2]]|[H1 [H2 H3]]]; [auto|right; split; [exact H1|destruct (m_cj x), (m_cj y); cbn; lia]|congruence]].
      + pose proof (BIG _ A) as G. split; [intros [H|[H1 H2]]; [auto|destruct (m_cj x), (m_cj y); cbn in H2; lia]|intros [[H|[H1 H2]]|[H1 [H2 H3]]]; [auto|lia|congruence]].
      + split; [intros [H|[_ H2]]; [lia|]|intros [[H|[_ H2]]|[H1 [H2 H3]]]; [lia|right; split; [reflexivity|destruct (m_cj x), (m_cj y); cbn; lia]|right; split; [reflexivity|rewrite H1, H2, H3; cbn; lia]]].
        destruct (Nat.lt_trichotomy (m_id x) (m_id y)) as [L|[L|L]]; [left; right; split; [reflexivity|lia]| |exfalso; destruct (m_cj x), (m_cj y); cbn in H2; lia].
        right. rewrite L in H2. destruct (m_cj x), (m_cj y); cbn in H2; solve [lia|auto].
  Qed.
End Orders.

(** * Null symbols *)
Definition alive (s : symbol) : Prop := sy_herm s = true -> sy_anti s = true -> False.
Lemma flag_loop_alive re im todo : forall done ch0 l b, flag_loop re im done todo ch0 = (l, Some b, false) ->
  exists todo', l = done ++ todo' /\ Forall2 (fun s s' => sy_id s' = sy_id s /\ (sy_id s <> 0 -> alive s -> alive s' /\ (sy_herm s = true -> sy_herm s' = true))) todo todo'.
Proof.
  induction todo as [|s todo IH]; intros done ch0 l b H; cbn [flag_loop] in H.
  - injection H as <- <-. exists []. rewrite app_nil_r. split; [reflexivity|constructor].
  - assert (K : forall s' d, sy_id s' = sy_id s /\ (sy_id s <> 0 -> alive s -> alive s' /\ (sy_herm s = true -> sy_herm s' = true)) -> flag_loop re im (done ++ [s']) todo d = (l, Some b, false) ->
      exists todo', l = done ++ todo' /\ Forall2 (fun s s' => sy_id s' = sy_id s /\ (sy_id s <> 0 -> alive s -> alive s' /\ (sy_herm s = true -> sy_herm s' = true))) (s :: todo) todo').
    { intros s' d A E. apply IH in E as (m & -> & F). exists (s' :: m). rewrite <- app_assoc. split; [reflexivity|now constructor]. }
    destruct (Nat.eqb_spec (sy_id s) 0) as [Z|Z]; [refine (K _ _ _ H); split; [reflexivity|intro N; now destruct (N Z)]|].
    destruct (nth_error re (sy_id s)) as [r|]; [|discriminate]. destruct (nth_error im (sy_id s)) as [i|]; [|discriminate]. destruct r, i; try discriminate.
    + apply (K s _ (conj eq_refl (fun _ A => conj A (fun h => h))) H).
    + destruct (sy_anti s) eqn:A; [discriminate|]. refine (K _ _ _ H). split; [reflexivity|]. intros _ _. split; [intros _ Q; cbn in Q; congruence|reflexivity].
    + destruct (sy_herm s) eqn:A; [discriminate|]. refine (K _ _ _ H). split; [reflexivity|]. intros _ _. split; [intros Q _; cbn in Q; congruence|discriminate].
Qed.
Definition lively (t : table) : Prop := (exists s0 s1 l, t_syms t = s0 :: s1 :: l /\ sy_herm s1 = true /\ Forall alive (s1 :: l)).
Lemma lively_app t t' l : lively t -> t_syms t' = t_syms t ++ l -> Forall alive l -> lively t'.
Proof.
  intros (s0 & s1 & m & E & H & F) E' F'. exists s0, s1, (m ++ l). rewrite E', E. repeat split; auto. change (s1 :: m ++ l) with ((s1 :: m) ++ l). now apply Forall_app.
Qed.
Lemma merge_symbol_adds t s t' id : merge_symbol t s = Done t' id -> exists l, t_syms t' = t_syms t ++ l /\ (alive s -> Forall alive l).
Proof.
  unfold merge_symbol. destruct (sy_hash s) as [h|]; [|discriminate]. destruct (sy_hash_conj s) as [hc|]; [|discriminate]. destruct (hfind h (t_hash t)) as [v|].
  - destruct (nth_error (t_syms t) (Z.abs_nat v)); [|discriminate]. intro E. injection E as <- <-. exists []. rewrite app_nil_r. split; [reflexivity|constructor].
  - cbn [basis_push]. intro E. injection E as <- <-. eexists. split; [reflexivity|]. intro A. constructor; [exact A|constructor].
Qed.
Lemma symbol_one_alive q : alive (symbol_one q). Proof. intros _ Q. discriminate Q. Qed.
Lemma symbol_pair_alive q c : alive (symbol_pair q c).
Proof. intros A B. cbn in A, B. rewrite A in B. discriminate B. Qed.
Lemma map_emplace_alive h s m : alive s -> Forall alive (map snd m) -> Forall alive (map snd (map_emplace h s m)).
Proof.
  intro A. induction m as [|[k v] m IH]; intro F; cbn; [repeat constructor; exact A|]. inversion F as [|? ? F1 F2]. subst.
  destruct (N.ltb h k); [constructor; [exact A|exact F]|]. destruct (N.eqb h k); [exact F|]. constructor; [exact F1|now apply IH].
Qed.
Lemma fill_alive c osg : forall m, Forall alive (map snd m) -> Forall alive (map snd (fold_left (fill_entry c) osg m)).
Proof.
  induction osg as [|q osg IH]; intros m F; cbn [fold_left]; [exact F|]. apply IH. unfold fill_entry. destruct (cx_alias c && cx_reducible c q); [exact F|].
  destruct (N.eqb _ _); [apply map_emplace_alive; [apply symbol_one_alive|exact F]|]. destruct (N.ltb _ _); [apply map_emplace_alive; [apply symbol_pair_alive|exact F]|exact F].
Qed.
Lemma merge_alive l : Forall alive l -> forall t t' x, merge_symbols t l = Done t' x -> exists m, t_syms t' = t_syms t ++ m /\ Forall alive m.
Proof.
  induction 1 as [|s l A _ IH]; intros t t' x E; cbn in E; [injection E as <- <-; exists []; rewrite app_nil_r; split; [reflexivity|constructor]|].
  destruct (merge_symbol t s) as [t1 id| |] eqn:M; try discriminate. destruct (merge_symbols t1 l) as [t2 ids| |] eqn:M2; try discriminate. injection E as <- <-.
  destruct (merge_symbol_adds t s t1 id M) as (m1 & E1 & F1). destruct (IH t1 t2 ids M2) as (m2 & E2 & F2). exists (m1 ++ m2). rewrite E2, E1, app_assoc. split; [reflexivity|].
  apply Forall_app. auto.
Qed.
Section Sessions.
  Variables (c : sctx) (V : hseq -> Prop).
  Hypothesis LW : lawful c V.
  Lemma merge_zero t t' x : hinv c V t -> merge_symbol t symbol_zero = Done t' x -> t' = t.
  Proof.
    intros I E. destruct (hi_seq c V t I 0 _ (hi_zero c V t I)) as (_ & F & _). unfold merge_symbol in E. cbn [sy_hash sy_hash_conj symbol_zero sy_seq sy_conj option_map] in E.
    rewrite F in E. destruct (nth_error (t_syms t) (Z.abs_nat (Z.of_nat 0))); [|discriminate]. now injection E.
  Qed.
  Lemma merge_ok_alive l : Forall (symbol_ok c V) l -> forall t t' x, hinv c V t -> merge_symbols t l = Done t' x -> exists m, t_syms t' = t_syms t ++ m /\ Forall alive m.
  Proof.
    induction 1 as [|s l A _ IH]; intros t t' x I E; cbn in E; [injection E as <- <-; exists []; rewrite app_nil_r; split; [reflexivity|constructor]|].
    destruct (merge_symbol t s) as [t1 id| |] eqn:M; try discriminate. destruct (merge_symbols t1 l) as [t2 ids| |] eqn:M2; try discriminate. injection E as <- <-.
    destruct (symbol_ok_of c V LW s A) as [q S]. destruct (merge_symbol_hinv c V LW t s q t1 id I S M) as [I1 _].
    assert (G : exists m, t_syms t1 = t_syms t ++ m /\ Forall alive m).
    { destruct A as [| |q' Vq Eq|q' Vq].
      - apply merge_zero in M; [|exact I]. subst t1. exists []. rewrite app_nil_r. split; [reflexivity|constructor].
      - destruct (merge_symbol_adds _ _ _ _ M) as (m & Em & Fm). exists m. split; [exact Em|]. apply Fm. intros _ Q. discriminate Q.
      - destruct (merge_symbol_adds _ _ _ _ M) as (m & Em & Fm). exists m. split; [exact Em|apply Fm, symbol_one_alive].
      - destruct (merge_symbol_adds _ _ _ _ M) as (m & Em & Fm). exists m. split; [exact Em|apply Fm, symbol_pair_alive]. }
    destruct G as (m1 & E1 & F1). destruct (IH t1 t2 ids I1 M2) as (m2 & E2 & F2). exists (m1 ++ m2). rewrite E2, E1, app_assoc. split; [reflexivity|].
    apply Forall_app. auto.
  Qed.
  Lemma F2_alive (s0 s1 : symbol) l m : (forall i s, nth_error (s0 :: s1 :: l) i = Some s -> sy_id s = i) -> sy_herm s1 = true -> Forall alive (s1 :: l) ->
    Forall2 (fun s s' => sy_id s' = sy_id s /\ (sy_id s <> 0 -> alive s -> alive s' /\ (sy_herm s = true -> sy_herm s' = true))) (s0 :: s1 :: l) m ->
    exists s0' s1' l', m = s0' :: s1' :: l' /\ sy_herm s1' = true /\ Forall alive (s1' :: l').
  Proof.
    intros ID H F F2. inversion F2 as [|? s0' ? m1 _ F2']. subst. inversion F2' as [|? s1' ? l' [_ P1] F2'']. subst. inversion F as [|? ? A1 A]. subst.
    destruct (P1 ltac:(rewrite (ID 1 s1 eq_refl); lia) A1) as [B1 B2]. exists s0', s1', l'. repeat split; auto. constructor; [exact B1|].
    assert (ID' : forall s, In s l -> sy_id s <> 0).
    { intros s Hs. apply In_nth_error in Hs as [i Hi]. rewrite (ID (S (S i)) s Hi). lia. }
    clear - F2'' A ID'. induction F2'' as [|s s' l l' [_ P] _ IH]; [constructor|]. inversion A. subst. constructor; [apply P; [apply ID'; now left|assumption]|].
    apply IH; [assumption|intros; apply ID'; now right].
  Qed.
  Lemma run_op_lively t o t' : hinv c V t -> op_ok c V o -> creates o -> lively t -> run_op c t o = Done t' tt -> lively t'.
  Proof.
    intros I O K L E. destruct o as [q|l|n r i|re im|len|len]; cbn [run_op op_ok creates] in *.
    - destruct (merge_sequence c t q) as [t1 x| |] eqn:M; cbn in E; try discriminate. injection E as <-. destruct (merge_symbol_adds _ _ _ _ M) as (m & Em & Fm).
      apply (lively_app t t1 m L Em). apply Fm, symbol_pair_alive.
    - destruct (merge_symbols t l) as [t1 x| |] eqn:M; cbn in E; try discriminate. injection E as <-. destruct (merge_ok_alive l O t t1 x I M) as (m & Em & Fm).
      exact (lively_app t t1 m L Em Fm).
    - destruct (create_spec t n r i) as (t1 & l & C & Em & _ & P & _). rewrite C in E. injection E as <-. apply (lively_app t t1 l L Em).
      apply Forall_forall. intros s Hs A B. destruct (P s Hs) as (P1 & P2 & _). rewrite P1 in A. rewrite P2 in B. destruct r, i; discriminate.
    - destruct (merge_bits t re im) as [t1 b| |] eqn:M; cbn in E; try discriminate. injection E as <-. unfold merge_bits in M.
      set (t0 := if Nat.ltb (length (t_syms t)) (length re) then fst (create_many t (length re - length (t_syms t)) true true) else t) in M.
      assert (L0 : lively t0 /\ forall i s, nth_error (t_syms t0) i = Some s -> sy_id s = i).
      { unfold t0. destruct (Nat.ltb (length (t_syms t)) (length re)); [|split; [exact L|apply (hi_id c V t I)]].
        destruct (create_spec t (length re - length (t_syms t)) true true) as (t2 & l & C & Em & _ & P & _). rewrite C. cbn [fst]. split.
        - apply (lively_app t t2 l L Em). apply Forall_forall. intros s Hs A B. destruct (P s Hs) as (P1 & _). rewrite P1 in A. discriminate.
        - assert (R : run_op c t (OCreate (length re - length (t_syms t)) true true) = Done t2 tt) by (cbn [run_op]; now rewrite C).
          destruct (run_op_hinv c V LW t (OCreate (length re - length (t_syms t)) true true) I Logic.I t2 (or_intror R)) as [I2 _]. apply (hi_id c V t2 I2). }
      destruct L0 as [L0 ID]. destruct (flag_loop re im [] (t_syms t0) false) as [[l [b'|]] u] eqn:FL; destruct u; try discriminate. injection M as <- <-.
      destruct (flag_loop_alive re im _ _ _ _ _ FL) as (l' & E' & F2). cbn in E'. subst l'. destruct L0 as (s0 & s1 & m & E0 & H0 & F0). rewrite E0 in F2, ID.
      destruct (F2_alive s0 s1 m l ID H0 F0 F2) as (s0' & s1' & m' & El & Hl & Fl). subst l. unfold renumerate.
      destruct (renumber_flags (t_syms (set_syms t0 (s0' :: s1' :: m'))) (mk_table (t_syms (set_syms t0 (s0' :: s1' :: m'))) (t_hash (set_syms t0 (s0' :: s1' :: m'))) [] [] [] [] (t_map (set_syms t0 (s0' :: s1' :: m'))) (t_map_len (set_syms t0 (s0' :: s1' :: m')))) []) as (r & Er & Fr).
      cbn [set_syms t_syms app] in Er, Fr. unfold lively. cbn [set_syms t_syms]. cbn [set_syms t_syms] in Er. rewrite Er.
      inversion Fr as [|? r0 ? r1 _ Fr1]. subst. inversion Fr1 as [|? r2 ? r3 [P1 P2] Fr2]. subst. exists r0, r2, r3. split; [reflexivity|]. inversion Fl as [|? ? A1 A2]. subst. split; [congruence|].
      constructor; [unfold alive in *; rewrite P1, P2; exact A1|]. clear - Fr2 A2. induction Fr2 as [|s s' l l' [Q1 Q2] _ IH]; [constructor|]. inversion A2. subst. constructor; [unfold alive in *; rewrite Q1, Q2; assumption|now apply IH].
    - destruct (fill_to_word_length c t len) as [t1 x| |] eqn:M; cbn in E; try discriminate. injection E as <-. unfold fill_to_word_length in M.
      destruct (Nat.ltb len (t_map_len t)); [injection M as <- <-; exact L|]. destruct (merge_symbols t _) as [t2 y| |] eqn:M2; try discriminate. injection M as <- <-.
      destruct (merge_alive _ (fill_alive c _ [] (Forall_nil _)) t t2 y M2) as (m & Em & Fm). exact (lively_app t t2 m L Em Fm).
    - destruct (update_map c t len) as [t1 x| |] eqn:M; cbn in E; try discriminate. injection E as <-. unfold update_map in M.
      destruct (Nat.leb len (t_map_len t)); [injection M as <- <-; exact L|]. destruct (map_entries c t _); [|discriminate]. injection M as <- <-. exact L.
  Qed.
  Lemma lively_start : lively table_start.
  Proof. exists symbol_zero, symbol_identity, []. repeat split. constructor; [intros _ Q; discriminate Q|constructor]. Qed.
  Lemma run_ops_lively l : forall t t', hinv c V t -> Forall (op_ok c V) l -> Forall creates l -> lively t -> run_ops c t l = Done t' tt -> lively t'.
  Proof.
    induction l as [|o l IH]; intros t t' I F K L E; cbn in E; [injection E as <-; exact L|]. inversion F as [|? ? Ho Hl]. inversion K as [|? ? Ko Kl]. subst.
    destruct (run_op c t o) as [t1 []| |] eqn:R; try discriminate. destruct (run_op_hinv c V LW t o I Ho t1 (or_intror R)) as [I1 _].
    apply (IH t1 t' I1 Hl Kl); [now apply (run_op_lively t o t1)|exact E].
  Qed.
  Lemma session_no_null l t : Forall (op_ok c V) l -> Forall creates l -> run_ops c table_start l = Done t tt -> starts t /\ no_null t.
  Proof.
    intros F K E. destruct (run_ops_lively l table_start t (start_hinv c V LW) F K lively_start E) as (s0 & s1 & m & Es & H & A). inversion A as [|? ? A1 A2]. subst. split.
    - exists s0, s1, m. repeat split; auto. destruct (sy_anti s1) eqn:Q; [exfalso; now apply A1|reflexivity].
    - intros id P B. rewrite Es in B. unfold herm, anti, sym_of. rewrite Es. destruct id as [|[|id]]; [lia|exact A1|]. cbn [nth]. rewrite Forall_forall in A2. apply A2. apply nth_In. cbn in B. lia.
  Qed.

  (** * Polynomials of operators *)
  Variable R : rfield.
  Add Field Rf3 : (r_field R).
  Add Field Cf3 : (cx_field R).
  Variable E : hseq -> cx R.
  Hypothesis EX : expectation c V R E.
  Hypothesis UC : unsigned_conj c V.
  Notation raw_ok := (@raw_ok R V).
  Lemma lookup_term t t' v q w id : reachable c V t -> later c V t t' -> V q -> agrees E t' v -> lk_symbol (where_ c t q) = Some id ->
    in_table t' (mk_mono id (lk_conj (where_ c t q)) w) /\ term_value v (mk_mono id (lk_conj (where_ c t q)) w) = cmul w (E (pos q)).
  Proof.
    intros RT LT Vq AG H. pose proof (where_value c V LW R E t q id RT Vq EX UC H) as W. unfold symbol_value in W.
    destruct (symbol_word t id) as [u|] eqn:S; [|discriminate]. injection W as W. pose proof (word_len t id u S) as B.
    assert (S' : symbol_word t' id = Some u) by (rewrite (words_kept c V LW t t' id RT LT B); exact S).
    split; [exact (word_len t' id u S')|]. unfold term_value. cbn [m_id m_cj m_f]. rewrite (AG id u S'). now rewrite W.
  Qed.
  Lemma later_refl t : later c V t t. Proof. exists []. split; [constructor|reflexivity]. Qed.
  Lemma storage_spec t v raw l : reachable c V t -> raw_ok raw -> agrees E t v -> storage_from_raw c t raw = Some l ->
    Forall (in_table t) l /\ value v l = raw_value E raw.
  Proof.
    intros RT F AG. revert l. induction F as [|[q w] raw Vq _ IH]; intros l H; cbn [storage_from_raw] in H; [injection H as <-; split; [constructor|reflexivity]|].
    destruct (lk_symbol (where_ c t q)) as [id|] eqn:K; [|discriminate]. destruct (storage_from_raw c t raw) as [l'|]; [|discriminate]. injection H as <-.
    destruct (IH l' eq_refl) as [I1 I2]. destruct (lookup_term t t v q w id RT (later_refl t) Vq AG K) as [T1 T2]. split; [constructor; auto|].
    rewrite value_cons, T2, I2. reflexivity.
  Qed.
  Lemma storage_fails t (raw : list (hseq * cx R)) : storage_from_raw c t raw = None <-> exists x, In x raw /\ lk_symbol (where_ c t (fst x)) = None.
  Proof.
    induction raw as [|[q w] raw IH]; cbn [storage_from_raw]; [split; [discriminate|intros [x [[] _]]]|].
    destruct (lk_symbol (where_ c t q)) as [id|] eqn:K.
    - destruct (storage_from_raw c t raw); cbn [option_map].
      + split; [discriminate|]. intros [x [[<-|H] Q]]; [cbn in Q; congruence|]. assert (Some l = None) by (apply IH; eauto). discriminate.
      + split; [|auto]. intros _. destruct (proj1 IH eq_refl) as [x [H Q]]. exists x. split; [now right|exact Q].
    - split; [|auto]. intros _. exists (q, w). split; [now left|exact K].
  Qed.
  Lemma register_spec : forall (raw : list (hseq * cx R)) t, reachable c V t -> raw_ok raw -> exists t' l, register_from_raw c t raw = Done t' l /\ reachable c V t' /\ later c V t t' /\
    forall t'' v, later c V t' t'' -> agrees E t'' v -> Forall (in_table t'') l /\ value v l = raw_value E raw.
  Proof.
    induction raw as [|[q w] raw IH]; intros t RT F.
    - exists t, []. split; [reflexivity|]. split; [exact RT|]. split; [apply later_refl|]. split; [constructor|reflexivity].
    - inversion F as [|? ? Vq F']. subst. cbn [fst] in Vq. cbn [register_from_raw]. destruct (lk_symbol (where_ c t q)) as [id|] eqn:K.
      + destruct (IH t RT F') as (t' & l & -> & RT' & LT & H). do 2 eexists. split; [reflexivity|]. split; [exact RT'|]. split; [exact LT|].
        intros t'' v L'' AG. destruct (H t'' v L'' AG) as [I1 I2]. destruct (lookup_term t t'' v q w id RT (later_trans c V _ _ _ LT L'') Vq AG K) as [T1 T2].
        split; [constructor; auto|]. rewrite value_cons, T2, I2. reflexivity.
      + destruct (register_done c V LW t q RT Vq) as (t1 & id & M & RT1 & LT1 & _). rewrite M. destruct (where_found c V LW t q t1 id t1 RT Vq M (later_refl t1)) as (i & K1 & _). rewrite K1.
        destruct (IH t1 RT1 F') as (t' & l & -> & RT' & LT & H). do 2 eexists. split; [reflexivity|]. split; [exact RT'|]. split; [exact (later_trans c V _ _ _ LT1 LT)|].
        intros t'' v L'' AG. destruct (H t'' v L'' AG) as [I1 I2]. destruct (lookup_term t1 t'' v q w i RT1 (later_trans c V _ _ _ LT L'') Vq AG K1) as [T1 T2].
        split; [constructor; auto|]. rewrite value_cons, T2, I2. reflexivity.
  Qed.
  Definition word_values (rest : nat -> cx R) (t : table) (id : nat) : cx R := match symbol_word t id with Some w => E (pos w) | None => rest id end.
  Lemma values_agree rest t : agrees E t (word_values rest t).
  Proof. intros id w H. unfold word_values. now rewrite H. Qed.
  Lemma values_assign t rest : reachable c V t -> flagged c t -> E (hseq_const false) = c1 ->
    (forall id s, nth_error (t_syms t) id = Some s -> sy_seq s = None -> (sy_herm s = true -> cim (rest id) = r0 R) /\ (sy_anti s = true -> cre (rest id) = r0 R)) ->
    assignment t (word_values rest t).
  Proof.
    intros RT FL E1 HR. destruct (table_shape c V LW t RT) as (W0 & W1 & _).
    assert (P0 : word_values rest t 0 = c0) by (unfold word_values; rewrite W0; apply (ex_zero c V R E EX)).
    assert (G : forall id s, nth_error (t_syms t) id = Some s -> (sy_herm s = true -> cim (word_values rest t id) = r0 R) /\ (sy_anti s = true -> cre (word_values rest t id) = r0 R)).
    { intros [|id] s N; [rewrite P0; split; intros _; reflexivity|]. destruct (sy_seq s) as [w|] eqn:Q.
      - unfold word_values, symbol_word. rewrite N, Q. exact (flags_mean c V LW R E t id s w RT EX FL N Q).
      - unfold word_values, symbol_word. rewrite N, Q. exact (HR (S id) s N Q). }
    constructor; [exact P0|unfold word_values; rewrite W1; exact E1| |]; intros id s N; apply (G id s N).
  Qed.
  (** the polynomials built *)
  Variables (lt : mono R -> mono R -> bool) (srt : list (mono R) -> list (mono R)).
  Lemma construct_raw_spec t v raw p : reachable c V t -> term_order t lt -> sorts t lt srt -> raw_ok raw -> construct_raw c t srt raw = Some p ->
    canonical t lt p /\ (assignment t v -> agrees E t v -> value v p = raw_value E raw).
  Proof.
    intros RT HO HS F H. unfold construct_raw in H. destruct (storage_from_raw c t raw) as [l|] eqn:S; [|discriminate]. injection H as <-.
    destruct (storage_spec t (word_values v t) raw l RT F (values_agree v t) S) as [I1 _]. split; [now apply make_poly_canonical|].
    intros A AG. rewrite (make_poly_value R t lt srt HS l v I1 A). now apply (storage_spec t v raw l RT F AG S).
  Qed.
  Lemma register_construct_spec t raw : reachable c V t -> raw_ok raw -> (forall t', later c V t t' -> sorts t' lt srt) ->
    exists t' p, register_construct c t srt raw = Done t' p /\ later c V t t' /\ (term_order t' lt -> canonical t' lt p) /\
      forall v, assignment t' v -> agrees E t' v -> value v p = raw_value E raw.
  Proof.
    intros RT F HS. destruct (register_spec raw t RT F) as (t' & l & D & RT' & LT & H). exists t', (make_poly t' srt l). unfold register_construct. rewrite D.
    split; [reflexivity|]. split; [exact LT|]. split.
    - intro HO. apply make_poly_canonical; [exact HO|now apply HS|]. apply (H t' (word_values (fun _ => c0) t') (later_refl t') (values_agree _ t')).
    - intros v A AG. destruct (H t' v (later_refl t') AG) as [I1 I2]. now rewrite (make_poly_value R t' lt srt (HS t' LT) l v I1 A).
  Qed.
End Sessions.

(** * Degrees *)
Section Degree.
  Variable R : rfield.
  Lemma fold_max (f : mono R -> nat) p : forall a, fold_left (fun a x => Nat.max (f x) a) p a = Nat.max a (list_max (map f p)).
  Proof. induction p as [|x p IH]; intro a; cbn [fold_left map list_max fold_right]; [lia|]. rewrite IH. change (fold_right Nat.max 0 (map f p)) with (list_max (map f p)). lia. Qed.
  Lemma max_degree t (p : list (mono R)) : maximum_degree t p = list_max (map (degree_of t) p).
  Proof. unfold maximum_degree. rewrite fold_max. lia. Qed.
End Degree.
