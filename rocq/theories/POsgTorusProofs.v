(** All translates of a shape, on rings and tori. *)
From Coq Require Import List NArith Arith Bool Lia Sorted Permutation.
From Verif Require Import CoreModel CoreSpec AlgModel EnumModel EnumSpec EnumProofs PauliModel SiteModel SiteSpec SiteBitProofs SiteWordProofs SiteCanonProofs SiteFinalProofs SiteThmProofs POsgModel POsgSpec POsgProofs POsgListProofs POsgChainProofs POsgRingProofs POsgPairProofs POsgFillProofs POsgMoveProofs.
Import ListNotations.

(** * Copies of a bounded set in a cycle *)
Lemma cycle_fixed (P : nat -> Prop) n m lo r r' : 0 < n -> (exists a, P a) -> (forall a, P a -> lo <= a <= lo + m) -> 2 * m < n -> lo + m < n -> r < n -> r' < n ->
  (forall x, x < n -> ((exists a, P a /\ x = (a + r) mod n) <-> (exists a, P a /\ x = (a + r') mod n))) -> r = r'.
Proof.
  intros N (a0 & A0) B M LM R R' E.
  assert (X : forall r r', r < n -> r' < n -> r < r' ->
    (forall x, x < n -> ((exists a, P a /\ x = (a + r) mod n) <-> (exists a, P a /\ x = (a + r') mod n))) -> False).
  { clear r r' R R' E. intros r r' R R' LT E. set (dl := r' - r). assert (DL : 0 < dl < n) by (unfold dl; lia).
    (* P is invariant under adding dl *)
    assert (UP : forall a, P a -> exists b, P b /\ b = (a + dl) mod n).
    { intros a A. assert (Y : exists b, P b /\ (a + r') mod n = (b + r) mod n).
      { apply E; [apply Nat.mod_upper_bound; lia|]. now exists a. }
      destruct Y as (b & Pb & Y). exists b. split; [exact Pb|]. assert (BB := B b Pb).
      replace (a + r') with (r + (a + dl)) in Y by (unfold dl; lia). rewrite <- (Nat.add_mod_idemp_r r (a + dl)) in Y by lia.
      rewrite (Nat.add_comm b r) in Y. apply add_mod_inj in Y; [symmetry; exact Y|apply Nat.mod_upper_bound; lia|lia]. }
    (* walk down from a0: every element is preceded ... *)
    assert (W : forall k a, a <= lo + m -> lo + m < a + k -> P a -> False).
    { assert (ST : forall a, P a -> exists b, P b /\ (a < b \/ b + dl <= a + dl /\ b + n = a + dl)).
      { intros a A. destruct (UP a A) as (b & Pb & Eb). exists b. split; [exact Pb|]. assert (BA := B a A).
        destruct (Nat.lt_ge_cases (a + dl) n) as [S|S].
        - rewrite Nat.mod_small in Eb by exact S. left. lia.
        - right. assert (b = a + dl - n) by (rewrite Eb; symmetry; apply (Nat.mod_unique _ _ 1); lia). lia. }
      intros k. induction k as [|k IH]; intros a A1 A2 A; [lia|]. destruct (ST a A) as (b & Pb & [SB|[_ SB]]).
      - assert (BB := B b Pb). apply (IH b); [lia|lia|exact Pb].
      - (* the jump over the end: dl > n - m, so no element can step up *)
        assert (BA := B a A). assert (BB := B b Pb). assert (D2 : n - m <= dl) by lia.
        assert (DOWN : forall j x, x < j -> P x -> False).
        { induction j as [|j IHj]; intros x Xj Px; [lia|]. destruct (ST x Px) as (y & Py & [SY|[_ SY]]).
          - assert (BX := B x Px). assert (BY := B y Py). destruct (UP x Px) as (z & Pz & Ez). assert (BZ := B z Pz).
            destruct (Nat.lt_ge_cases (x + dl) n) as [S1|S1]; [rewrite Nat.mod_small in Ez by exact S1; lia|].
            assert (z = x + dl - n) by (rewrite Ez; symmetry; apply (Nat.mod_unique _ _ 1); lia). apply (IHj z); [lia|exact Pz].
          - apply (IHj y); [lia|exact Py]. }
        exact (DOWN (S a) a ltac:(lia) A). }
    apply (W (S (lo + m)) a0); [apply (B a0 A0)|lia|exact A0]. }
  destruct (Nat.lt_trichotomy r r') as [L|[L|L]]; [exfalso; now apply (X r r')|exact L|]. exfalso. apply (X r' r); auto. intros x Hx. symmetry. now apply E.
Qed.

(** * Rings *)
Section Ring.
  Variable wide : bool -> N -> N -> sout N.
  Variable c : pctx.
  Variable h : hasher.
  Hypothesis Hh : hasher_ok h.
  Hypothesis QN : h_qubits h = pc_qubits c.
  Let n := pc_qubits c.
  Lemma ring_family sites max : NoDup sites -> (forall q, In q sites -> q < n) -> length sites <= 16 -> max <= n ->
    exists ds f, base_hashes h (fill_words n sites) = DOk ds /\ Forall2 (held h) (fill_words n sites) ds /\
      forall g, In g (seq 0 max) -> each (shifted c (fun d => cyclic_shift wide h d g)) ds = DOk (f g) /\
                                   lists_once n (acts_on (map (fun q => (q + g) mod n) sites)) (f g).
  Proof.
    intros ND B L M. apply (moved_family c h (fun k q => (q + k) mod n)); auto.
    - intros g G. apply in_seq in G. exists (fun q => (q + (n - g)) mod n). intros q Q. fold n in Q. fold n.
      assert (NZ : n <> 0) by lia. split; [now apply Nat.mod_upper_bound|]. split; [now apply Nat.mod_upper_bound|].
      rewrite !Nat.add_mod_idemp_l by exact NZ. replace (q + g + (n - g)) with (q + 1 * n) by lia. replace (q + (n - g) + g) with (q + 1 * n) by lia.
      rewrite Nat.mod_add by exact NZ. rewrite Nat.mod_small by exact Q. now split.
    - intros g G d P. apply in_seq in G. destruct (cyclic_sites wide h Hh d g P) as (e & E & Pe & S); [left; rewrite QN; lia|].
      exists e. split; [exact E|]. split; [exact Pe|]. intros q Q. rewrite QN in S. now apply S.
  Qed.
  Lemma ring_unaliased sites max : NoDup sites -> (forall q, In q sites -> q < n) -> length sites <= 16 -> 0 < max <= n ->
    exists l, unaliased_chain_fill wide c h sites max = DOk l /\
      lists_words n (fun w => exists g, g < max /\ acts_on (map (fun q => (q + g) mod n) sites) w) l /\
      ((forall g g', g < max -> g' < max -> same_set (map (fun q => (q + g) mod n) sites) (map (fun q => (q + g') mod n) sites) -> g = g') ->
       lists_once n (fun w => exists g, g < max /\ acts_on (map (fun q => (q + g) mod n) sites) w) l).
  Proof.
    intros ND B L M. destruct (ring_family sites max ND B L ltac:(lia)) as (ds & f & E & _ & F).
    set (f' := fun g => match g with 0 => fill_words n sites | _ => f g end).
    assert (ID : map (fun q => (q + 0) mod n) sites = sites).
    { rewrite <- (map_id sites) at 2. apply map_ext_in. intros q Q. rewrite Nat.add_0_r. apply Nat.mod_small. now apply B. }
    assert (F' : forall g, In g (seq 0 max) -> lists_once n (acts_on (map (fun q => (q + g) mod n) sites)) (f' g)).
    { intros [|g] G; [rewrite ID; now apply fill_words_once|]. apply F, G. }
    exists (flat_map f' (seq 0 max)). split; [|split].
    - unfold unaliased_chain_fill. rewrite (permutation_fill_value c sites ND). cbn [dbind]. fold n. rewrite E. cbn [dbind].
      rewrite (each_ok _ f).
      + cbn [dbind]. f_equal. replace max with (S (max - 1)) at 2 by lia. cbn [seq flat_map f']. f_equal. apply flat_ext. intros g G. apply in_seq in G.
        destruct g; [lia|reflexivity].
      + intros g G. apply in_seq in G. apply F. apply in_seq. lia.
    - apply lists_words_ext with (P := fun w => exists g, In g (seq 0 max) /\ acts_on (map (fun q => (q + g) mod n) sites) w).
      + intros w _. split; intros (g & G & A); exists g; (split; [|exact A]); [apply in_seq in G; lia|apply in_seq; lia].
      + now apply family_words.
    - intro D. apply lists_once_ext with (P := fun w => exists g, In g (seq 0 max) /\ acts_on (map (fun q => (q + g) mod n) sites) w).
      + intros w _. split; intros (g & G & A); exists g; (split; [|exact A]); [apply in_seq in G; lia|apply in_seq; lia].
      + apply family_once; [exact F'|apply seq_NoDup|]. intros g g' w G G' A A' _. apply in_seq in G, G'. apply D; [lia|lia|]. intro q. rewrite <- (A q). apply A'.
  Qed.
  (** the hash of the X word *)
  Lemma x_word sites : StronglySorted lt sites -> (forall q, In q sites -> q < n) -> pauli_word n (map (fun q => 3 * q) sites) /\
    forall q, letter (map (fun q => 3 * q) sites) q = if existsb (Nat.eqb q) sites then 1%N else 0%N.
  Proof.
    intros SS B. assert (D : forall q, 3 * q / 3 = q /\ (3 * q) mod 3 = 0).
    { intro q. split; [symmetry; apply (Nat.div_unique _ _ _ 0); lia|symmetry; apply (Nat.mod_unique _ _ q); lia]. }
    assert (W : pauli_word n (map (fun q => 3 * q) sites)).
    { split.
      - clear B. induction SS as [|x l SS IH F]; cbn [map]; constructor; [exact IH|]. apply Forall_forall. intros y Y. apply in_map_iff in Y.
        destruct Y as (z & <- & Z). rewrite Forall_forall in F. specialize (F z Z). rewrite (proj1 (D x)), (proj1 (D z)). exact F.
      - intros o I. apply in_map_iff in I. destruct I as (q & <- & Q). specialize (B q Q). lia. }
    split; [exact W|]. intro q. destruct (existsb (Nat.eqb q) sites) eqn:E.
    - apply existsb_exists in E. destruct E as (x & X & EQ). apply Nat.eqb_eq in EQ. subst x. rewrite <- (proj1 (D q)) at 1.
      rewrite (letter_in _ (3 * q)); [rewrite (proj2 (D q)); reflexivity|apply W|now apply (in_map (fun q => 3 * q))].
    - apply letter_none. intros o I EQ. apply in_map_iff in I. destruct I as (x & <- & X). rewrite (proj1 (D x)) in EQ. subst x.
      assert (T : existsb (Nat.eqb q) sites = true) by (apply existsb_exists; exists q; split; [exact X|apply Nat.eqb_refl]). congruence.
  Qed.
  Lemma copy_in sites g x : (forall q, In q sites -> q < n) -> g <= n -> x < n ->
    (In x (map (fun q => (q + g) mod n) sites) <-> In ((x + (n - g)) mod n) sites).
  Proof.
    intros B G Hx. assert (NZ : n <> 0) by lia. rewrite in_map_iff. split.
    - intros (q & <- & Q). rewrite Nat.add_mod_idemp_l by exact NZ. replace (q + g + (n - g)) with (q + 1 * n) by lia. rewrite Nat.mod_add by exact NZ.
      rewrite Nat.mod_small by now apply B. exact Q.
    - intro I. exists ((x + (n - g)) mod n). split; [|exact I]. rewrite Nat.add_mod_idemp_l by exact NZ. replace (x + (n - g) + g) with (x + 1 * n) by lia.
      rewrite Nat.mod_add by exact NZ. now apply Nat.mod_small.
  Qed.
  Lemma copies_lt sites g x : (forall q, In q sites -> q < n) -> In x (map (fun q => (q + g) mod n) sites) -> x < n.
  Proof. intros B I. apply in_map_iff in I. destruct I as (q & <- & Q). apply Nat.mod_upper_bound. specialize (B q Q). lia. Qed.
  Lemma fold_max_spec rest : forall i, i <= fold_left Nat.max rest i /\ (forall q, In q rest -> q <= fold_left Nat.max rest i) /\ (fold_left Nat.max rest i = i \/ In (fold_left Nat.max rest i) rest).
  Proof.
    induction rest as [|x rest IH]; intro i; cbn [fold_left]; [split; [lia|]; split; [intros q []|now left]|].
    destruct (IH (Nat.max i x)) as (A & B & C). split; [lia|]. split.
    - intros q [<-|Q]; [lia|now apply B].
    - destruct C as [C|C]; [|right; now right]. rewrite C. destruct (Nat.max_spec i x) as [[_ ->]|[_ ->]]; [right; now left|now left].
  Qed.
  Lemma fold_min_spec rest : forall i, fold_left Nat.min rest i <= i /\ (forall q, In q rest -> fold_left Nat.min rest i <= q) /\ (fold_left Nat.min rest i = i \/ In (fold_left Nat.min rest i) rest).
  Proof.
    induction rest as [|x rest IH]; intro i; cbn [fold_left]; [split; [lia|]; split; [intros q []|now left]|].
    destruct (IH (Nat.min i x)) as (A & B & C). split; [lia|]. split.
    - intros q [<-|Q]; [lia|now apply B].
    - destruct C as [C|C]; [|right; now right]. rewrite C. destruct (Nat.min_spec i x) as [[_ ->]|[_ ->]]; [now left|right; now left].
  Qed.
  Lemma ring_aliased sites : StronglySorted lt sites -> sites <> [] -> (forall q, In q sites -> q < n) -> length sites <= 16 ->
    exists l, aliased_chain_fill wide c h sites = DOk l /\ lists_once n (fun w => exists g, g < n /\ acts_on (map (fun q => (q + g) mod n) sites) w) l.
  Proof.
    intros SS NE B L. assert (ND := sorted_nodup _ SS). destruct sites as [|s rest] eqn:ES; [contradiction|]. unfold aliased_chain_fill. rewrite <- ES in *.
    assert (N0 : 0 < n) by (specialize (B s ltac:(rewrite ES; now left)); lia).
    destruct (fold_max_spec rest s) as (X1 & X2 & X3). destruct (fold_min_spec rest s) as (Y1 & Y2 & Y3).
    set (mx := fold_left Nat.max rest s) in *. set (mn := fold_left Nat.min rest s) in *.
    assert (MX : mx < n) by (apply B; rewrite ES; destruct X3 as [->|X3]; [now left|now right]).
    fold n. destruct (Nat.ltb_spec (mx - mn) (n / 2)) as [R|R].
    - destruct (ring_unaliased sites n ND B L ltac:(lia)) as (l & V & _ & O). exists l. split; [exact V|]. apply O. intros g g' G G' E.
      assert (N2 : 2 * (n / 2) <= n) by (assert (D := Nat.div_mod n 2 ltac:(lia)); lia).
      apply (cycle_fixed (fun q => In q sites) n (mx - mn) mn g g'); [lia|exists s; rewrite ES; now left| |lia|lia|exact G|exact G'|].
      + intros a A. rewrite ES in A. destruct A as [<-|A]; [lia|]. specialize (X2 a A). specialize (Y2 a A). lia.
      + intros x _. split; intros (a & A & ->).
        * assert (I := proj1 (E _) (in_map (fun q => (q + g) mod n) _ _ A)). apply in_map_iff in I. destruct I as (b & Eb & Ib). now exists b.
        * assert (I := proj2 (E _) (in_map (fun q => (q + g') mod n) _ _ A)). apply in_map_iff in I. destruct I as (b & Eb & Ib). now exists b.
    - destruct (x_word sites SS B) as [XW XL]. destruct (site_hash_correct h (map (fun q => 3 * q) sites) Hh) as (d & Ed & P & Ld); [now rewrite QN|].
      rewrite Ed. cbn [sbind]. destruct (alias_ok wide h d Hh P) as (k & Ek & K & PER & MIN). rewrite Ek. cbn [of_site dbind]. rewrite QN in K, PER, MIN. fold n in K, PER, MIN.
      assert (IN : forall q q', site d q = site d q' <-> (In q sites <-> In q' sites)).
      { intros q q'. rewrite !Ld, !XL. assert (T : forall y, existsb (Nat.eqb y) sites = true <-> In y sites).
        { intro y. rewrite existsb_exists. split; [intros (z & Z & EQ); apply Nat.eqb_eq in EQ; now subst|intro I; exists y; split; [exact I|apply Nat.eqb_refl]]. }
        rewrite <- !T. destruct (existsb (Nat.eqb q) sites), (existsb (Nat.eqb q') sites); split; intro H; auto; try discriminate; try tauto.
        - destruct H as [H _]. discriminate (H eq_refl).
        - destruct H as [_ H]. discriminate (H eq_refl). }
      assert (PERk : forall t q, q < n -> (In ((q + t * k) mod n) sites <-> In q sites)).
      { induction t as [|t IH]; intros q Q; [rewrite Nat.add_0_r, Nat.mod_small by exact Q; reflexivity|].
        replace (q + S t * k) with ((q + t * k) + k) by lia. rewrite <- (Nat.add_mod_idemp_l (q + t * k)) by lia.
        rewrite <- (IH q Q). apply IN. apply PER. apply Nat.mod_upper_bound. lia. }
      destruct (ring_unaliased sites k ND B L K) as (l & V & _ & O). exists l. split; [exact V|].
      apply lists_once_ext with (P := fun w => exists g, g < k /\ acts_on (map (fun q => (q + g) mod n) sites) w).
      + intros w W. split; intros (g & G & A).
        * exists g. split; [lia|exact A].
        * exists (g mod k). split; [apply Nat.mod_upper_bound; lia|]. assert (D := Nat.div_mod g k ltac:(lia)). set (s0 := g mod k) in *. set (t := g / k) in *.
          intro x. destruct (Nat.lt_ge_cases x n) as [XN|XN].
          -- rewrite (A x). rewrite !copy_in by (auto; lia). assert (XG : (x + (n - g)) mod n < n) by (apply Nat.mod_upper_bound; lia).
             rewrite <- (PERk t _ XG). rewrite Nat.add_mod_idemp_l by lia. replace (x + (n - g) + t * k) with (x + (n - s0)) by nia. reflexivity.
          -- split; [intro I; apply (support_lt n w x W) in I; lia|intro I; apply (copies_lt _ _ _ B) in I; lia].
      + apply O. assert (X : forall g g', g < k -> g' < k -> g < g' -> same_set (map (fun q => (q + g) mod n) sites) (map (fun q => (q + g') mod n) sites) -> False).
        { intros g g' G G' LT E. destruct (MIN (g' - g) ltac:(lia)) as (q & Q & DIF). apply DIF. apply IN.
          assert (QG : (q + g') mod n < n) by (apply Nat.mod_upper_bound; lia). specialize (E ((q + g') mod n)).
          rewrite !copy_in in E by (auto; lia). rewrite !Nat.add_mod_idemp_l in E by lia.
          replace (q + g' + (n - g)) with (q + (g' - g) + 1 * n) in E by lia. replace (q + g' + (n - g')) with (q + 1 * n) in E by lia.
          rewrite !Nat.mod_add in E by lia. now rewrite (Nat.mod_small q n Q) in E. }
        intros g g' G G' E. destruct (Nat.lt_trichotomy g g') as [LT|[EQ|LT]]; [exfalso; now apply (X g g')|exact EQ|]. exfalso. apply (X g' g); auto.
        intro q. symmetry. apply E.
  Qed.
End Ring.

(** * Tori *)
Section Torus.
  Variable wide : bool -> N -> N -> sout N.
  Variable c : pctx.
  Variable h : hasher.
  Hypothesis Hh : hasher_ok h.
  Hypothesis Rok : rows_ok wide h.
  Let n := pc_qubits c.
  Hypothesis QN : h_qubits h = pc_qubits c.
  Let ch := h_col h.
  Let rw := h_row h.
  Let act := lat_act h.
  Lemma torus_family sites gs : NoDup sites -> (forall q, In q sites -> q < n) -> length sites <= 16 -> (forall g, In g gs -> row_offset_ok h (fst g)) ->
    exists ds f, base_hashes h (fill_words n sites) = DOk ds /\ Forall2 (held h) (fill_words n sites) ds /\
      forall g, In g gs -> each (shifted c (fun d => lattice_shift wide h d (fst g) (snd g))) ds = DOk (f g) /\ lists_once n (acts_on (map (act g) sites)) (f g).
  Proof.
    intros ND B L M. apply (moved_family c h act (fun g d => lattice_shift wide h d (fst g) (snd g))); auto.
    - intros g _. destruct (lat_act_inv h Hh g) as (g' & I). exists (act g'). intros q Q. fold n in Q. fold n. rewrite QN in I. fold n in I.
      assert (IN : forall g q, q < n -> act g q < n) by (intros g0 q0 Q0; unfold act; assert (X := lat_act_in h Hh g0 q0); rewrite QN in X; now apply X).
      split; [now apply IN|]. split; [now apply IN|]. apply I, Q.
    - intros [r k] G d P. destruct (lattice_shift_sites wide h Hh Rok d r k P (M _ G)) as (e & E & Pe & S). exists e. split; [exact E|]. split; [exact Pe|].
      rewrite QN in S. exact S.
  Qed.
  Lemma act_zero q : q < n -> act (0, 0) q = q.
  Proof.
    intro Q. unfold act, lat_act. cbn [fst snd]. rewrite !Nat.add_0_r. assert (X := lat_range h Hh q). rewrite QN in X. destruct (X Q) as (A & B & E).
    rewrite (Nat.mod_small (q / h_col h)) by exact A. rewrite (Nat.mod_small (q mod h_col h)) by exact B. now symmetry.
  Qed.
  Lemma map_zero sites : (forall q, In q sites -> q < n) -> map (act (0, 0)) sites = sites.
  Proof. intro B. rewrite <- (map_id sites) at 2. apply map_ext_in. intros q Q. now apply act_zero, B. Qed.
  Lemma torus_list sites gs : NoDup sites -> (forall q, In q sites -> q < n) -> length sites <= 16 -> (forall g, In g gs -> row_offset_ok h (fst g)) ->
    exists ds f, base_hashes h (fill_words n sites) = DOk ds /\ Forall2 (held h) (fill_words n sites) ds /\
      (forall g, In g gs -> each (shifted c (fun d => lattice_shift wide h d (fst g) (snd g))) ds = DOk (f g)) /\
      lists_words n (fun w => exists g, In g ((0, 0) :: gs) /\ acts_on (map (act g) sites) w) (fill_words n sites ++ flat_map f gs) /\
      (NoDup ((0, 0) :: gs) -> (forall g g', In g ((0, 0) :: gs) -> In g' ((0, 0) :: gs) -> same_set (map (act g) sites) (map (act g') sites) -> g = g') ->
       lists_once n (fun w => exists g, In g ((0, 0) :: gs) /\ acts_on (map (act g) sites) w) (fill_words n sites ++ flat_map f gs)).
  Proof.
    intros ND B L M. destruct (torus_family sites gs ND B L M) as (ds & f & E & H & F). exists ds, f. split; [exact E|]. split; [exact H|].
    split; [intros g G; apply F, G|].
    assert (B0 : lists_once n (acts_on (map (act (0, 0)) sites)) (fill_words n sites)) by (rewrite map_zero by exact B; now apply fill_words_once).
    split.
    - assert (X := family_words n (fun g => acts_on (map (act g) sites)) f gs (fun g G => proj2 (F g G))).
      assert (Y := lists_app n _ _ _ _ (proj1 B0) X). revert Y. apply lists_words_ext. intros w _. split.
      + intros [A|(g & G & A)]; [exists (0, 0); split; [now left|exact A]|exists g; split; [now right|exact A]].
      + intros (g & [<-|G] & A); [now left|right; now exists g].
    - intros NG D. apply NoDup_cons_iff in NG. destruct NG as [N1 N2].
      assert (X : lists_once n (fun w => exists g, In g gs /\ acts_on (map (act g) sites) w) (flat_map f gs)).
      { apply family_once; [intros g G; apply F, G|exact N2|]. intros g g' w G G' A A' _. apply D; [now right|now right|]. intro q. rewrite <- (A q). apply A'. }
      assert (Y := lists_app n _ _ _ _ (proj1 B0) (proj1 X)). split.
      + revert Y. apply lists_words_ext. intros w _. split.
        * intros [A|(g & G & A)]; [exists (0, 0); split; [now left|exact A]|exists g; split; [now right|exact A]].
        * intros (g & [<-|G] & A); [now left|right; now exists g].
      + rewrite map_app. apply nodup_app; [apply B0|apply X|]. intros w I J. apply (proj2 (proj1 B0)) in I. apply (proj2 (proj1 X)) in J.
        destruct I as [_ A], J as [_ (g & G & A')]. apply N1. rewrite (D (0, 0) g); [exact G|now left|now right|]. intro q. rewrite <- (A q). apply A'.
  Qed.
  Definition rest_offsets (m : nat) : list (nat * nat) :=
    flat_map (fun col => map (fun row => (row, col)) (if negb (Nat.eqb col 0) then seq 0 m else seq 1 (m - 1))) (seq 0 m).
  Lemma rest_in m r k : 0 < m -> (In (r, k) ((0, 0) :: rest_offsets m) <-> r < m /\ k < m).
  Proof.
    intro M. unfold rest_offsets. cbn [In]. rewrite in_flat_map. split.
    - intros [E|(k' & K & I)]; [injection E as <- <-; lia|]. apply in_seq in K. apply in_map_iff in I. destruct I as (r' & E & I). injection E as <- <-.
      destruct (Nat.eqb_spec k' 0); cbn [negb] in I; apply in_seq in I; lia.
    - intros [R K]. destruct (Nat.eq_dec r 0) as [->|R0], (Nat.eq_dec k 0) as [->|K0]; [now left| | |]; right.
      + exists k. split; [apply in_seq; lia|]. apply in_map_iff. exists 0. split; [reflexivity|]. destruct (Nat.eqb_spec k 0); [lia|]. apply in_seq. lia.
      + exists 0. split; [apply in_seq; lia|]. apply in_map_iff. exists r. split; [reflexivity|]. cbn [Nat.eqb negb]. apply in_seq. lia.
      + exists k. split; [apply in_seq; lia|]. apply in_map_iff. exists r. split; [reflexivity|]. destruct (Nat.eqb_spec k 0); [lia|]. apply in_seq. lia.
  Qed.
  Lemma rest_nodup m : NoDup ((0, 0) :: rest_offsets m).
  Proof.
    unfold rest_offsets. constructor.
    - intro I. apply in_flat_map in I. destruct I as (k & K & I). apply in_map_iff in I. destruct I as (r & E & I). injection E as -> ->.
      cbn in I. apply in_seq in I. lia.
    - apply nodup_flat; [apply seq_NoDup| |].
      + intros k _. apply FinFun.Injective_map_NoDup; [intros x y E; congruence|]. destruct (negb (k =? 0)); apply seq_NoDup.
      + intros k k' x _ _ I J. apply in_map_iff in I, J. destruct I as (r & <- & _), J as (r' & E & _). congruence.
  Qed.
  (** a square torus *)
  Hypothesis SQ : ch = rw.
  Lemma square_unaliased sites : NoDup sites -> (forall q, In q sites -> q < n) -> length sites <= 16 ->
    exists l, unaliased_lattice_fill wide c h sites = DOk l /\
      lists_words n (fun w => exists r k, (r < ch /\ k < rw) /\ acts_on (map (act (r, k)) sites) w) l /\
      ((forall r k r' k', r < ch -> k < rw -> r' < ch -> k' < rw -> same_set (map (act (r, k)) sites) (map (act (r', k')) sites) -> r = r' /\ k = k') ->
       lists_once n (fun w => exists r k, (r < ch /\ k < rw) /\ acts_on (map (act (r, k)) sites) w) l).
  Proof.
    intros ND B L. assert (RP : 0 < rw) by (unfold rw; apply (rwp h Hh)).
    destruct (torus_list sites (rest_offsets rw) ND B L) as (ds & f & E & _ & V & W & O).
    { intros g _. right. right. exact SQ. }
    exists (fill_words n sites ++ flat_map f (rest_offsets rw)). split; [|split].
    - unfold unaliased_lattice_fill. rewrite (permutation_fill_value c sites ND). cbn [dbind]. fold n. rewrite E. cbn [dbind].
      unfold rest_offsets. rewrite flat_flat. rewrite (each_ok _ (fun k => flat_map f (map (fun row => (row, k)) (if negb (k =? 0) then seq 0 rw else seq 1 (rw - 1))))); [reflexivity|].
      intros k K. rewrite <- (flat_map_of f (fun row => (row, k))). apply each_ok. intros r R. apply (V (r, k)).
      unfold rest_offsets. apply in_flat_map. exists k. split; [exact K|]. now apply (in_map (fun row => (row, k))).
    - revert W. apply lists_words_ext. intros w _. split.
      + intros ([r k] & G & A). apply rest_in in G; [|exact RP]. exists r, k. split; [lia|exact A].
      + intros (r & k & RK & A). exists (r, k). split; [apply rest_in; [exact RP|lia]|exact A].
    - intro D. assert (O' := O (rest_nodup rw)). assert (X : lists_once n (fun w => exists g, In g ((0, 0) :: rest_offsets rw) /\ acts_on (map (act g) sites) w) (fill_words n sites ++ flat_map f (rest_offsets rw))).
      { apply O'. intros [r k] [r' k'] G G' S. apply rest_in in G; [|exact RP]. apply rest_in in G'; [|exact RP].
        destruct (D r k r' k') as [-> ->]; auto; lia. }
      revert X. apply lists_once_ext. intros w _. split.
      + intros ([r k] & G & A). apply rest_in in G; [|exact RP]. exists r, k. split; [lia|exact A].
      + intros (r & k & RK & A). exists (r, k). split; [apply rest_in; [exact RP|lia]|exact A].
  Qed.
End Torus.
