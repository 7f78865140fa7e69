(** Translates of shapes that may repeat on a torus. *)
From Coq Require Import List NArith Arith Bool Lia Sorted Permutation.
From Verif Require Import CoreModel CoreSpec AlgModel EnumModel EnumSpec EnumProofs PauliModel SiteModel SiteSpec SiteBitProofs SiteWordProofs SiteCanonProofs SiteFinalProofs SiteThmProofs POsgModel POsgSpec POsgProofs POsgListProofs POsgChainProofs POsgRingProofs POsgPairProofs POsgFillProofs POsgMoveProofs POsgTorusProofs.
Import ListNotations.

(** * The order of hashes *)
Lemma dlt_irrefl a : datum_lt a a = false.
Proof. induction a as [|x a IH]; [reflexivity|]. cbn. rewrite N.ltb_irrefl. exact IH. Qed.
Lemma dlt_trans a : forall b d, datum_lt a b = true -> datum_lt b d = true -> datum_lt a d = true.
Proof.
  induction a as [|x a IH]; intros [|y b] [|z d] A B; try discriminate. cbn in *.
  destruct (N.ltb_spec x y), (N.ltb_spec y z), (N.ltb_spec x z); try reflexivity; try lia.
  - destruct (N.ltb_spec z y); [discriminate|lia].
  - destruct (N.ltb_spec y x); [discriminate|lia].
  - destruct (N.ltb_spec y x); [discriminate|]. destruct (N.ltb_spec z y); [discriminate|]. destruct (N.ltb_spec z x); [lia|]. now apply (IH b).
Qed.
Lemma dlt_total a : forall b, length a = length b -> datum_lt a b = false -> datum_lt b a = false -> a = b.
Proof.
  induction a as [|x a IH]; intros [|y b] L A B; try discriminate; [reflexivity|]. cbn in *. destruct (N.ltb_spec x y); [discriminate|].
  destruct (N.ltb_spec y x); [discriminate|]. f_equal; [lia|]. apply IH; auto.
Qed.
Definition keys_sorted (m : list (datum * (nat * nat))) : Prop := StronglySorted (fun a b => datum_lt (fst a) (fst b) = true) m.
Lemma insert_spec s k v m : length k = s -> (forall e, In e m -> length (fst e) = s) -> keys_sorted m ->
  keys_sorted (map_insert k v m) /\ (forall e, In e m -> In e (map_insert k v m)) /\ (forall e, In e (map_insert k v m) -> In e m \/ e = (k, v)) /\
  exists v', In (k, v') (map_insert k v m).
Proof.
  intros LK LM S. induction S as [|[k' v'] m S IH F]; cbn [map_insert].
  - split; [repeat constructor|]. split; [intros e []|]. split; [intros e [<-|[]]; now right|]. exists v. now left.
  - destruct IH as (I1 & I2 & I3 & w & I4); [intros e E; apply LM; now right|].
    destruct (datum_lt k k') eqn:A; [|destruct (datum_lt k' k) eqn:B].
    + split; [|split; [|split]].
      * constructor; [now constructor|]. constructor; [exact A|]. rewrite Forall_forall in *. intros e E. cbn [fst] in *. apply (dlt_trans k k'); [exact A|now apply F].
      * intros e E. now right.
      * intros e [<-|E]; [now right|now left].
      * exists v. now left.
    + split; [|split; [|split]].
      * constructor; [exact I1|]. rewrite Forall_forall in *. intros e E. apply I3 in E. destruct E as [E| ->]; [now apply F|exact B].
      * intros e [<-|E]; [now left|right; now apply I2].
      * intros e [<-|E]; [left; now left|]. apply I3 in E. destruct E as [E|E]; [left; now right|now right].
      * exists w. now right.
    + assert (k = k') by (apply dlt_total; auto; rewrite LK; symmetry; apply (LM (k', v')); now left). subst k'.
      split; [now constructor|]. split; [auto|]. split; [intros e E; now left|]. exists v'. now left.
Qed.
Lemma sorted_keys m e e' : keys_sorted m -> In e m -> In e' m -> fst e = fst e' -> e = e'.
Proof.
  intros S. induction S as [|x m S IH F]; intros I I' E; [destruct I|]. rewrite Forall_forall in F.
  destruct I as [<-|I], I' as [<-|I']; auto; exfalso.
  - specialize (F e' I'). rewrite E, dlt_irrefl in F. discriminate.
  - specialize (F e I). rewrite <- E, dlt_irrefl in F. discriminate.
Qed.
Lemma sorted_snd m (K : datum -> nat * nat -> Prop) : keys_sorted m -> (forall e, In e m -> K (fst e) (snd e)) ->
  (forall k k' g, K k g -> K k' g -> k = k') -> NoDup (map snd m).
Proof.
  intros S. induction S as [|x m S IH F]; intros H U; [constructor|]. cbn [map]. rewrite Forall_forall in F. constructor.
  - intro I. apply in_map_iff in I. destruct I as (y & E & Y). specialize (F y Y). rewrite (U (fst x) (fst y) (snd x)) in F; [rewrite dlt_irrefl in F; discriminate|apply H; now left|].
    rewrite <- E. apply H. now right.
  - apply IH; [intros e E; apply H; now right|exact U].
Qed.

Section Alias.
  Variable wide : bool -> N -> N -> sout N.
  Variable c : pctx.
  Variable h : hasher.
  Hypothesis Hh : hasher_ok h.
  Hypothesis Rok : rows_ok wide h.
  Let n := pc_qubits c.
  Hypothesis QN : h_qubits h = pc_qubits c.
  Let ch := h_col h.
  Let rw := h_row h.
  Let act := lat_act h.
  Hypothesis CC : pc_col c = ch.
  Hypothesis CR : pc_row c = rw.
  Hypothesis LAT : is_lattice c = true.

  Lemma act_lt g q : q < n -> act g q < n.
  Proof. intro Q. unfold act. assert (X := lat_act_in h Hh g q). rewrite QN in X. now apply X. Qed.
  (** the X word of the sites, first among the base words *)
  Lemma first_word sites : StronglySorted lt sites -> (forall q, In q sites -> q < n) -> exists b rest, fill_words n sites = b :: rest /\
    pauli_word n (hs_ops b) /\ forall q, letter (hs_ops b) q <> 0%N <-> In q sites /\ letter (hs_ops b) q = 1%N.
  Proof.
    intros SS B. assert (ND := sorted_nodup _ SS). unfold fill_words.
    assert (HD : forall k, exists rest, digits k = repeat 0 k :: rest).
    { induction k as [|k IH]; [exists []; reflexivity|]. destruct IH as (rest & E). unfold digits in *. cbn [repeat box]. rewrite E. cbn [Nat.sub seq flat_map map app].
      eexists. reflexivity. }
    destruct (HD (length sites)) as (rest & E). rewrite E. cbn [map]. eexists. eexists. split; [reflexivity|].
    destruct (sequence_site_ops n sites (repeat 0 (length sites))) as (_ & _ & W & A & LT); auto; [apply repeat_length|intros a I; apply repeat_spec in I; lia|].
    split; [exact W|]. intro q. split; [|intros [_ ->]; discriminate]. intro H. assert (I : In q sites) by (apply A; now apply letter_support). split; [exact I|].
    rewrite LT. destruct (In_nth sites q 0 I) as (i & Hi & En). rewrite <- En. rewrite site_ops_letter; auto; [|apply repeat_length|intros a J; apply repeat_spec in J; lia].
    replace (nth i (repeat 0 (length sites)) 0) with 0 by (symmetry; apply nth_repeat). reflexivity.
  Qed.
  Variable sites : list nat.
  Hypothesis SS : StronglySorted lt sites.
  Hypothesis NE : sites <> [].
  Hypothesis B : forall q, In q sites -> q < n.
  Hypothesis L16 : length sites <= 16.
  Lemma aliased_value : (fst (site_supremum c sites) <=? rw / 2) && (snd (site_supremum c sites) <=? ch / 2) = false ->
    exists l, aliased_lattice_fill wide c h sites = DOk l /\
      lists_once n (fun w => exists r k, (r < ch /\ k < rw) /\ acts_on (map (act (r, k)) sites) w) l.
  Proof.
    intro CHK. unfold aliased_lattice_fill. fold ch. fold rw. rewrite CHK. assert (ND := sorted_nodup _ SS).
    rewrite (permutation_fill_value c sites ND). cbn [dbind]. fold n.
    destruct (first_word sites SS B) as (b & brest & EB & BW & BL).
    assert (HW : forall x, In x (fill_words n sites) -> pauli_word n (hs_ops x)).
    { intros x X. apply (proj2 (proj1 (fill_words_once n sites ND B))). now apply in_map. }
    destruct (base_hashes_ok c h Hh QN _ HW) as (ds0 & E0 & F0). fold n in E0. rewrite E0. cbn [dbind].
    rewrite EB in F0. inversion F0 as [|? d0 ? dr HB HR]; subst. destruct HB as [P0 L0].
    (* keys *)
    set (K := fun (k : datum) (g : nat * nat) => packed h k /\ forall q, q < n -> site k (act g q) = site d0 q).
    assert (KU : forall k k' g, K k g -> K k' g -> k = k').
    { intros k k' g [P M] [P' M']. apply (packed_ext h); auto. intros q Q. rewrite QN in Q. fold n in Q. destruct (lat_act_inv h Hh g) as (g' & I).
      destruct (I q ltac:(rewrite QN; exact Q)) as [_ I2]. rewrite <- I2. fold act. rewrite M, M'; [reflexivity|now apply act_lt|now apply act_lt]. }
    assert (ON : forall k g x, K k g -> x < n -> (site k x <> 0%N <-> In x (map (act g) sites)) /\ (site k x <> 0%N -> site k x = 1%N)).
    { intros k g x [P M] Hx. destruct (lat_act_inv h Hh g) as (g' & I). assert (IQ : forall q, q < n -> act g' (act g q) = q /\ act g (act g' q) = q).
      { intros q Q. apply I. now rewrite QN. }
      destruct (IQ x Hx) as [_ I2]. assert (Y := act_lt g' x Hx). rewrite <- I2. rewrite M by exact Y. rewrite L0. split.
      - split.
        + intro H. apply BL in H. apply in_map. apply H.
        + intro H. apply in_map_iff in H. destruct H as (q & Eq & Hq). assert (QL := B q Hq).
          assert (act g' x = q) by (rewrite <- (proj1 (IQ q QL)), Eq, (proj1 (IQ _ Y)); reflexivity). rewrite H.
          assert (AB : acts_on sites (hs_ops b)) by (apply (proj2 (proj1 (fill_words_once n sites ND B))); rewrite EB; now left).
          apply letter_support, AB, Hq.
      - intro H. apply BL in H. apply H. }
    assert (SAME : forall k k' g g', K k g -> K k' g' -> (k = k' <-> same_set (map (act g) sites) (map (act g') sites))).
    { intros k k' g g' H H'. assert (LTm : forall g x, In x (map (act g) sites) -> x < n) by (intros g0 x I; apply in_map_iff in I; destruct I as (q & <- & Q); now apply act_lt, B).
      split.
      - intros <- x. split; intro I; assert (Hx := LTm _ _ I).
        + apply (ON k g' x H' Hx). now apply (ON k g x H Hx).
        + apply (ON k g x H Hx). now apply (ON k g' x H' Hx).
      - intro S. apply (packed_ext h); [apply H|apply H'|]. intros x Hx. rewrite QN in Hx. fold n in Hx.
        destruct (ON k g x H Hx) as [A1 A2], (ON k' g' x H' Hx) as [B1 B2]. specialize (S x).
        destruct (N.eq_dec (site k x) 0) as [Z|Z], (N.eq_dec (site k' x) 0) as [Z'|Z']; [congruence| | |].
        + exfalso. apply A1 in Z; [exact Z|]. apply S. now apply B1.
        + exfalso. apply B1 in Z'; [exact Z'|]. apply S. now apply A1.
        + rewrite A2, B2; auto. }
    assert (K00 : K d0 (0, 0)).
    { split; [exact P0|]. intros q Q. unfold act. now rewrite (act_zero c h Hh QN q Q). }
    (* the map *)
    assert (INS : forall offs m, (forall g, In g offs -> row_offset_ok h (fst g)) -> keys_sorted m -> (forall e, In e m -> K (fst e) (snd e)) ->
      exists m', insert_offsets wide h d0 offs m = DOk m' /\ keys_sorted m' /\ (forall e, In e m -> In e m') /\
                 (forall e, In e m' -> K (fst e) (snd e) /\ (In e m \/ In (snd e) offs)) /\ forall g, In g offs -> exists e, In e m' /\ K (fst e) g).
    { induction offs as [|[r k] offs IH]; intros m RO S HK.
      - exists m. split; [reflexivity|]. split; [exact S|]. split; [auto|]. split; [intros e E; split; [now apply HK|now left]|intros g []].
      - destruct (lattice_shift_sites wide h Hh Rok d0 r k P0 (RO (r, k) (or_introl eq_refl))) as (e & E & Pe & Se). cbn [insert_offsets]. rewrite E. cbn [of_site dbind].
        assert (Ke : K e (r, k)) by (split; [exact Pe|]; intros q Q; rewrite QN in Se; now apply Se).
        destruct (insert_spec (h_slides h) e (r, k) m) as (I1 & I2 & I3 & v' & I4); [apply Pe|intros x X; apply (HK x X)|exact S|].
        destruct (IH (map_insert e (r, k) m)) as (m' & V & S' & M1 & M2 & M3); [intros g G; apply RO; now right|exact I1| |].
        { intros x X. apply I3 in X. destruct X as [X| ->]; [now apply HK|exact Ke]. }
        exists m'. split; [exact V|]. split; [exact S'|]. split; [intros x X; now apply M1, I2|]. split.
        + intros x X. apply M2 in X. destruct X as [X1 X2]. split; [exact X1|]. destruct X2 as [X2|X2]; [|right; now right].
          apply I3 in X2. destruct X2 as [X2| ->]; [now left|right; now left].
        + intros g [<-|G]; [|now apply M3]. exists (e, v'). split; [now apply M1|exact Ke]. }
    assert (AO : forall r k, In (r, k) (all_offsets (pc_col c) (pc_row c)) <-> r < ch /\ k < rw).
    { intros r k. rewrite CC, CR. unfold all_offsets. rewrite in_flat_map. split.
      - intros (k' & Kk & I). apply in_map_iff in I. destruct I as (r' & E & I). injection E as <- <-. apply in_seq in Kk, I. lia.
      - intros [R Kk]. exists k. split; [apply in_seq; lia|]. apply in_map_iff. exists r. split; [reflexivity|apply in_seq; lia]. }
    destruct (INS (all_offsets (pc_col c) (pc_row c)) (map_insert d0 (0, 0) [])) as (m & V & MS & M1 & M2 & M3).
    { intros [r k] G. apply AO in G. left. cbn [fst]. unfold ch in G. lia. }
    { repeat constructor. }
    { intros e [<-|[]]. exact K00. }
    rewrite V. cbn [dbind].
    set (nz := fun g : nat * nat => negb ((fst g =? 0) && (snd g =? 0))).
    set (gs := filter nz (map snd m)).
    assert (ZI : In (d0, (0, 0)) m) by (apply M1; now left).
    assert (CHP : 0 < ch) by (unfold ch; apply (chp h Hh)). assert (RWP : 0 < rw) by (unfold rw; apply (rwp h Hh)).
    assert (RNG : forall e, In e m -> fst (snd e) < ch /\ snd (snd e) < rw).
    { intros e I. apply M2 in I. destruct I as [_ [[<-|[]]|I]]; [cbn; now split|]. destruct (snd e) as [r k]. now apply AO in I. }
    assert (GS : forall g, In g ((0, 0) :: gs) <-> In g (map snd m)).
    { intros [r k]. unfold gs. cbn [In]. rewrite filter_In. split.
      - intros [E|[I _]]; [|exact I]. rewrite <- E. exact (in_map snd _ _ ZI).
      - intro I. destruct (nz (r, k)) eqn:Z; [right; now split|]. left. unfold nz in Z. cbn in Z. apply negb_false_iff, andb_true_iff in Z. rewrite !Nat.eqb_eq in Z.
        destruct Z as [-> ->]. reflexivity. }
    destruct (torus_list wide c h Hh Rok QN sites gs ND B L16) as (ds & f & E1 & _ & FV & _ & ONCE).
    { intros g G. assert (I : In g (map snd m)) by (apply GS; now right). apply in_map_iff in I. destruct I as (e & <- & I). left. assert (X := RNG e I). unfold ch in X. lia. }
    fold n in E1. assert (ds = d0 :: dr) by congruence. subst ds.
    exists (fill_words n sites ++ flat_map f gs). split.
    - rewrite (each_ok _ (fun e => if nz (snd e) then f (snd e) else [])).
      + cbn [dbind]. f_equal. f_equal. unfold gs. clear. induction m as [|e m IH]; [reflexivity|]. cbn [flat_map map filter]. destruct (nz (snd e)); cbn [flat_map app]; now rewrite IH.
      + intros [k [r kk]] I. cbn [snd]. unfold nz. cbn [fst snd]. destruct ((r =? 0) && (kk =? 0)) eqn:Z; cbn [negb]; [reflexivity|].
        apply (FV (r, kk)). unfold gs. apply filter_In. split; [apply (in_map snd _ _ I)|]. unfold nz. cbn [fst snd]. now rewrite Z.
    - assert (KD : forall e, In e m -> K (fst e) (snd e)) by (intros e I; now apply M2).
      assert (NG : NoDup ((0, 0) :: gs)).
      { constructor.
        - unfold gs. rewrite filter_In. intros [_ Z]. discriminate.
        - unfold gs. apply NoDup_filter. now apply (sorted_snd m K). }
      assert (X : lists_once n (fun w => exists g, In g ((0, 0) :: gs) /\ acts_on (map (act g) sites) w) (fill_words n sites ++ flat_map f gs)).
      { apply ONCE; [exact NG|]. intros g g' G G' S. apply GS in G, G'. apply in_map_iff in G, G'. destruct G as (e & <- & I), G' as (e' & <- & I').
        assert (e = e'); [|now subst]. apply (sorted_keys m); auto. apply (SAME _ _ _ _ (KD e I) (KD e' I')). exact S. }
      revert X. apply lists_once_ext. intros w _. split.
      + intros ([r k] & G & A). apply GS in G. apply in_map_iff in G. destruct G as (e & Ee & I). exists r, k. split; [|exact A].
        assert (R := RNG e I). rewrite Ee in R. exact R.
      + intros (r & k & RK & A). destruct (M3 (r, k)) as (e & I & Ke); [now apply AO|]. exists (snd e). split; [apply GS; now apply in_map|].
        assert (S := proj1 (SAME _ _ _ _ Ke (KD e I)) eq_refl). intro q. rewrite (A q). apply S.
  Qed.

  (** no repetition within half the torus *)
  Hypothesis SQ : ch = rw.
  Lemma half_distinct : (fst (site_supremum c sites) <=? rw / 2) && (snd (site_supremum c sites) <=? ch / 2) = true ->
    forall r k r' k', r < ch -> k < rw -> r' < ch -> k' < rw -> same_set (map (act (r, k)) sites) (map (act (r', k')) sites) -> r = r' /\ k = k'.
  Proof.
    intros H r k r' k' R K R' K' S. apply andb_true_iff in H. rewrite !Nat.leb_le in H. destruct H as [H1 H2].
    destruct sites as [|s rest] eqn:ES; [contradiction|]. rewrite <- ES in *.
    assert (NC : nw_col c = ch) by (unfold nw_col; rewrite LAT; exact CC).
    assert (CHP : 0 < ch) by (unfold ch; apply (chp h Hh)).
    assert (D2 : 2 * (ch / 2) <= ch) by (assert (D := Nat.div_mod ch 2 ltac:(lia)); lia). rewrite <- SQ in H1.
    assert (BR : forall q, In q sites -> q mod ch + 1 <= ch / 2 /\ q / ch + 1 <= ch / 2).
    { intros q Q. unfold site_supremum in H1, H2. rewrite ES in H1, H2. cbn [fst snd] in H1, H2. rewrite NC in H1, H2. split.
      - apply fold_max_le in H1. destruct H1 as [A1 A2]. rewrite ES in Q. destruct Q as [<-|Q]; [exact A1|now apply A2].
      - rewrite <- ES in H2. assert (QL := last_max sites 0 SS q Q). assert (q / ch <= last sites 0 / ch) by (apply Nat.div_le_mono; lia). lia. }
    assert (PARTS : forall r k q, act (r, k) q / ch = (q / ch + k) mod rw /\ act (r, k) q mod ch = (q mod ch + r) mod ch).
    { intros r0 k0 q. destruct (lat_act_parts h Hh (r0, k0) q) as [A1 A2]. split; [exact A1|exact A2]. }
    split.
    - apply (cycle_fixed (fun a => exists q, In q sites /\ a = q mod ch) ch (ch / 2 - 1) 0 r r'); try lia; [| |idtac].
      + exists (s mod ch), s. split; [rewrite ES; now left|reflexivity].
      + intros a (q & Q & ->). destruct (BR q Q). lia.
      + intros x _. split; intros (a & (q & Q & ->) & ->).
        * assert (I := proj1 (S _) (in_map (act (r, k)) _ _ Q)). apply in_map_iff in I. destruct I as (p & Ep & Ip). exists (p mod ch). split; [now exists p|].
          rewrite <- (proj2 (PARTS r k q)), <- (proj2 (PARTS r' k' p)). now rewrite Ep.
        * assert (I := proj2 (S _) (in_map (act (r', k')) _ _ Q)). apply in_map_iff in I. destruct I as (p & Ep & Ip). exists (p mod ch). split; [now exists p|].
          rewrite <- (proj2 (PARTS r' k' q)), <- (proj2 (PARTS r k p)). now rewrite Ep.
    - apply (cycle_fixed (fun a => exists q, In q sites /\ a = q / ch) rw (ch / 2 - 1) 0 k k'); try lia; [| |idtac].
      + exists (s / ch), s. split; [rewrite ES; now left|reflexivity].
      + intros a (q & Q & ->). assert (X := proj2 (BR q Q)). generalize dependent (q / ch). clear - D2. intros z X. assert (Y : 1 <= ch / 2) by lia. lia.
      + intros x _. split; intros (a & (q & Q & ->) & ->).
        * assert (I := proj1 (S _) (in_map (act (r, k)) _ _ Q)). apply in_map_iff in I. destruct I as (p & Ep & Ip). exists (p / ch). split; [now exists p|].
          rewrite <- (proj1 (PARTS r k q)), <- (proj1 (PARTS r' k' p)). now rewrite Ep.
        * assert (I := proj2 (S _) (in_map (act (r', k')) _ _ Q)). apply in_map_iff in I. destruct I as (p & Ep & Ip). exists (p / ch). split; [now exists p|].
          rewrite <- (proj1 (PARTS r' k' q)), <- (proj1 (PARTS r k p)). now rewrite Ep.
  Qed.
  Lemma square_aliased : exists l, aliased_lattice_fill wide c h sites = DOk l /\
      lists_once n (fun w => exists r k, (r < ch /\ k < rw) /\ acts_on (map (act (r, k)) sites) w) l.
  Proof.
    destruct ((fst (site_supremum c sites) <=? rw / 2) && (snd (site_supremum c sites) <=? ch / 2)) eqn:CHK; [|now apply aliased_value].
    unfold aliased_lattice_fill. fold ch. fold rw. rewrite CHK.
    destruct (square_unaliased wide c h Hh Rok QN SQ sites (sorted_nodup _ SS) B L16) as (l & V & _ & O). exists l. split; [exact V|]. apply O. now apply half_distinct.
  Qed.
End Alias.
