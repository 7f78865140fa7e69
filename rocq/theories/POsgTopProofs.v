(** Symmetrical fills on rings and square tori, and the dictionaries of lattices up to length four. *)
From Coq Require Import List NArith Arith Bool Lia Sorted Permutation.
From Verif Require Import CoreModel CoreSpec AlgModel EnumModel EnumSpec EnumProofs PauliModel SiteModel SiteSpec SiteBitProofs SiteWordProofs SiteCanonProofs SiteFinalProofs SiteThmProofs POsgModel POsgSpec POsgProofs POsgListProofs POsgChainProofs POsgRingProofs POsgPairProofs POsgFillProofs POsgMoveProofs POsgTorusProofs POsgAliasProofs.
Import ListNotations.

(** * Rings *)
Theorem ring_fill wide n sites check : n <= 256 -> n <= 32 \/ benign wide -> StronglySorted lt sites -> sites <> [] -> (forall q, In q sites -> q < n) -> length sites <= 16 ->
  exists l, symmetrical_fill wide (chain_ctx n true true) sites check = DOk l /\ lists_words n (on_copy true n 1 (coords n sites)) l /\
            (check = true -> NoDup (map hs_ops l)).
Proof.
  intros N2 BW SS NE B L. assert (N0 : 0 < n) by (destruct sites as [|s r]; [contradiction|specialize (B s (or_introl eq_refl)); lia]).
  set (c := chain_ctx n true true). assert (QN : pc_qubits c = n) by reflexivity.
  assert (ON : forall w, (exists g, g < n /\ acts_on (map (fun q => (q + g) mod n) sites) w) <-> on_copy true n 1 (coords n sites) w).
  { assert (TC : forall r k, torus_copy n 1 (coords n sites) r k = map (fun q => (q + r) mod n) sites).
    { intros r k. unfold torus_copy, coords. rewrite map_map. apply map_ext_in. intros q Q. cbn [fst snd]. rewrite Nat.mod_1_r. unfold row_of. rewrite (Nat.mod_small q n) by now apply B. lia. }
    intro w. unfold on_copy. split.
    - intros (g & G & A). exists g, 0. rewrite TC. split; [lia|exact A].
    - intros (r & k & R & A). rewrite TC in A. exists r. split; [lia|exact A]. }
  unfold symmetrical_fill. destruct sites as [|s0 r0] eqn:ES; [contradiction|]. rewrite <- ES in *. change (pc_wrap c) with true. change (pc_sym c) with true. cbn [negb].
  change (nw_col c) with n. change (nw_row c) with 1. change (is_lattice c) with false. unfold make_wrapping. rewrite Nat.mul_1_r.
  destruct (Nat.ltb_spec 256 n) as [|_]; [lia|].
  destruct (construct_ok wide n 1) as (h & E & Hh & HC & HR); [lia|exact BW|]. rewrite Nat.mul_1_r in E. rewrite E. cbn [of_site dbind].
  assert (HQ : h_qubits h = pc_qubits c) by (unfold h_qubits; rewrite HC, HR, QN; lia).
  destruct check.
  - destruct (ring_aliased wide c h Hh HQ sites SS NE B L) as (l & V & O). exists l. split; [exact V|]. rewrite QN in O. apply (lists_once_ext n _ _ l (fun w _ => ON w)) in O.
    destruct O as [O1 O2]. split; [exact O1|intros _; exact O2].
  - destruct (ring_unaliased wide c h Hh HQ sites n (sorted_nodup _ SS) B L ltac:(rewrite QN; lia)) as (l & V & O & _). exists l. split; [rewrite QN; exact V|]. rewrite QN in O.
    split; [|discriminate]. revert O. apply lists_words_ext. intros w _. apply ON.
Qed.

(** * Square tori *)
Lemma square_rows_ok wide ch h : 0 < ch -> ch <= 16 -> ch <> 8 \/ benign wide -> h_col h = ch -> h_row h = ch -> h_slides h = slides_for (ch * ch) -> rows_ok wide h.
Proof.
  intros P H D HC HR HS. unfold rows_ok. rewrite HS, HC, HR.
  do 17 (destruct ch as [|ch]; [try lia; cbn -[benign]; try exact Logic.I; try (split; [lia|]; first [left; discriminate | destruct D as [D|D]; [contradiction|now right]]); try (split; lia)|]). lia.
Qed.
Theorem torus_fill wide ch sites check : 1 < ch -> ch <= 16 -> ch <> 8 \/ benign wide -> StronglySorted lt sites -> sites <> [] -> (forall q, In q sites -> q < ch * ch) -> length sites <= 16 ->
  exists l, symmetrical_fill wide (lattice_ctx ch ch true true) sites check = DOk l /\ lists_words (ch * ch) (on_copy true ch ch (coords ch sites)) l /\
            (check = true -> NoDup (map hs_ops l)).
Proof.
  intros CP C16 D SS NE B L. set (c := lattice_ctx ch ch true true). assert (QN : pc_qubits c = ch * ch) by reflexivity.
  assert (IL : is_lattice c = true) by (unfold is_lattice, c; cbn; destruct (Nat.eqb_spec ch 0); [lia|reflexivity]).
  assert (CC : pc_col c = ch) by reflexivity. assert (CR : pc_row c = ch) by (unfold c; cbn; destruct (Nat.eqb_spec ch 0); [lia|reflexivity]).
  unfold symmetrical_fill. destruct sites as [|s0 r0] eqn:ES; [contradiction|]. rewrite <- ES in *. change (pc_wrap c) with true. change (pc_sym c) with true. cbn [negb].
  unfold nw_col, nw_row. rewrite IL, CC, CR. unfold make_wrapping. assert (ch * ch <= 16 * 16) by (apply Nat.mul_le_mono; lia).
  destruct (Nat.ltb_spec 256 (ch * ch)) as [|_]; [lia|].
  destruct (construct_ok wide ch ch) as (h & E & Hh & HC & HR); [nia|lia|]. rewrite E. cbn [of_site dbind].
  assert (HQ : h_qubits h = pc_qubits c) by (unfold h_qubits; now rewrite HC, HR).
  assert (HS : h_slides h = slides_for (ch * ch)).
  { unfold make_hasher in E. destruct (mask_qubits wide (last_count (ch * ch))); cbn [sbind] in E; try discriminate. destruct (mask_qubits wide ch); cbn [sbind] in E; try discriminate. now injection E as <-. }
  assert (Rok : rows_ok wide h) by (apply (square_rows_ok wide ch); auto; lia).
  assert (ON : forall w, (exists r k, (r < h_col h /\ k < h_row h) /\ acts_on (map (lat_act h (r, k)) sites) w) <-> on_copy true ch ch (coords ch sites) w).
  { assert (TC : forall r k, torus_copy ch ch (coords ch sites) r k = map (lat_act h (r, k)) sites).
    { intros r k. unfold torus_copy, coords. rewrite map_map. apply map_ext. intro q. unfold lat_act. cbn [fst snd]. now rewrite HC, HR. }
    intro w. unfold on_copy. rewrite HC, HR. split; intros (r & k & R & A); exists r, k; (split; [exact R|]); [rewrite TC; exact A|rewrite TC in A; exact A]. }
  assert (SQ : h_col h = h_row h) by congruence.
  destruct check.
  - destruct (square_aliased wide c h Hh Rok HQ) with (sites := sites) as (l & V & O); auto; try congruence. exists l. split; [exact V|]. rewrite QN in O.
    apply (lists_once_ext (ch * ch) _ _ l (fun w _ => ON w)) in O. destruct O as [O1 O2]. split; [exact O1|intros _; exact O2].
  - destruct (square_unaliased wide c h Hh Rok HQ SQ sites (sorted_nodup _ SS) B L) as (l & V & O & _). exists l. split; [exact V|]. rewrite QN in O.
    split; [|discriminate]. revert O. apply lists_words_ext. intros w _. apply ON.
Qed.

(** * Copies of shapes have as many sites as the shape *)
Definition shape_size (shape : list (nat * nat)) (ch rw : nat) : Prop := NoDup shape /\ forall i j, In (i, j) shape -> i < ch /\ j < rw.
Lemma map_nodup {X Y} (f : X -> Y) l : NoDup l -> (forall x y, In x l -> In y l -> f x = f y -> x = y) -> NoDup (map f l).
Proof.
  intros N. induction N as [|x l H N IH]; intro I; [constructor|]. cbn [map]. constructor.
  - intro J. apply in_map_iff in J. destruct J as (y & E & IY). apply H. rewrite (I x y); [exact IY|now left|now right|now symmetry].
  - apply IH. intros a b A B. apply I; now right.
Qed.
Lemma cells_eq ch a b a' b' : b < ch -> b' < ch -> a * ch + b = a' * ch + b' -> a = a' /\ b = b'.
Proof.
  intros B B' E. assert (X : (a * ch + b) / ch = (a' * ch + b') / ch) by now rewrite E.
  rewrite !Nat.div_add_l, !Nat.div_small in X by lia. split; [lia|]. nia.
Qed.
Lemma copy_length wrap ch rw shape w : pauli_word (ch * rw) w -> NoDup shape -> (wrap = true -> forall i j, In (i, j) shape -> i < ch /\ j < rw) ->
  on_copy wrap ch rw shape w -> length w = length shape.
Proof.
  intros W N P (r & k & R & A). rewrite (acts_length (ch * rw) w _ W) with (2 := A).
  - destruct wrap; [unfold torus_copy|unfold open_copy]; apply map_length.
  - destruct wrap.
    + apply map_nodup; [exact N|]. intros [i j] [i' j'] I I' E. cbn [fst snd] in E. destruct (P eq_refl i j I), (P eq_refl i' j' I').
      apply cells_eq in E; [|apply Nat.mod_upper_bound; lia|apply Nat.mod_upper_bound; lia]. destruct E as [E1 E2].
      rewrite (Nat.add_comm j), (Nat.add_comm j') in E1. rewrite (Nat.add_comm i), (Nat.add_comm i') in E2.
      apply add_mod_inj in E1; [|lia|lia]. apply add_mod_inj in E2; [|lia|lia]. congruence.
    + apply map_nodup; [exact N|]. intros [i j] [i' j'] I I' E. cbn [fst snd] in E. destruct (R i j I), (R i' j' I').
      apply cells_eq in E; [|lia|lia]. destruct E. f_equal; lia.
Qed.
Ltac distinct := repeat (constructor; [cbn; intuition discriminate|]); constructor.
Lemma triple_length wrap ch rw w : pauli_word (ch * rw) w -> (wrap = true -> 3 <= ch /\ 3 <= rw) -> in_some_triple wrap ch rw w -> length w = 3.
Proof.
  intros W P (sh & I & C). assert (X : NoDup sh /\ length sh = 3 /\ forall i j, In (i, j) sh -> i <= 2 /\ j <= 2).
  { cbn [In] in I. repeat (destruct I as [<-|I]; [split; [distinct|]; split; [reflexivity|]; intros i j J; cbn in J; intuition (match goal with H : (_, _) = _ |- _ => injection H as <- <- end; lia)|]). destruct I. }
  destruct X as (X1 & X2 & X3). rewrite <- X2. apply (copy_length wrap ch rw); auto. intros T i j J. destruct (P T), (X3 i j J). lia.
Qed.
Lemma square_length wrap ch rw w : pauli_word (ch * rw) w -> (wrap = true -> 2 <= ch /\ 2 <= rw) -> on_copy wrap ch rw square w -> length w = 4.
Proof.
  intros W P C. change 4 with (length square). apply (copy_length wrap ch rw); auto; [distinct|]. intros T i j J. destruct (P T). cbn in J.
  repeat (destruct J as [J|J]; [injection J as <- <-; lia|]). destruct J.
Qed.

(** * Lattice dictionaries *)
Lemma lattice_parts wide ch rw wrap sym level T S t s : 0 < ch -> level <= 4 ->
  lattice_triplets wide (lattice_ctx ch rw wrap sym) = DOk t -> lattice_squares wide (lattice_ctx ch rw wrap sym) = DOk s ->
  lists_words (ch * rw) T t -> lists_words (ch * rw) S s ->
  (forall w, pauli_word (ch * rw) w -> T w -> length w = 3) -> (forall w, pauli_word (ch * rw) w -> S w -> length w = 4) ->
  exists l, pauli_osg wide (lattice_ctx ch rw wrap sym) level 1 = DOk l /\
            lists_words (ch * rw) (fun w => length w <= level /\ (length w <= 1 \/ neighbouring_pair wrap ch rw w \/ T w \/ S w)) l.
Proof.
  intros CH L VT VS LT LS TL SL. set (n := ch * rw) in *. set (c := lattice_ctx ch rw wrap sym) in *.
  destruct (Nat.le_gt_cases (Nat.min level n) 2) as [M|M].
  - assert (E : pauli_osg wide c level 1 = pauli_osg wide c (Nat.min level 2) 1).
    { unfold pauli_osg, compute_neighbours. change (pc_qubits c) with n. replace (Nat.min (Nat.min level 2) n) with (Nat.min level n) by lia. reflexivity. }
    rewrite E. destruct (lattice_pairs_listed wide ch rw wrap sym (Nat.min level 2) CH ltac:(lia)) as (l & V & O & _). exists l. split; [exact V|].
    revert O. apply lists_words_ext. intros w W. assert (WN := word_length _ _ W). fold n in WN. split.
    + intros [A [B|B]]; (split; [lia|tauto]).
    + intros [A [B|[B|[B|B]]]]; [split; [lia|now left]|split; [rewrite (pair_length _ _ _ _ _ W B) in *; lia|now right]| |].
      * rewrite (TL w W B) in *. lia.
      * rewrite (SL w W B) in *. lia.
  - destruct (lattice_pairs_listed wide ch rw wrap sym 2 CH ltac:(lia)) as (l & V & O & _). fold c in V. fold n in O.
    assert (IL : is_lattice c = true) by (unfold is_lattice, c; cbn; destruct (Nat.eqb_spec ch 0); [lia|reflexivity]).
    unfold pauli_osg in *. change (1 =? 0) with false in *. cbn [negb] in *. unfold compute_neighbours in *. rewrite IL in *. change (1 <? 1) with false in *. change (1 =? 1) with true in *. cbn [andb] in *.
    change (pc_qubits c) with n in *. replace (Nat.min 2 n) with 2 in V by lia. change (2 <? 1) with false in V. change (2 <? 2) with false in V.
    destruct (Nat.ltb_spec (Nat.min level n) 1) as [|_]; [lia|]. destruct (Nat.ltb_spec (Nat.min level n) 2) as [|_]; [lia|].
    unfold lattice_neighbours in *. change (5 <=? 2) with false in V. change (3 <=? 2) with false in V. change (4 <=? 2) with false in V. cbn [dbind] in V. rewrite !app_nil_r in V. apply dok_inj in V.
    destruct (Nat.leb_spec 5 (Nat.min level n)) as [|_]; [lia|]. destruct (Nat.leb_spec 3 (Nat.min level n)) as [L3|]; [|lia]. rewrite VT. cbn [dbind].
    destruct (Nat.leb_spec 4 (Nat.min level n)) as [L4|L4].
    + rewrite VS. cbn [dbind]. eexists. split; [reflexivity|].
      replace (add_length_zero ++ add_length_one c ++ lattice_pairs c ++ t ++ s) with (l ++ t ++ s) by (rewrite <- V; now rewrite <- !app_assoc).
      assert (H := lists_app _ _ _ _ _ O (lists_app _ _ _ _ _ LT LS)). revert H. apply lists_words_ext. intros w W. split.
      * intros [[A [B|B]]|[B|B]]; [split; [lia|tauto]|split; [lia|tauto]| |]; [rewrite (TL w W B)|rewrite (SL w W B)]; (split; [lia|tauto]).
      * intros [A [B|[B|[B|B]]]]; [left; split; [lia|tauto]|left; split; [rewrite (pair_length _ _ _ _ _ W B); lia|tauto]|tauto|tauto].
    + cbn [dbind]. eexists. split; [reflexivity|].
      replace (add_length_zero ++ add_length_one c ++ lattice_pairs c ++ t ++ []) with (l ++ t) by (rewrite <- V; now rewrite app_nil_r, <- !app_assoc).
      assert (H := lists_app _ _ _ _ _ O LT). revert H. apply lists_words_ext. intros w W. assert (WN := word_length _ _ W). fold n in WN. split.
      * intros [[A [B|B]]|B]; [split; [lia|tauto]|split; [lia|tauto]|]. rewrite (TL w W B); (split; [lia|tauto]).
      * intros [A [B|[B|[B|B]]]]; [left; split; [lia|tauto]|left; split; [rewrite (pair_length _ _ _ _ _ W B); lia|tauto]|tauto|].
        rewrite (SL w W B) in *. lia.
Qed.
Theorem open_lattice_listed wide ch rw sym level : 0 < ch -> level <= 4 ->
  exists l, pauli_osg wide (lattice_ctx ch rw false sym) level 1 = DOk l /\
    lists_words (ch * rw) (fun w => length w <= level /\ (length w <= 1 \/ neighbouring_pair false ch rw w \/ in_some_triple false ch rw w \/ on_copy false ch rw square w)) l.
Proof.
  intros CH L. set (c := lattice_ctx ch rw false sym).
  assert (IL : is_lattice c = true) by (unfold is_lattice, c; cbn; destruct (Nat.eqb_spec ch 0); [lia|reflexivity]).
  assert (CR : pc_row c = rw) by (unfold c; cbn; destruct (Nat.eqb_spec ch 0); [lia|reflexivity]).
  destruct (open_triples wide c eq_refl IL) as (t & T1 & T2); [rewrite CR; reflexivity|]. destruct (open_squares wide c eq_refl IL) as (s & S1 & S2); [rewrite CR; reflexivity|].
  rewrite CR in T2, S2. apply (lattice_parts wide ch rw false sym level _ _ t s); auto.
  - intros w W. apply triple_length; [exact W|discriminate].
  - intros w W. apply square_length; [exact W|discriminate].
Qed.
Lemma shape_cells ch (cells : list (nat * nat)) : (forall r k, In (r, k) cells -> r < ch /\ k < ch) -> forall q, In q (map (fun x => snd x * ch + fst x) cells) -> q < ch * ch.
Proof. intros H q I. apply in_map_iff in I. destruct I as ([r k] & <- & I). cbn [fst snd]. destruct (H r k I). nia. Qed.
Lemma torus_shape wide ch shape check : 3 <= ch -> ch <= 16 -> ch <> 8 \/ benign wide -> (forall r k, In (r, k) shape -> r < ch /\ k < ch) -> shape <> [] -> length shape <= 16 ->
  StronglySorted lt (map (fun x => snd x * ch + fst x) shape) ->
  exists l, symmetrical_fill wide (lattice_ctx ch ch true true) (map (fun x => snd x * ch + fst x) shape) check = DOk l /\
            lists_words (ch * ch) (on_copy true ch ch shape) l.
Proof.
  intros C3 C16 D H NE L SS. destruct (torus_fill wide ch (map (fun x => snd x * ch + fst x) shape) check) as (l & V & O & _); auto; [lia| |now apply shape_cells|now rewrite map_length|].
  { destruct shape; [contradiction|discriminate]. }
  exists l. split; [exact V|]. rewrite coords_cells in O; [exact O|]. intros r k I. now destruct (H r k I).
Qed.
Theorem square_torus_listed wide ch level : 3 <= ch -> ch <= 16 -> ch <> 8 \/ benign wide -> level <= 4 ->
  exists l, pauli_osg wide (lattice_ctx ch ch true true) level 1 = DOk l /\
    lists_words (ch * ch) (fun w => length w <= level /\ (length w <= 1 \/ neighbouring_pair true ch ch w \/ in_some_triple true ch ch w \/ on_copy true ch ch square w)) l.
Proof.
  intros C3 C16 D L. set (c := lattice_ctx ch ch true true).
  assert (CR : pc_row c = ch) by (unfold c; cbn; destruct (Nat.eqb_spec ch 0); [lia|reflexivity]).
  assert (CELL : forall shape, (forall r k, In (r, k) shape -> r <= 2 /\ k <= 2) -> forall r k, In (r, k) shape -> r < ch /\ k < ch) by (intros sh H r k I; destruct (H r k I); lia).
  assert (GO : forall sites shape check, sites = map (fun x => snd x * ch + fst x) shape -> (forall r k, In (r, k) shape -> r <= 2 /\ k <= 2) -> shape <> [] -> length shape <= 16 -> StronglySorted lt sites ->
    exists l, each (fun x => symmetrical_fill wide c (fst x) (snd x)) [(sites, check)] = DOk l /\ lists_words (ch * ch) (on_copy true ch ch shape) l).
  { intros sites shape check -> H NE LS SS. destruct (torus_shape wide ch shape check C3 C16 D (CELL shape H) NE LS SS) as (l & V & O). exists l. split; [|exact O].
    cbn [each fst snd]. unfold c. rewrite V. cbn [dbind]. now rewrite app_nil_r. }
  assert (TRI : exists t, lattice_triplets wide c = DOk t /\ lists_words (ch * ch) (in_some_triple true ch ch) t).
  { unfold lattice_triplets, triplet_shapes. rewrite CR. change (pc_col c) with ch. change (pc_wrap c) with true. cbn [andb].
    destruct (Nat.leb_spec 3 ch) as [_|]; [|lia]. destruct (Nat.leb_spec 2 ch) as [_|]; [|lia]. cbn [andb app].
    destruct (GO [0; ch; 2 * ch] row3 (ch =? 3)) as (a & A1 & A2); [cbn; repeat (f_equal; try lia)|intros r k I; cbn in I; repeat (destruct I as [I|I]; [injection I as <- <-; lia|]); destruct I|discriminate|cbn; lia|sorted3|].
    destruct (GO [0; 1; 2] column3 (ch =? 3)) as (b & B1 & B2); [cbn; repeat (f_equal; try lia)|intros r k I; cbn in I; repeat (destruct I as [I|I]; [injection I as <- <-; lia|]); destruct I|discriminate|cbn; lia|sorted3|].
    destruct (GO [0; 1; ch] top_left false) as (d & D1 & D2); [cbn; repeat (f_equal; try lia)|intros r k I; cbn in I; repeat (destruct I as [I|I]; [injection I as <- <-; lia|]); destruct I|discriminate|cbn; lia|sorted3|].
    destruct (GO [0; ch; ch + 1] top_right false) as (e & E1 & E2); [cbn; repeat (f_equal; try lia)|intros r k I; cbn in I; repeat (destruct I as [I|I]; [injection I as <- <-; lia|]); destruct I|discriminate|cbn; lia|sorted3|].
    destruct (GO [0; 1; ch + 1] bottom_left false) as (f & F1 & F2); [cbn; repeat (f_equal; try lia)|intros r k I; cbn in I; repeat (destruct I as [I|I]; [injection I as <- <-; lia|]); destruct I|discriminate|cbn; lia|sorted3|].
    exists (a ++ b ++ d ++ e ++ f ++ e). split.
    - exact (each_app _ [_] [_; _; _; _; _] _ _ A1 (each_app _ [_] [_; _; _; _] _ _ B1 (each_app _ [_] [_; _; _] _ _ D1 (each_app _ [_] [_; _] _ _ E1 (each_app _ [_] [_] _ _ F1 E1))))).
    - assert (H := lists_app _ _ _ _ _ A2 (lists_app _ _ _ _ _ B2 (lists_app _ _ _ _ _ D2 (lists_app _ _ _ _ _ E2 (lists_app _ _ _ _ _ F2 E2))))).
      revert H. apply lists_words_ext. intros w _. unfold in_some_triple. split.
      + intros [H|[H|[H|[H|[H|H]]]]].
        * exists row3. split; [cbn; auto|exact H].
        * exists column3. split; [cbn; auto|exact H].
        * exists top_left. split; [cbn; auto|exact H].
        * exists top_right. split; [cbn; auto|exact H].
        * exists bottom_left. split; [cbn; auto 6|exact H].
        * exists top_right. split; [cbn; auto|exact H].
      + intros (sh & I & H). cbn [In] in I. destruct I as [<-|[<-|[<-|[<-|[<-|[]]]]]]; tauto. }
  destruct TRI as (t & T1 & T2).
  assert (SQR : exists s, lattice_squares wide c = DOk s /\ lists_words (ch * ch) (on_copy true ch ch square) s).
  { unfold lattice_squares. rewrite CR. change (pc_col c) with ch. destruct (Nat.leb_spec 2 ch) as [_|]; [|lia]. cbn [andb].
    replace [0; 1; ch; ch + 1] with (map (fun x => snd x * ch + fst x) square) by (cbn; repeat (f_equal; try lia)). apply torus_shape; auto; [|discriminate|cbn; lia|cbn; sorted3].
    apply CELL. intros r k I. cbn in I. repeat (destruct I as [I|I]; [injection I as <- <-; lia|]). destruct I. }
  destruct SQR as (s & S1 & S2).
  apply (lattice_parts wide ch ch true true level _ _ t s); auto; [lia| |].
  - intros w W. apply triple_length; [exact W|lia].
  - intros w W. apply square_length; [exact W|lia].
Qed.
