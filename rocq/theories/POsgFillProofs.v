(** All translates of a shape, on open chains and lattices; the dictionaries of open lattices. *)
From Coq Require Import List NArith Arith Bool Lia Sorted Permutation.
From Verif Require Import CoreModel CoreSpec AlgModel EnumModel EnumSpec EnumProofs PauliModel SiteModel SiteSpec SiteWordProofs POsgModel POsgSpec POsgProofs POsgListProofs POsgChainProofs POsgRingProofs POsgPairProofs.
Import ListNotations.

Lemma fold_max_le ch rest : forall i x, fold_left (fun m q => Nat.max m (q mod ch + 1)) rest i <= x <-> i <= x /\ forall q, In q rest -> q mod ch + 1 <= x.
Proof.
  induction rest as [|q rest IH]; intros i x; cbn [fold_left].
  - split; [intro H; split; [exact H|intros q []]|intros [H _]; exact H].
  - rewrite IH. split.
    + intros [A B]. split; [lia|]. intros p [<-|P]; [lia|now apply B].
    + intros [A B]. split; [assert (q mod ch + 1 <= x) by (apply B; now left); lia|]. intros p P. apply B. now right.
Qed.
Lemma last_max s : forall d, StronglySorted lt s -> forall q, In q s -> q <= last s d.
Proof.
  intros d SS. induction SS as [|x l SS IH F]; intros q I; [destruct I|]. rewrite Forall_forall in F. destruct l as [|y l].
  - destruct I as [<-|[]]. cbn. lia.
  - change (last (x :: y :: l) d) with (last (y :: l) d). destruct I as [<-|I]; [|now apply IH]. specialize (F y (or_introl eq_refl)).
    specialize (IH y (or_introl eq_refl)). lia.
Qed.
Lemma last_in (s : list nat) d : s <> [] -> In (last s d) s.
Proof. induction s as [|x s IH]; intro H; [contradiction|]. destruct s as [|y s]; [now left|]. right. apply IH. discriminate. Qed.
Lemma open_place_iff c sites r k : 0 < nw_col c -> StronglySorted lt sites -> sites <> [] ->
  (r < 1 + nw_col c - fst (site_supremum c sites) /\ k < 1 + nw_row c - snd (site_supremum c sites) <->
   open_place (nw_col c) (nw_row c) (coords (nw_col c) sites) r k).
Proof.
  intros CH SS NE. destruct sites as [|s rest]; [contradiction|]. unfold site_supremum. set (ch := nw_col c) in *. set (rw := nw_row c).
  cbn [fst snd]. set (L := last (s :: rest) 0). unfold open_place, coords. split.
  - intros [R K] i j I. apply in_map_iff in I. destruct I as (q & E & I). injection E as <- <-. unfold row_of, col_of.
    set (X := fold_left (fun m q => Nat.max m (q mod ch + 1)) rest (s mod ch + 1)) in *.
    assert (H := proj1 (fold_max_le ch rest (s mod ch + 1) X) (le_n _)). destruct H as [H1 H2].
    assert (q mod ch + 1 <= X) by (destruct I as [<-|I]; [exact H1|now apply H2]).
    assert (QL := last_max _ 0 SS q I). fold L in QL. assert (q / ch <= L / ch) by (apply Nat.div_le_mono; lia). lia.
  - intro H. assert (Q : forall q, In q (s :: rest) -> q mod ch + r < ch /\ q / ch + k < rw).
    { intros q I. apply (H (row_of ch q) (col_of ch q)). apply (in_map (fun q => (row_of ch q, col_of ch q))), I. }
    split.
    + assert (B : fold_left (fun m q => Nat.max m (q mod ch + 1)) rest (s mod ch + 1) <= ch - r).
      { apply fold_max_le. split; [destruct (Q s (or_introl eq_refl)); lia|]. intros q I. destruct (Q q (or_intror I)). lia. }
      destruct (Q s (or_introl eq_refl)). lia.
    + assert (LI : In L (s :: rest)) by (apply last_in; discriminate). destruct (Q L LI). lia.
Qed.
Definition copies (c : pctx) (sites : list nat) : list (list nat) :=
  flat_map (fun col => map (fun row => map (fun q => q + (col * nw_col c + row)) sites) (seq 0 (1 + nw_col c - fst (site_supremum c sites))))
           (seq 0 (1 + nw_row c - snd (site_supremum c sites))).
Lemma shift_sorted x s : StronglySorted lt s -> StronglySorted lt (map (fun q => q + x) s).
Proof.
  induction 1 as [|y l S IH F]; cbn; constructor; [exact IH|]. apply Forall_forall. intros q I. apply in_map_iff in I. destruct I as (z & <- & Z).
  rewrite Forall_forall in F. specialize (F z Z). lia.
Qed.
Lemma copy_shift ch sites r k : 0 < ch -> open_copy ch (coords ch sites) r k = map (fun q => q + (k * ch + r)) sites.
Proof.
  intro C. unfold open_copy, coords. rewrite map_map. apply map_ext. intro q. cbn [fst snd]. unfold row_of, col_of.
  assert (M := Nat.div_mod q ch ltac:(lia)). nia.
Qed.
Lemma copies_in c sites s : 0 < nw_col c -> StronglySorted lt sites -> sites <> [] ->
  (In s (copies c sites) <-> exists r k, open_place (nw_col c) (nw_row c) (coords (nw_col c) sites) r k /\ s = open_copy (nw_col c) (coords (nw_col c) sites) r k).
Proof.
  intros C SS NE. unfold copies. rewrite in_flat_map. split.
  - intros (k & K & I). apply in_map_iff in I. destruct I as (r & <- & R). apply in_seq in K, R. exists r, k.
    split; [apply open_place_iff; auto; lia|]. symmetry. now apply copy_shift.
  - intros (r & k & P & ->). apply open_place_iff in P; auto. exists k. split; [apply in_seq; lia|]. apply in_map_iff. exists r.
    split; [symmetry; now apply copy_shift|apply in_seq; lia].
Qed.
Lemma copies_fine c sites s : 0 < nw_col c -> StronglySorted lt sites -> sites <> [] -> In s (copies c sites) ->
  StronglySorted lt s /\ forall q, In q s -> q < nw_col c * nw_row c.
Proof.
  intros C SS NE I. apply copies_in in I; auto. destruct I as (r & k & P & ->). split.
  - rewrite copy_shift by exact C. now apply shift_sorted.
  - intros q I. unfold open_copy in I. apply in_map_iff in I. destruct I as ([i j] & <- & I). destruct (P i j I) as [R K]. cbn [fst snd].
    now apply cell_lt.
Qed.
Lemma copies_nodup c sites : 0 < nw_col c -> StronglySorted lt sites -> sites <> [] -> NoDup (copies c sites).
Proof.
  intros C SS NE. destruct sites as [|s rest]; [contradiction|]. unfold copies. set (X := site_supremum c (s :: rest)).
  assert (F : 1 <= fst X).
  { unfold X, site_supremum. cbn [fst]. assert (H := proj1 (fold_max_le (nw_col c) rest (s mod nw_col c + 1) _) (le_n _)). destruct H as [H _]. lia. }
  assert (OFF : forall x y, map (fun q => q + x) (s :: rest) = map (fun q => q + y) (s :: rest) -> x = y).
  { intros x y E. cbn [map] in E. injection E as E _. lia. }
  apply nodup_flat; [apply seq_NoDup| |].
  - intros k K. assert (H : forall l, NoDup l -> NoDup (map (fun row => map (fun q => q + (k * nw_col c + row)) (s :: rest)) l)).
    { intros l N. induction N as [|r l NI N IH]; [constructor|]. cbn [map]. constructor; [|exact IH]. intro I. apply in_map_iff in I.
      destruct I as (r' & E & I). change (map (fun q => q + (k * nw_col c + r')) (s :: rest) = map (fun q => q + (k * nw_col c + r)) (s :: rest)) in E.
      apply OFF in E. apply NI. replace r with r' by lia. exact I. }
    apply H, seq_NoDup.
  - intros k k' t K K' I J. apply in_map_iff in I, J. destruct I as (r & <- & R), J as (r' & E & R'). apply in_seq in R, R'.
    apply OFF in E. apply cell_inj in E; [symmetry; apply E|lia|lia].
Qed.
Lemma wrapless_value c sites : 0 < nw_col c -> StronglySorted lt sites -> sites <> [] ->
  wrapless_symmetrical_fill c sites = DOk (flat_map (fill_words (pc_qubits c)) (copies c sites)).
Proof.
  intros C SS NE. unfold wrapless_symmetrical_fill. destruct sites as [|s rest]; [contradiction|]. unfold copies. rewrite flat_flat. apply each_ok.
  intros k K. rewrite <- (flat_map_of (fill_words (pc_qubits c)) (fun row => map (fun q => q + (k * nw_col c + row)) (s :: rest))).
  apply each_ok. intros r R. apply permutation_fill_value. now apply sorted_nodup, shift_sorted.
Qed.
Lemma copies_words c sites w : 0 < nw_col c -> StronglySorted lt sites -> sites <> [] ->
  (on_sites (copies c sites) w <-> on_copy false (nw_col c) (nw_row c) (coords (nw_col c) sites) w).
Proof.
  intros C SS NE. unfold on_sites, on_copy. split.
  - intros (s & I & A). apply copies_in in I; auto. destruct I as (r & k & P & ->). exists r, k. now split.
  - intros (r & k & P & A). exists (open_copy (nw_col c) (coords (nw_col c) sites) r k). split; [|exact A]. apply copies_in; auto. now exists r, k.
Qed.
Theorem open_fill wide c sites check : pc_wrap c = false -> pc_qubits c = nw_col c * nw_row c -> 0 < nw_col c -> StronglySorted lt sites -> sites <> [] ->
  exists l, symmetrical_fill wide c sites check = DOk l /\ lists_once (pc_qubits c) (on_copy false (nw_col c) (nw_row c) (coords (nw_col c) sites)) l.
Proof.
  intros W Q C SS NE. unfold symmetrical_fill. rewrite W. cbn [negb]. destruct sites as [|s rest] eqn:E; [contradiction|]. rewrite <- E in *.
  rewrite (wrapless_value c sites C SS NE). eexists. split; [reflexivity|]. apply lists_once_ext with (P := on_sites (copies c sites)).
  - intros w _. now apply copies_words.
  - apply fills_once; [|now apply copies_nodup|].
    + intros t T. destruct (copies_fine c sites t C SS NE T) as [S1 B]. split; [now apply sorted_nodup|]. now rewrite Q.
    + intros t t' T T' EQ. apply sorted_same; [apply (copies_fine c sites t C SS NE T)|apply (copies_fine c sites t' C SS NE T')|exact EQ].
Qed.

(** * Dictionaries of lattices up to length two *)
Lemma short_words n w : pauli_word n w -> (length w <= 1 <-> on_sites ([[]] ++ map (fun q => [q]) (seq 0 n)) w).
Proof.
  intro W. split.
  - intro L. exists (support w). split; [|intro q; reflexivity]. destruct w as [|o [|? ?]]; [now left| |cbn in L; lia].
    right. change (support [o]) with ((fun q => [q]) (o / 3)). apply (in_map (fun q => [q])). apply in_seq. assert (H := support_lt n [o] (o / 3) W (or_introl eq_refl)). lia.
  - intros (s & I & A). assert (G : good_sites n s /\ length s <= 1).
    { destruct I as [<-|I]; [repeat split; [constructor|intros q []|cbn; lia]|]. apply in_map_iff in I. destruct I as (q & <- & Q). apply in_seq in Q.
      repeat split; [repeat constructor; intros []|intros p [<-|[]]; lia|cbn; lia]. }
    destruct G as [[N _] L]. rewrite (acts_length n w s W N A). exact L.
Qed.
Lemma pair_length n w wrap ch rw : pauli_word n w -> neighbouring_pair wrap ch rw w -> length w = 2.
Proof.
  intros W (a & b & NE & _ & A). rewrite (acts_length n w [a; b] W); [reflexivity| |exact A]. constructor; [intros [E|[]]; congruence|repeat constructor; intros []].
Qed.
Theorem lattice_pairs_listed wide ch rw wrap sym level : 0 < ch -> level <= 2 ->
  exists l, pauli_osg wide (lattice_ctx ch rw wrap sym) level 1 = DOk l /\
            lists_once (ch * rw) (fun w => length w <= level /\ (length w <= 1 \/ neighbouring_pair wrap ch rw w)) l.
Proof.
  intros CH L. set (c := lattice_ctx ch rw wrap sym). assert (IL : is_lattice c = true) by (unfold is_lattice, c; cbn; destruct (Nat.eqb_spec ch 0); [lia|reflexivity]).
  assert (QN : pc_qubits c = ch * rw) by reflexivity. assert (RW : pc_row c = rw) by (unfold c; cbn; destruct (Nat.eqb_spec ch 0); [lia|reflexivity]).
  unfold pauli_osg. change (1 =? 0) with false. cbn [negb]. unfold compute_neighbours. rewrite IL. change (1 <? 1) with false. change (1 =? 1) with true. cbn [andb]. rewrite QN. set (n := ch * rw) in *.
  assert (SHORT : lists_once n (fun w => length w <= 1) (flat_map (fill_words n) ([[]] ++ map (fun q => [q]) (seq 0 n)))).
  { apply lists_once_ext with (P := on_sites ([[]] ++ map (fun q => [q]) (seq 0 n))).
    - intros w W. symmetry. now apply short_words.
    - apply fills_once.
      + intros s [<-|I]; [split; [constructor|intros q []]|]. apply in_map_iff in I. destruct I as (q & <- & Q). apply in_seq in Q.
        split; [repeat constructor; intros []|intros p [<-|[]]; lia].
      + cbn [app]. constructor; [intro I; apply in_map_iff in I; destruct I as (q & E & _); discriminate|].
        apply FinFun.Injective_map_NoDup; [intros x y E; congruence|apply seq_NoDup].
      + intros s s' I I'. apply singleton_same; [destruct I as [<-|I]|destruct I' as [<-|I']]; cbn; try lia.
        * apply in_map_iff in I. destruct I as (q & <- & _). cbn. lia.
        * apply in_map_iff in I'. destruct I' as (q & <- & _). cbn. lia. }
  destruct (Nat.ltb_spec (Nat.min level n) 1) as [L0|L1].
  { eexists. split; [reflexivity|]. rewrite (zero_value n). apply lists_once_ext with (P := on_sites [[]]).
    - intros w W. split.
      + intros (s & [<-|[]] & A). rewrite (acts_length n w [] W); [cbn; lia|constructor|exact A].
      + intros [K _]. assert (WN := word_length n w W). exists []. split; [now left|]. destruct w; [intro q; reflexivity|cbn in *; lia].
    - apply fills_once; [intros s [<-|[]]; split; [constructor|intros q []]|repeat constructor; intros []|]. intros s s' [<-|[]] [<-|[]] _. reflexivity. }
  destruct (Nat.ltb_spec (Nat.min level n) 2) as [L2|L2].
  { eexists. split; [reflexivity|]. rewrite one_value, QN, (zero_value n), <- flat_map_app. apply lists_once_ext with (P := fun w => length w <= 1); [|exact SHORT].
    intros w W. assert (WN := word_length n w W). split; [intro K; lia|]. intros [K _]. lia. }
  assert (level = 2) by lia. subst level. assert (RP : 0 < rw) by (destruct rw; [unfold n in *; rewrite Nat.mul_0_r in *; lia|lia]).
  unfold lattice_neighbours. destruct (Nat.leb_spec 5 (Nat.min 2 n)) as [|_]; [lia|]. destruct (Nat.leb_spec 3 (Nat.min 2 n)) as [|_]; [lia|].
  destruct (Nat.leb_spec 4 (Nat.min 2 n)) as [|_]; [lia|]. cbn [dbind]. eexists. split; [reflexivity|].
  rewrite !app_nil_r. rewrite one_value, QN, (zero_value n), app_assoc, <- flat_map_app. rewrite lattice_pairs_value; [|exact CH|rewrite RW; exact RP]. rewrite QN, RW.
  change (pc_wrap c) with wrap. change (pc_col c) with ch. rewrite <- flat_map_app.
  set (A := [[]] ++ map (fun q => [q]) (seq 0 n)) in *.
  apply lists_once_ext with (P := on_sites (A ++ links wrap ch rw)).
  - intros w W. assert (H1 := short_words n w W). fold A in H1. assert (H2 := links_words wrap ch rw w CH W).
    assert (H : on_sites (A ++ links wrap ch rw) w <-> on_sites A w \/ on_sites (links wrap ch rw) w).
    { unfold on_sites. split.
      - intros (s & I & X). apply in_app_iff in I. destruct I as [I|I]; [left|right]; now exists s.
      - intros [(s & I & X)|(s & I & X)]; exists s; (split; [apply in_app_iff; auto|exact X]). }
    rewrite H, <- H1, H2. split.
    + intros [K|K]; [split; [lia|now left]|]. split; [|now right]. rewrite (pair_length n w wrap ch rw W K). lia.
    + intros [_ K]. exact K.
  - assert (SA : forall s, In s A -> length s <= 1).
    { intros s [<-|I]; [cbn; lia|]. apply in_map_iff in I. destruct I as (q & <- & _). cbn. lia. }
    assert (SB : forall s, In s (links wrap ch rw) -> length s = 2).
    { intros s I. apply links_in in I. destruct I as (r & k & r2 & k2 & _ & _ & _ & _ & _ & ->). reflexivity. }
    assert (GA : forall s, In s A -> good_sites n s).
    { intros s [<-|I]; [split; [constructor|intros q []]|]. apply in_map_iff in I. destruct I as (q & <- & Q). apply in_seq in Q.
      split; [repeat constructor; intros []|intros p [<-|[]]; lia]. }
    assert (LEN : forall s s', good_sites n s -> good_sites n s' -> same_set s s' -> length s = length s').
    { intros s s' [N _] [N' _] E. now apply Permutation_length, NoDup_Permutation. }
    apply fills_once.
    + intros s I. apply in_app_iff in I. destruct I as [I|I]; [now apply GA|now apply (links_good wrap)].
    + apply nodup_app; [|apply links_nodup|].
      * unfold A. cbn [app]. constructor; [intro I; apply in_map_iff in I; destruct I as (q & E & _); discriminate|].
        apply FinFun.Injective_map_NoDup; [intros x y E; congruence|apply seq_NoDup].
      * intros s I J. specialize (SA s I). specialize (SB s J). lia.
    + intros s s' I I' E. apply in_app_iff in I, I'. destruct I as [I|I], I' as [I'|I'].
      * apply singleton_same; auto.
      * specialize (LEN s s' (GA s I) (links_good wrap ch rw s' I') E). specialize (SA s I). specialize (SB s' I'). lia.
      * specialize (LEN s s' (links_good wrap ch rw s I) (GA s' I') E). specialize (SA s' I'). specialize (SB s I). lia.
      * now apply (links_distinct wrap ch rw).
Qed.

(** * Open lattices, lengths three and four *)
Lemma lists_app n P Q l m : lists_words n P l -> lists_words n Q m -> lists_words n (fun w => P w \/ Q w) (l ++ m).
Proof.
  intros [A B] [A' B']. split.
  - intros s I. apply in_app_iff in I. destruct I as [I|I]; [now apply A|now apply A'].
  - intro w. rewrite map_app, in_app_iff, B, B'. tauto.
Qed.
Lemma lists_nil n P : (forall w, pauli_word n w -> ~ P w) -> lists_words n P [].
Proof. intro H. split; [intros s []|]. intro w. split; [intros []|]. intros [W X]. exact (H w W X). Qed.
Lemma coords_cells ch (cells : list (nat * nat)) : (forall r k, In (r, k) cells -> r < ch) -> coords ch (map (fun x => snd x * ch + fst x) cells) = cells.
Proof.
  intro H. unfold coords. rewrite map_map. rewrite <- (map_id cells) at 2. apply map_ext_in. intros [r k] I. cbn [fst snd].
  rewrite cell_row, cell_col by (apply (H r k I)). reflexivity.
Qed.
Lemma guarded_fill (b : bool) wide c sites check shape : pc_wrap c = false -> is_lattice c = true -> pc_qubits c = pc_col c * pc_row c ->
  (b = true -> StronglySorted lt sites /\ sites <> [] /\ coords (pc_col c) sites = shape) ->
  (b = false -> forall r k, ~ open_place (pc_col c) (pc_row c) shape r k) ->
  exists l, each (fun x => symmetrical_fill wide c (fst x) (snd x)) (if b then [(sites, check)] else []) = DOk l /\
            lists_words (pc_qubits c) (on_copy false (pc_col c) (pc_row c) shape) l.
Proof.
  intros W IL Q T F. assert (NC : nw_col c = pc_col c) by (unfold nw_col; now rewrite IL). assert (NR : nw_row c = pc_row c) by (unfold nw_row; now rewrite IL).
  destruct b.
  - destruct (T eq_refl) as (SS & NE & E). assert (C : 0 < nw_col c) by (rewrite NC; unfold is_lattice in IL; destruct (Nat.eqb_spec (pc_col c) 0); [discriminate|lia]).
    destruct (open_fill wide c sites check W ltac:(now rewrite NC, NR) C SS NE) as (l & V & [X _]). cbn [each fst snd]. rewrite V. cbn [dbind]. rewrite app_nil_r.
    exists l. split; [reflexivity|]. rewrite NC, NR, E in X. exact X.
  - exists []. split; [reflexivity|]. apply lists_nil. intros w _ (r & k & P & _). exact (F eq_refl r k P).
Qed.
Lemma each_app {X Y} (f : X -> dout (list Y)) a b la lb : each f a = DOk la -> each f b = DOk lb -> each f (a ++ b) = DOk (la ++ lb).
Proof.
  revert la. induction a as [|x a IH]; intros la A B; cbn [app each] in *; [injection A as <-; exact B|].
  destruct (f x) as [u| | |]; cbn [dbind] in *; try discriminate. destruct (each f a) as [v| | |]; cbn [dbind] in *; try discriminate.
  injection A as <-. rewrite (IH v eq_refl B). cbn [dbind]. now rewrite app_assoc.
Qed.
Ltac sorted3 := repeat (constructor; [|repeat (constructor; [lia|]); constructor]); constructor.
Lemma open_triples wide c : pc_wrap c = false -> is_lattice c = true -> pc_qubits c = pc_col c * pc_row c ->
  exists l, lattice_triplets wide c = DOk l /\ lists_words (pc_qubits c) (in_some_triple false (pc_col c) (pc_row c)) l.
Proof.
  intros W IL Q. set (ch := pc_col c). set (rw := pc_row c). unfold lattice_triplets, triplet_shapes. fold ch. fold rw.
  assert (SP : exists a b d e f g,
    each (fun x => symmetrical_fill wide c (fst x) (snd x)) (if 3 <=? rw then [([0; ch; 2 * ch], pc_wrap c && (rw =? 3))] else []) = DOk a /\
    each (fun x => symmetrical_fill wide c (fst x) (snd x)) (if 3 <=? ch then [([0; 1; 2], pc_wrap c && (ch =? 3))] else []) = DOk b /\
    each (fun x => symmetrical_fill wide c (fst x) (snd x)) (if (2 <=? rw) && (2 <=? ch) then [([0; 1; ch], false)] else []) = DOk d /\
    each (fun x => symmetrical_fill wide c (fst x) (snd x)) (if (2 <=? rw) && (2 <=? ch) then [([0; ch; ch + 1], false)] else []) = DOk e /\
    each (fun x => symmetrical_fill wide c (fst x) (snd x)) (if (2 <=? rw) && (2 <=? ch) then [([0; 1; ch + 1], false)] else []) = DOk f /\
    each (fun x => symmetrical_fill wide c (fst x) (snd x)) (if (2 <=? rw) && (2 <=? ch) then [([0; ch; ch + 1], false)] else []) = DOk g /\
    lists_words (pc_qubits c) (on_copy false ch rw row3) a /\ lists_words (pc_qubits c) (on_copy false ch rw column3) b /\
    lists_words (pc_qubits c) (on_copy false ch rw top_left) d /\ lists_words (pc_qubits c) (on_copy false ch rw top_right) e /\
    lists_words (pc_qubits c) (on_copy false ch rw bottom_left) f /\ lists_words (pc_qubits c) (on_copy false ch rw top_right) g).
  { assert (CP : 0 < ch) by (unfold ch, is_lattice in *; destruct (Nat.eqb_spec (pc_col c) 0); [discriminate|lia]).
    assert (Z : forall P : Prop, (2 <=? rw) && (2 <=? ch) = true -> (2 <= rw -> 2 <= ch -> P) -> P).
    { intros P H X. apply andb_true_iff in H. rewrite !Nat.leb_le in H. apply X; apply H. }
    assert (Z' : forall P : Prop, (2 <=? rw) && (2 <=? ch) = false -> (rw < 2 \/ ch < 2 -> P) -> P).
    { intros P H X. apply andb_false_iff in H. rewrite !Nat.leb_gt in H. apply X, H. }
    assert (GT : forall check, exists l, each (fun x => symmetrical_fill wide c (fst x) (snd x)) (if (2 <=? rw) && (2 <=? ch) then [([0; ch; ch + 1], check)] else []) = DOk l /\
      lists_words (pc_qubits c) (on_copy false ch rw top_right) l).
    { intro check. apply guarded_fill; auto.
      - intro H. apply (Z _ H). intros R C. split; [sorted3|]. split; [discriminate|]. fold ch.
        replace [0; ch; ch + 1] with (map (fun x => snd x * ch + fst x) top_right) by (cbn; repeat (f_equal; try lia)). apply coords_cells.
        intros r k I. cbn in I. repeat (destruct I as [I|I]; [injection I as <- <-; lia|]). destruct I.
      - intro H. apply (Z' _ H). intros X r k P. fold ch in P. fold rw in P. destruct (P 1 1 ltac:(cbn; auto)). lia. }
    destruct (guarded_fill (3 <=? rw) wide c [0; ch; 2 * ch] (pc_wrap c && (rw =? 3)) row3 W IL Q) as (a & A1 & A2).
    { intro H. apply Nat.leb_le in H. split; [sorted3|]. split; [discriminate|]. fold ch.
      replace [0; ch; 2 * ch] with (map (fun x => snd x * ch + fst x) row3) by (cbn; repeat (f_equal; try lia)). apply coords_cells.
      intros r k I. cbn in I. repeat (destruct I as [I|I]; [injection I as <- <-; lia|]). destruct I. }
    { intros H r k P. apply Nat.leb_gt in H. fold ch in P. fold rw in P. destruct (P 0 2 ltac:(cbn; auto)). lia. }
    destruct (guarded_fill (3 <=? ch) wide c [0; 1; 2] (pc_wrap c && (ch =? 3)) column3 W IL Q) as (b & B1 & B2).
    { intro H. apply Nat.leb_le in H. split; [sorted3|]. split; [discriminate|]. fold ch.
      replace [0; 1; 2] with (map (fun x => snd x * ch + fst x) column3) by (cbn; repeat (f_equal; try lia)). apply coords_cells.
      intros r k I. cbn in I. repeat (destruct I as [I|I]; [injection I as <- <-; lia|]). destruct I. }
    { intros H r k P. apply Nat.leb_gt in H. fold ch in P. fold rw in P. destruct (P 2 0 ltac:(cbn; auto)). lia. }
    destruct (guarded_fill ((2 <=? rw) && (2 <=? ch)) wide c [0; 1; ch] false top_left W IL Q) as (d & D1 & D2).
    { intro H. apply (Z _ H). intros R C. split; [sorted3|]. split; [discriminate|]. fold ch.
      replace [0; 1; ch] with (map (fun x => snd x * ch + fst x) top_left) by (cbn; repeat (f_equal; try lia)). apply coords_cells.
      intros r k I. cbn in I. repeat (destruct I as [I|I]; [injection I as <- <-; lia|]). destruct I. }
    { intro H. apply (Z' _ H). intros X r k P. fold ch in P. fold rw in P. destruct (P 1 0 ltac:(cbn; auto)), (P 0 1 ltac:(cbn; auto)). lia. }
    destruct (guarded_fill ((2 <=? rw) && (2 <=? ch)) wide c [0; 1; ch + 1] false bottom_left W IL Q) as (f & F1 & F2).
    { intro H. apply (Z _ H). intros R C. split; [sorted3|]. split; [discriminate|]. fold ch.
      replace [0; 1; ch + 1] with (map (fun x => snd x * ch + fst x) bottom_left) by (cbn; repeat (f_equal; try lia)). apply coords_cells.
      intros r k I. cbn in I. repeat (destruct I as [I|I]; [injection I as <- <-; lia|]). destruct I. }
    { intro H. apply (Z' _ H). intros X r k P. fold ch in P. fold rw in P. destruct (P 1 1 ltac:(cbn; auto)). lia. }
    destruct (GT false) as (e & E1 & E2).
    exists a, b, d, e, f, e. repeat (split; [assumption|]). assumption. }
  destruct SP as (a & b & d & e & f & g & A1 & B1 & D1 & E1 & F1 & G1 & A2 & B2 & D2 & E2 & F2 & G2).
  exists (a ++ b ++ d ++ e ++ f ++ g). split.
  - apply each_app; [exact A1|]. apply each_app; [exact B1|].
    destruct ((2 <=? rw) && (2 <=? ch)).
    + exact (each_app _ [_] [_; _; _] _ _ D1 (each_app _ [_] [_; _] _ _ E1 (each_app _ [_] [_] _ _ F1 G1))).
    + cbn [each] in *. apply dok_inj in D1, E1, F1, G1. rewrite <- D1, <- E1, <- F1, <- G1. reflexivity.
  - assert (H := lists_app _ _ _ _ _ A2 (lists_app _ _ _ _ _ B2 (lists_app _ _ _ _ _ D2 (lists_app _ _ _ _ _ E2 (lists_app _ _ _ _ _ F2 G2))))).
    revert H. apply lists_words_ext. intros w _. unfold in_some_triple. split.
    + intros [H|[H|[H|[H|[H|H]]]]].
      * exists row3. split; [cbn; auto|exact H].
      * exists column3. split; [cbn; auto|exact H].
      * exists top_left. split; [cbn; auto|exact H].
      * exists top_right. split; [cbn; auto|exact H].
      * exists bottom_left. split; [cbn; auto 6|exact H].
      * exists top_right. split; [cbn; auto|exact H].
    + intros (sh & I & H). cbn [In] in I. destruct I as [<-|[<-|[<-|[<-|[<-|[]]]]]]; tauto.
Qed.
Lemma open_squares wide c : pc_wrap c = false -> is_lattice c = true -> pc_qubits c = pc_col c * pc_row c ->
  exists l, lattice_squares wide c = DOk l /\ lists_words (pc_qubits c) (on_copy false (pc_col c) (pc_row c) square) l.
Proof.
  intros W IL Q. set (ch := pc_col c). set (rw := pc_row c). unfold lattice_squares. fold ch. fold rw.
  destruct (guarded_fill ((2 <=? rw) && (2 <=? ch)) wide c [0; 1; ch; ch + 1] (pc_wrap c && ((rw =? 2) || (ch =? 2))) square W IL Q) as (f & F1 & F2).
  { intro H. apply andb_true_iff in H. rewrite !Nat.leb_le in H. split; [sorted3|]. split; [discriminate|]. fold ch.
    replace [0; 1; ch; ch + 1] with (map (fun x => snd x * ch + fst x) square) by (cbn; repeat (f_equal; try lia)). apply coords_cells.
    intros r k I. cbn in I. repeat (destruct I as [I|I]; [injection I as <- <-; lia|]). destruct I. }
  { intro H. apply andb_false_iff in H. rewrite !Nat.leb_gt in H. intros r k P. fold ch in P. fold rw in P. destruct (P 1 1 ltac:(cbn; auto)). lia. }
  exists f. split; [|exact F2]. destruct ((2 <=? rw) && (2 <=? ch)); [|exact F1]. cbn [each fst snd] in F1.
  destruct (symmetrical_fill wide c [0; 1; ch; ch + 1] (pc_wrap c && ((rw =? 2) || (ch =? 2)))); cbn [dbind] in F1; try discriminate.
  now rewrite app_nil_r in F1.
Qed.
