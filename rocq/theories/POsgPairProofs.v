(** Neighbouring pairs on lattices. *)
From Coq Require Import List NArith Arith Bool Lia Sorted Permutation.
From Verif Require Import CoreModel CoreSpec AlgModel EnumModel EnumSpec EnumProofs PauliModel SiteModel SiteSpec SiteWordProofs POsgModel POsgSpec POsgProofs POsgListProofs POsgChainProofs POsgRingProofs.
Import ListNotations.

Lemma cell_inj ch c r c' r' : r < ch -> r' < ch -> c * ch + r = c' * ch + r' -> c = c' /\ r = r'.
Proof. intros R R' E. destruct (Nat.lt_trichotomy c c') as [C|[C|C]]; [exfalso; nia| |exfalso; nia]. subst c'. lia. Qed.
Lemma cell_col ch c r : r < ch -> col_of ch (c * ch + r) = c.
Proof. intro R. unfold col_of. symmetry. apply (Nat.div_unique _ _ _ r); lia. Qed.
Lemma cell_row ch c r : r < ch -> row_of ch (c * ch + r) = r.
Proof. intro R. unfold row_of. symmetry. apply (Nat.mod_unique _ _ c); lia. Qed.
Lemma cell_of ch rw q : 0 < ch -> q < ch * rw -> exists r c, r < ch /\ c < rw /\ q = c * ch + r.
Proof.
  intros C Q. exists (q mod ch), (q / ch). split; [apply Nat.mod_upper_bound; lia|]. split; [apply Nat.div_lt_upper_bound; lia|].
  assert (M := Nat.div_mod q ch ltac:(lia)). lia.
Qed.
Lemma cell_lt ch rw r c : r < ch -> c < rw -> c * ch + r < ch * rw.
Proof. nia. Qed.

(** links, from the cell in row r and column c *)
Definition vertical (wrap : bool) (ch r k : nat) : list (list nat) :=
  if r + 1 <? ch then [[k; k + 1]] else if wrap && (2 <? ch) then [[k; k + 1 - ch]] else [].
Definition horizontal (wrap : bool) (ch rw r c k : nat) : list (list nat) :=
  if c + 1 <? rw then [[k; k + ch]] else if wrap && (2 <? rw) then [[k; r]] else [].
Definition cell_links (wrap : bool) (ch rw c r : nat) : list (list nat) :=
  vertical wrap ch r (c * ch + r) ++ horizontal wrap ch rw r c (c * ch + r).
Definition links (wrap : bool) (ch rw : nat) : list (list nat) :=
  flat_map (fun c => flat_map (cell_links wrap ch rw c) (seq 0 ch)) (seq 0 rw).

Lemma loop_cells {A} (g : nat -> list A) m : forall a k out,
  fold_left (fun (st : nat * list A) (_ : nat) => let '(k, out) := st in (S k, out ++ g k)) (seq a m) (k, out) = (k + m, out ++ flat_map g (seq k m)).
Proof.
  induction m as [|m IH]; intros a k out; [cbn; now rewrite Nat.add_0_r, app_nil_r|]. cbn [seq fold_left flat_map]. rewrite IH. f_equal; [lia|].
  now rewrite app_assoc.
Qed.
Lemma loop_last {A} (g : nat -> nat -> list A) m : forall a k out,
  fold_left (fun (st : nat * list A) (r : nat) => let '(k, out) := st in (S k, out ++ g k r)) (seq a m) (k, out) =
  (k + m, out ++ flat_map (fun r => g (k + (r - a)) r) (seq a m)).
Proof.
  induction m as [|m IH]; intros a k out; [cbn; now rewrite Nat.add_0_r, app_nil_r|]. cbn [seq fold_left flat_map]. rewrite IH. f_equal; [lia|].
  rewrite Nat.sub_diag, Nat.add_0_r, <- app_assoc. f_equal. f_equal. apply flat_ext. intros r R. apply in_seq in R. f_equal. lia.
Qed.
Lemma flat_seq_from {A} (g : nat -> list A) m : forall a, flat_map g (seq a m) = flat_map (fun r => g (a + r)) (seq 0 m).
Proof.
  intro a. rewrite (flat_map_of g (fun r => a + r)). f_equal. clear. revert a.
  induction m as [|m IH]; intro a; [reflexivity|]. cbn [seq map]. rewrite Nat.add_0_r. f_equal. rewrite (IH (S a)), <- seq_shift, map_map.
  apply map_ext. intro x. lia.
Qed.

Lemma seq_last m : 0 < m -> seq 0 m = seq 0 (m - 1) ++ [m - 1].
Proof. intro M. replace m with (m - 1 + 1) at 1 by lia. rewrite seq_app. reflexivity. Qed.
Lemma lattice_pairs_value c : 0 < pc_col c -> 0 < pc_row c ->
  lattice_pairs c = flat_map (fill_words (pc_qubits c)) (links (pc_wrap c) (pc_col c) (pc_row c)).
Proof.
  intros C R. set (ch := pc_col c) in *. set (rw := pc_row c) in *. set (wrap := pc_wrap c). set (n := pc_qubits c).
  set (F := fill_words n).
  assert (TV : forall a b, a <> b -> two_qubit_fill c a b = F [a; b]) by (intros a b; apply two_fill_value).
  (* one column *)
  assert (COL : forall k col out, k = col * ch -> col + 1 < rw ->
    pairs_column c (k, out) = (k + ch, out ++ flat_map F (flat_map (cell_links wrap ch rw col) (seq 0 ch)))).
  { intros k col out K L. unfold pairs_column. unfold pairs_cell. fold ch. rewrite (loop_cells (fun k => two_qubit_fill c k (k + 1) ++ two_qubit_fill c k (k + ch))).
    f_equal; [lia|]. rewrite <- app_assoc. f_equal. rewrite flat_flat, (seq_last ch C), flat_map_app.
    f_equal.
    - rewrite (flat_seq_from _ (ch - 1) k). apply flat_ext. intros r Hr. apply in_seq in Hr. unfold cell_links, vertical, horizontal.
      destruct (Nat.ltb_spec (r + 1) ch) as [_|]; [|lia]. destruct (Nat.ltb_spec (col + 1) rw) as [_|]; [|lia]. cbn [app flat_map].
      rewrite app_nil_r. rewrite !TV by lia. now rewrite K.
    - cbn [flat_map]. rewrite app_nil_r. unfold cell_links, vertical, horizontal.
      destruct (Nat.ltb_spec (ch - 1 + 1) ch) as [|_]; [lia|]. destruct (Nat.ltb_spec (col + 1) rw) as [_|]; [|lia].
      fold wrap. fold ch. replace (col * ch + (ch - 1)) with (k + (ch - 1)) by lia. rewrite flat_map_app.
      destruct (Nat.ltb_spec 2 ch) as [C2|C2].
      + destruct wrap; cbn [andb app flat_map]; rewrite ?app_nil_r, !TV by lia; reflexivity.
      + rewrite Bool.andb_false_r. cbn [app flat_map]. rewrite ?app_nil_r, !TV by lia. reflexivity. }
  (* all but the last column *)
  assert (COLS : forall m a k col out, k = col * ch -> col + m < rw ->
    fold_left (fun st (_ : nat) => pairs_column c st) (seq a m) (k, out) =
    (k + m * ch, out ++ flat_map F (flat_map (fun x => flat_map (cell_links wrap ch rw x) (seq 0 ch)) (seq col m)))).
  { induction m as [|m IH]; intros a k col out K L; [cbn; now rewrite Nat.add_0_r, app_nil_r|]. cbn [seq fold_left]. rewrite (COL k col out K) by lia.
    rewrite (IH (S a) (k + ch) (S col)) by lia. f_equal; [lia|]. cbn [flat_map]. rewrite flat_map_app, app_assoc. reflexivity. }
  unfold lattice_pairs. fold ch. fold rw. fold wrap. rewrite (COLS (rw - 1) 0 0 0 []) by lia. cbn [app Nat.add].
  unfold pairs_last_cell. fold wrap. fold rw. set (K := (rw - 1) * ch).
  rewrite (loop_last (fun k r => two_qubit_fill c k (k + 1) ++ (if wrap && (2 <? rw) then two_qubit_fill c k r else []))).
  unfold links. rewrite (seq_last rw R).
  rewrite flat_map_app, (flat_map_app F). rewrite <- app_assoc. f_equal. cbn [flat_map]. rewrite app_nil_r.
  rewrite (seq_last ch C).
  rewrite flat_map_app, (flat_map_app F). f_equal.
  - rewrite flat_flat. apply flat_ext. intros r Hr. apply in_seq in Hr. unfold cell_links, vertical, horizontal.
    destruct (Nat.ltb_spec (r + 1) ch) as [_|]; [|lia]. destruct (Nat.ltb_spec (rw - 1 + 1) rw) as [|_]; [lia|]. rewrite Nat.sub_0_r.
    fold K. rewrite TV by lia. rewrite flat_map_app. cbn [flat_map]. rewrite app_nil_r. f_equal.
    destruct (Nat.ltb_spec 2 rw) as [R2|R2]; [|now rewrite Bool.andb_false_r]. destruct wrap; [|reflexivity]. cbn [andb flat_map].
    rewrite app_nil_r. apply TV. unfold K. nia.
  - cbn [flat_map]. rewrite app_nil_r. unfold cell_links, vertical, horizontal.
    destruct (Nat.ltb_spec (ch - 1 + 1) ch) as [|_]; [lia|]. destruct (Nat.ltb_spec (rw - 1 + 1) rw) as [|_]; [lia|]. fold K.
    destruct wrap; cbn [andb]; [|reflexivity]. rewrite flat_map_app. f_equal.
    + destruct (Nat.ltb_spec 2 ch) as [C2|]; [|reflexivity]. cbn [flat_map]. rewrite app_nil_r. apply TV. lia.
    + destruct (Nat.ltb_spec 2 rw) as [R2|]; [|reflexivity]. cbn [flat_map]. rewrite app_nil_r. apply TV. unfold K. nia.
Qed.

(** the links in terms of cells *)
Definition linked (wrap : bool) (ch rw r c r2 c2 : nat) : Prop :=
  (r2 = r + 1 /\ r2 < ch /\ c2 = c) \/ (wrap = true /\ r + 1 = ch /\ 2 < ch /\ r2 = 0 /\ c2 = c) \/
  (c2 = c + 1 /\ c2 < rw /\ r2 = r) \/ (wrap = true /\ c + 1 = rw /\ 2 < rw /\ c2 = 0 /\ r2 = r).
Lemma links_in wrap ch rw s : In s (links wrap ch rw) <->
  exists r c r2 c2, r < ch /\ c < rw /\ r2 < ch /\ c2 < rw /\ linked wrap ch rw r c r2 c2 /\ s = [c * ch + r; c2 * ch + r2].
Proof.
  unfold links. rewrite in_flat_map. split.
  - intros (c & C & I). apply in_flat_map in I. destruct I as (r & R & I). apply in_seq in C, R. unfold cell_links in I. apply in_app_iff in I.
    unfold linked. destruct I as [I|I].
    + unfold vertical in I. destruct (Nat.ltb_spec (r + 1) ch) as [L|L].
      * destruct I as [<-|[]]. exists r, c, (r + 1), c. repeat split; try lia. f_equal. f_equal. lia.
      * destruct wrap; [|destruct I]. destruct (Nat.ltb_spec 2 ch) as [C2|]; [|destruct I]. destruct I as [<-|[]].
        exists r, c, 0, c. repeat split; try lia. f_equal. f_equal. lia.
    + unfold horizontal in I. destruct (Nat.ltb_spec (c + 1) rw) as [L|L].
      * destruct I as [<-|[]]. exists r, c, r, (c + 1). repeat split; try lia. f_equal. f_equal. lia.
      * destruct wrap; [|destruct I]. destruct (Nat.ltb_spec 2 rw) as [C2|]; [|destruct I]. destruct I as [<-|[]].
        exists r, c, r, 0. repeat split; try lia.
  - intros (r & c & r2 & c2 & R & C & R2 & C2 & L & ->). exists c. split; [apply in_seq; lia|]. apply in_flat_map. exists r. split; [apply in_seq; lia|].
    unfold cell_links, vertical, horizontal. apply in_app_iff. destruct L as [(-> & L1 & ->)|[(-> & L1 & L2 & -> & ->)|[(-> & L1 & ->)|(-> & L1 & L2 & -> & ->)]]].
    + left. destruct (Nat.ltb_spec (r + 1) ch); [|lia]. left. f_equal. f_equal. lia.
    + left. destruct (Nat.ltb_spec (r + 1) ch); [lia|]. destruct (Nat.ltb_spec 2 ch); [|lia]. left. f_equal. f_equal. lia.
    + right. destruct (Nat.ltb_spec (c + 1) rw); [|lia]. left. f_equal. f_equal. lia.
    + right. destruct (Nat.ltb_spec (c + 1) rw); [lia|]. destruct (Nat.ltb_spec 2 rw); [|lia]. now left.
Qed.
Lemma linked_apart wrap ch rw r c r2 c2 : linked wrap ch rw r c r2 c2 -> r <> r2 \/ c <> c2.
Proof. unfold linked. lia. Qed.
Lemma links_good wrap ch rw s : In s (links wrap ch rw) -> good_sites (ch * rw) s.
Proof.
  intro I. apply links_in in I. destruct I as (r & c & r2 & c2 & R & C & R2 & C2 & L & ->). apply linked_apart in L. split.
  - constructor; [|repeat constructor; intros []]. intros [E|[]]. apply cell_inj in E; [lia|exact R2|exact R].
  - intros q [<-|[<-|[]]]; now apply cell_lt.
Qed.
Lemma links_distinct wrap ch rw s s' : In s (links wrap ch rw) -> In s' (links wrap ch rw) -> same_set s s' -> s = s'.
Proof.
  intros I I' E. assert (G := proj1 (links_good _ _ _ _ I)). apply links_in in I, I'. destruct I as (r & c & r2 & c2 & R & C & R2 & C2 & L & ->).
  destruct I' as (p & d & p2 & d2 & P & D & P2 & D2 & M & ->).
  assert (X := proj1 (E _) (or_introl eq_refl)). assert (Y := proj1 (E _) (or_intror (or_introl eq_refl))).
  destruct X as [X|[X|[]]]; apply cell_inj in X; auto; destruct X as [<- <-];
    (destruct Y as [Y|[Y|[]]]; apply cell_inj in Y; auto; destruct Y as [<- <-]).
  - exfalso. apply linked_apart in L. lia.
  - reflexivity.
  - exfalso. unfold linked in L, M. destruct L as [L|[L|[L|L]]], M as [M|[M|[M|M]]]; lia.
  - exfalso. apply linked_apart in L. lia.
Qed.
Lemma links_nodup wrap ch rw : NoDup (links wrap ch rw).
Proof.
  unfold links. apply nodup_flat; [apply seq_NoDup| |].
  - intros c C. apply in_seq in C. apply nodup_flat; [apply seq_NoDup| |].
    + intros r R. apply in_seq in R. unfold cell_links. apply nodup_app.
      * unfold vertical. destruct (r + 1 <? ch), (wrap && (2 <? ch)); repeat constructor; intros [].
      * unfold horizontal. destruct (c + 1 <? rw), (wrap && (2 <? rw)); repeat constructor; intros [].
      * intros s I J. unfold vertical, horizontal in *.
        assert (VI : exists b, s = [c * ch + r; b] /\ (r + 1 < ch /\ b = c * ch + r + 1 \/ r + 1 = ch /\ 2 < ch /\ b = c * ch)).
        { destruct (Nat.ltb_spec (r + 1) ch).
          - destruct I as [<-|[]]. eexists. split; [reflexivity|]. left. lia.
          - destruct wrap; [|destruct I]. destruct (Nat.ltb_spec 2 ch); [|destruct I]. destruct I as [<-|[]]. eexists. split; [reflexivity|]. right. lia. }
        assert (HI : exists b, s = [c * ch + r; b] /\ (b = c * ch + r + ch \/ 2 <= c /\ b = r)).
        { destruct (Nat.ltb_spec (c + 1) rw).
          - destruct J as [<-|[]]. eexists. split; [reflexivity|]. left. lia.
          - destruct wrap; [|destruct J]. destruct (Nat.ltb_spec 2 rw); [|destruct J]. destruct J as [<-|[]]. eexists. split; [reflexivity|]. right. lia. }
        destruct VI as (b & -> & V), HI as (b' & E & H). injection E as <-. nia.
    + intros r r' s R R' I J. apply in_seq in R, R'.
      assert (HD : forall x, In s (cell_links wrap ch rw c x) -> hd 0 s = c * ch + x).
      { intros x X. unfold cell_links, vertical, horizontal in X. apply in_app_iff in X.
        destruct X as [X|X]; [destruct (x + 1 <? ch), (wrap && (2 <? ch))|destruct (c + 1 <? rw), (wrap && (2 <? rw))]; try destruct X as [<-|[]]; try reflexivity; destruct X. }
      assert (H1 := HD r I). assert (H2 := HD r' J). lia.
  - intros c c' s C C' I J. apply in_flat_map in I, J. destruct I as (r & R & I), J as (r' & R' & J). apply in_seq in R, R'.
    assert (HD : forall y x, In s (cell_links wrap ch rw y x) -> hd 0 s = y * ch + x).
    { intros y x X. unfold cell_links, vertical, horizontal in X. apply in_app_iff in X.
      destruct X as [X|X]; [destruct (x + 1 <? ch), (wrap && (2 <? ch))|destruct (y + 1 <? rw), (wrap && (2 <? rw))]; try destruct X as [<-|[]]; try reflexivity; destruct X. }
    assert (H1 := HD c r I). assert (H2 := HD c' r' J). rewrite H1 in H2. apply cell_inj in H2; [apply H2|lia|lia].
Qed.
Lemma step_mod x m : 0 < m -> x < m -> (x + 1) mod m = if x + 1 =? m then 0 else x + 1.
Proof. intros M X. destruct (Nat.eqb_spec (x + 1) m) as [->|NE]; [apply Nat.mod_same; lia|apply Nat.mod_small; lia]. Qed.
Lemma acts_swap a b w : acts_on [a; b] w -> acts_on [b; a] w.
Proof. intros A q. rewrite (A q). cbn. tauto. Qed.
Lemma links_words wrap ch rw w : 0 < ch -> pauli_word (ch * rw) w -> (on_sites (links wrap ch rw) w <-> neighbouring_pair wrap ch rw w).
Proof.
  intros CH W. split.
  - intros (s & I & A). apply links_in in I. destruct I as (r & c & r2 & c2 & R & C & R2 & C2 & L & ->).
    exists (c * ch + r), (c2 * ch + r2). split; [|split; [|exact A]].
    + intro E. apply linked_apart in L. apply cell_inj in E; auto. lia.
    + unfold neighbours, below, right_of, torus_below, torus_right. rewrite !cell_col, !cell_row by assumption. destruct wrap.
      * clear A W. rewrite (step_mod r ch CH R), (step_mod c rw ltac:(lia) C). destruct L as [L|[L|[L|L]]]; [left|left|right|right].
        -- destruct (Nat.eqb_spec (r + 1) ch); lia.
        -- destruct (Nat.eqb_spec (r + 1) ch); lia.
        -- destruct (Nat.eqb_spec (c + 1) rw); lia.
        -- destruct (Nat.eqb_spec (c + 1) rw); lia.
      * destruct L as [L|[L|[L|L]]]; try lia; destruct L; discriminate.
  - intros (a & b & NE & NB & A). assert (LA : a < ch * rw) by (apply (support_lt _ w a W), A; now left).
    assert (LB : b < ch * rw) by (apply (support_lt _ w b W), A; right; now left).
    destruct (cell_of ch rw a CH LA) as (r & c & R & C & ->). destruct (cell_of ch rw b CH LB) as (r2 & c2 & R2 & C2 & ->).
    assert (NE' : r <> r2 \/ c <> c2) by (destruct (Nat.eq_dec r r2) as [<-|]; [|now left]; right; intros <-; apply NE; reflexivity).
    unfold neighbours, below, right_of, torus_below, torus_right in NB. rewrite !cell_col, !cell_row in NB by assumption.
    assert (X : linked wrap ch rw r c r2 c2 \/ linked wrap ch rw r2 c2 r c).
    { clear A NE LA LB W. unfold linked. destruct wrap.
      - rewrite (step_mod r ch CH R), (step_mod c rw ltac:(lia) C) in NB. destruct NB as [[E1 E2]|[E1 E2]].
        + subst c2. destruct (Nat.eqb_spec (r + 1) ch) as [E|E].
          * subst r2. destruct (Nat.eq_dec ch 2) as [->|N2]; [right; left; lia|]. left. right. left. repeat split; lia.
          * left. left. lia.
        + subst r2. destruct (Nat.eqb_spec (c + 1) rw) as [E|E].
          * subst c2. destruct (Nat.eq_dec rw 2) as [->|N2]; [right; right; right; left; lia|]. left. right. right. right. repeat split; lia.
          * left. right. right. left. lia.
      - left. destruct NB as [NB|NB]; [left; lia|right; right; left; lia]. }
    destruct X as [X|X].
    + exists [c * ch + r; c2 * ch + r2]. split; [|exact A]. apply links_in. exists r, c, r2, c2. repeat split; auto.
    + exists [c2 * ch + r2; c * ch + r]. split; [|now apply acts_swap]. apply links_in. exists r2, c2, r, c. repeat split; auto.
Qed.
