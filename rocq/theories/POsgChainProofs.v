(** The dictionaries of chains. *)
From Coq Require Import List NArith Arith Bool Lia Sorted Permutation.
From Verif Require Import CoreModel CoreSpec AlgModel EnumModel EnumSpec EnumProofs PauliModel SiteModel SiteSpec SiteWordProofs POsgModel POsgSpec POsgProofs POsgListProofs.
Import ListNotations.

(** * Gaps and their sums *)
Fixpoint gapped (d a : nat) (cs : list nat) : Prop := match cs with [] => True | b :: cs' => a < b <= a + d /\ gapped d b cs' end.
Fixpoint sums (a : nat) (x : list nat) : list nat := match x with [] => [] | o :: x' => (a + o) :: sums (a + o) x' end.
Lemma sums_length x : forall a, length (sums a x) = length x.
Proof. induction x as [|o x IH]; intro a; [reflexivity|]. cbn. now rewrite IH. Qed.
Lemma sums_inj x : forall a y, sums a x = sums a y -> x = y.
Proof.
  induction x as [|o x IH]; intros a [|p y] E; try discriminate; [reflexivity|]. cbn in E. injection E as E1 E2.
  assert (o = p) by lia. subst p. f_equal. exact (IH _ _ E2).
Qed.
Lemma gapped_sums d cs : forall a, gapped d a cs <-> exists x, (forall o, In o x -> 1 <= o < 1 + d) /\ cs = sums a x.
Proof.
  induction cs as [|b cs IH]; intro a.
  - split; [intros _; exists []; split; [intros o []|reflexivity]|intros _; exact Logic.I].
  - split.
    + intros [B G]. apply IH in G. destruct G as (x & X & ->). exists ((b - a) :: x). split.
      * intros o [<-|O]; [lia|now apply X].
      * cbn. replace (a + (b - a)) with b by lia. reflexivity.
    + intros ([|o x] & X & E); [discriminate|]. cbn in E. injection E as -> ->. split.
      * assert (O := X o (or_introl eq_refl)). lia.
      * apply IH. exists x. split; [|reflexivity]. intros p P. apply X. now right.
Qed.
Lemma gapped_lt d cs : forall a c, gapped d a cs -> In c cs -> a < c.
Proof.
  induction cs as [|b cs IH]; intros a c G I; [destruct I|]. destruct G as [B G]. destruct I as [<-|I]; [lia|]. specialize (IH b c G I). lia.
Qed.
Lemma gapped_sorted d cs : forall a, gapped d a cs -> StronglySorted lt (a :: cs).
Proof.
  induction cs as [|b cs IH]; intros a G; [repeat constructor|]. constructor.
  - apply IH, G.
  - apply Forall_forall. intros c C. now apply (gapped_lt d (b :: cs)).
Qed.
Lemma gapped_upper d cs : forall a c, gapped d a cs -> In c cs -> c <= a + length cs * d.
Proof.
  induction cs as [|b cs IH]; intros a c G I; [destruct I|]. destruct G as [B G]. cbn [length]. destruct I as [<-|I]; [nia|]. specialize (IH b c G I). nia.
Qed.
(** the predecessor of an element is at most d below *)
Lemma gapped_pred d cs : forall a c, gapped d a cs -> In c cs -> exists p, In p (a :: cs) /\ p < c <= p + d.
Proof.
  induction cs as [|b cs IH]; intros a c G I; [destruct I|]. destruct G as [B G]. destruct I as [<-|I].
  - exists a. split; [now left|exact B].
  - destruct (IH b c G I) as (p & P & Q). exists p. split; [now right|exact Q].
Qed.
Lemma gapped_one cs : forall a, gapped 1 a cs <-> cs = seq (S a) (length cs).
Proof.
  induction cs as [|b cs IH]; intro a; [split; [reflexivity|intros _; exact Logic.I]|]. cbn [gapped length seq]. split.
  - intros [B G]. assert (b = S a) by lia. subst b. f_equal. now apply IH.
  - intro E. injection E as -> E. split; [lia|now apply IH].
Qed.

(** * Which site lists the generators use *)
Definition pos (n : nat) (wrap : bool) (f a : nat) : nat := if wrap then (f + a) mod n else f + a.
Definition fits (n : nat) (wrap : bool) (f a : nat) : Prop := if wrap then a < n else f + a < n.
Definition chain_list (n : nat) (wrap : bool) (d : nat) (s : list nat) : Prop :=
  exists f cs, f < n /\ gapped d 0 cs /\ (forall a, In a cs -> fits n wrap f a) /\ s = map (pos n wrap f) (0 :: cs).

Lemma pos_zero n wrap f : f < n -> pos n wrap f 0 = f.
Proof. intro F. unfold pos. rewrite Nat.add_0_r. destruct wrap; [apply Nat.mod_small, F|reflexivity]. Qed.
Lemma add_mod_inj n f a b : a < n -> b < n -> (f + a) mod n = (f + b) mod n -> a = b.
Proof.
  intros A B E. assert (n <> 0) by lia. assert (E1 := Nat.div_mod (f + a) n H). assert (E2 := Nat.div_mod (f + b) n H). rewrite E in E1.
  assert (L := Nat.mod_upper_bound (f + b) n H). set (x := (f + a) / n) in *. set (y := (f + b) / n) in *. set (r := (f + b) mod n) in *.
  assert (x = y); [|subst x; nia]. destruct (Nat.lt_trichotomy x y) as [C|[C|C]]; [exfalso; nia|exact C|exfalso; nia].
Qed.
Lemma pos_inj n wrap f a b : fits n wrap f a -> fits n wrap f b -> pos n wrap f a = pos n wrap f b -> a = b.
Proof. unfold fits, pos. destruct wrap; [apply add_mod_inj|lia]. Qed.
Lemma pos_lt n wrap f a : 0 < n -> fits n wrap f a -> pos n wrap f a < n.
Proof. unfold fits, pos. destruct wrap; [intros N _; apply Nat.mod_upper_bound; lia|lia]. Qed.
Lemma fits_zero n wrap f : f < n -> fits n wrap f 0.
Proof. unfold fits. destruct wrap; lia. Qed.
Lemma map_pos_inj n wrap f cs cs' : (forall a, In a cs -> fits n wrap f a) -> (forall a, In a cs' -> fits n wrap f a) ->
  map (pos n wrap f) cs = map (pos n wrap f) cs' -> cs = cs'.
Proof.
  revert cs'. induction cs as [|a cs IH]; intros [|b cs'] A B E; try discriminate; [reflexivity|]. cbn in E. injection E as E1 E2. f_equal.
  - apply (pos_inj n wrap f); [apply A; now left|apply B; now left|exact E1].
  - apply IH; [intros x X; apply A; now right|intros x X; apply B; now right|exact E2].
Qed.
Lemma chain_list_good n wrap d s : chain_list n wrap d s -> good_sites n s.
Proof.
  intros (f & cs & F & G & B & ->). assert (B' : forall a, In a (0 :: cs) -> fits n wrap f a).
  { intros a [<-|I]; [now apply fits_zero|now apply B]. }
  split.
  - assert (N := sorted_nodup _ (gapped_sorted d cs 0 G)). clear G B. induction (0 :: cs) as [|a l IH]; [constructor|].
    apply NoDup_cons_iff in N. destruct N as [N1 N2]. cbn. constructor.
    + intro I. apply in_map_iff in I. destruct I as (b & E & I). apply N1. rewrite (pos_inj n wrap f a b); [exact I| | |congruence]; apply B'; [now left|now right].
    + apply IH; [intros b I; apply B'; now right|exact N2].
  - intros q I. apply in_map_iff in I. destruct I as (a & <- & I). apply pos_lt; [lia|now apply B'].
Qed.
Lemma final_first c d f cs : pc_qubits c <> 0 -> gapped d 0 cs -> (forall a, In a cs -> fits (pc_qubits c) (pc_wrap c) f a) -> f < pc_qubits c ->
  f < final_first_party c (S (length cs)) + 1.
Proof.
  intros N G B F. unfold final_first_party. destruct (pc_wrap c) eqn:W; [lia|].
  assert (f + length cs < pc_qubits c); [|lia]. clear N W.
  assert (H : forall a, gapped d a cs -> (forall b, In b cs -> f + b < pc_qubits c) -> f + a < pc_qubits c -> f + a + length cs < pc_qubits c).
  { clear. induction cs as [|b cs IH]; intros a G B F; [cbn; lia|]. destruct G as [G1 G2]. cbn [length]. assert (f + b < pc_qubits c) by (apply B; now left).
    specialize (IH b G2). assert (f + b + length cs < pc_qubits c) by (apply IH; [intros x X; apply B; now right|assumption]). lia. }
  specialize (H 0 G B). lia.
Qed.

(** the inner loop *)
Lemma select_some c f x sel : forall a, select c f a x = Some sel <->
  (forall b, In b (sums a x) -> fits (pc_qubits c) (pc_wrap c) f b) /\ sel = map (pos (pc_qubits c) (pc_wrap c) f) (sums a x).
Proof.
  revert sel. induction x as [|o x IH]; intros sel a.
  - cbn. split; [intro E; injection E as <-; split; [intros b []|reflexivity]|intros [_ ->]; reflexivity].
  - cbn [select sums map]. set (cum := a + o).
    assert (T : (if pc_wrap c then pc_qubits c <=? cum else pc_qubits c <=? f + cum) = true <-> ~ fits (pc_qubits c) (pc_wrap c) f cum).
    { unfold fits. destruct (pc_wrap c); rewrite Nat.leb_le; lia. }
    destruct (if pc_wrap c then pc_qubits c <=? cum else pc_qubits c <=? f + cum).
    + split; [discriminate|]. intros [B _]. exfalso. apply (proj1 T eq_refl). apply B. now left.
    + assert (FT : fits (pc_qubits c) (pc_wrap c) f cum). { unfold fits in *. destruct (pc_wrap c); (destruct (Nat.lt_ge_cases (S cum) 0); [lia|]).
        - destruct (Nat.lt_ge_cases cum (pc_qubits c)); [assumption|]. assert (false = true) by (apply T; lia). discriminate.
        - destruct (Nat.lt_ge_cases (f + cum) (pc_qubits c)); [assumption|]. assert (false = true) by (apply T; lia). discriminate. }
      change (if pc_wrap c then (f + cum) mod pc_qubits c else f + cum) with (pos (pc_qubits c) (pc_wrap c) f cum).
      destruct (select c f cum x) as [sel'|] eqn:E.
      * cbn [option_map]. apply IH in E. destruct E as [B ->]. split.
        -- intro E. injection E as <-. split; [|reflexivity]. intros b [<-|I]; [exact FT|now apply B].
        -- intros [_ ->]. reflexivity.
      * cbn [option_map]. split; [discriminate|]. intros [B ->]. exfalso.
        assert (X : select c f cum x = Some (map (pos (pc_qubits c) (pc_wrap c) f) (sums cum x))).
        { apply IH. split; [intros b I; apply B; now right|reflexivity]. }
        congruence.
Qed.
Definition selected (c : pctx) (f : nat) (x : list nat) : list (list nat) := match select c f 0 x with Some sel => [f :: sel] | None => [] end.
Definition next_sites (c : pctx) (d k : nat) : list (list nat) :=
  flat_map (fun f => flat_map (selected c f) (box (repeat (1, 1 + d) (k - 1)))) (seq 0 (final_first_party c k + 1)).
Lemma in_gaps d m x : In x (box (repeat (1, 1 + d) m)) <-> length x = m /\ forall o, In o x -> 1 <= o < 1 + d.
Proof. destruct (box_spec (repeat (1, 1 + d) m)) as [_ M]. rewrite M. apply moi_in_box. Qed.
Lemma gaps_nodup d m : NoDup (box (repeat (1, 1 + d) m)).
Proof.
  destruct (box_spec (repeat (1, 1 + d) m)) as [S _]. induction S as [|x l S IH F]; constructor; [|exact IH].
  intro I. rewrite Forall_forall in F. exact (DictInstProofs.lex_irrefl x (F x I)).
Qed.
Lemma in_selected c f x s : In s (selected c f x) <->
  (forall b, In b (sums 0 x) -> fits (pc_qubits c) (pc_wrap c) f b) /\ s = f :: map (pos (pc_qubits c) (pc_wrap c) f) (sums 0 x).
Proof.
  unfold selected. destruct (select c f 0 x) as [sel|] eqn:E.
  - apply select_some in E. destruct E as [B ->]. split; [intros [<-|[]]; now split|]. intros [_ ->]. now left.
  - split; [intros []|]. intros [B ->]. assert (X : select c f 0 x = Some (map (pos (pc_qubits c) (pc_wrap c) f) (sums 0 x))) by (apply select_some; now split).
    congruence.
Qed.
Lemma next_sites_in c d k s : 0 < k <= pc_qubits c -> (In s (next_sites c d k) <-> length s = k /\ chain_list (pc_qubits c) (pc_wrap c) d s).
Proof.
  intro K. unfold next_sites. rewrite in_flat_map. split.
  - intros (f & F & I). apply in_flat_map in I. destruct I as (x & X & I). apply in_gaps in X. destruct X as [XL XR]. apply in_selected in I.
    destruct I as [B ->]. apply in_seq in F. assert (FN : f < pc_qubits c) by (unfold final_first_party in F; destruct (pc_wrap c); lia).
    split; [cbn; rewrite map_length, sums_length; lia|]. exists f, (sums 0 x). split; [exact FN|]. split; [apply gapped_sums; now exists x|].
    split; [exact B|]. cbn [map]. now rewrite pos_zero.
  - intros (L & f & cs & F & G & B & ->). cbn in L. rewrite map_length in L. exists f. split.
    + apply in_seq. subst k. split; [lia|]. apply (final_first c d); auto. lia.
    + apply in_flat_map. apply gapped_sums in G. destruct G as (x & X & ->). rewrite sums_length in L. exists x. split; [apply in_gaps; split; [lia|exact X]|].
      apply in_selected. split; [exact B|]. cbn [map]. now rewrite pos_zero.
Qed.
Lemma next_sites_nodup c d k : 0 < k <= pc_qubits c -> NoDup (next_sites c d k).
Proof.
  intro K. apply nodup_flat; [apply seq_NoDup| |].
  - intros f F. apply in_seq in F. apply nodup_flat; [apply gaps_nodup| |].
    + intros x _. unfold selected. destruct (select c f 0 x); repeat constructor; intros [].
    + intros x y s _ _ X Y. apply in_selected in X, Y. destruct X as [BX ->], Y as [BY E]. injection E as E.
      apply map_pos_inj in E; auto. now apply sums_inj in E.
  - intros f g s _ _ F G. apply in_flat_map in F, G. destruct F as (x & _ & F), G as (y & _ & G). apply in_selected in F, G.
    destruct F as [_ ->], G as [_ E]. congruence.
Qed.
(** good as soon as the first qubit is on the chain *)
Lemma next_nn_value c d k : 2 <= k <= pc_qubits c ->
  each (next_nn_from c k d) (seq 0 (final_first_party c k + 1)) = DOk (flat_map (fill_words (pc_qubits c)) (next_sites c d k)).
Proof.
  intro K. unfold next_sites. rewrite flat_flat. apply each_ok. intros f F. unfold next_nn_from.
  rewrite moi_run_spec; [|lia|reflexivity]. cbn [of_res dbind]. rewrite flat_flat. apply each_ok. intros x X. unfold selected.
  destruct (select c f 0 x) as [sel|] eqn:E; [|reflexivity]. cbn [flat_map]. rewrite app_nil_r. apply permutation_fill_value.
  assert (I : In (f :: sel) (next_sites c d k)).
  { unfold next_sites. apply in_flat_map. exists f. split; [exact F|]. apply in_flat_map. exists x. split; [exact X|].
    unfold selected. rewrite E. now left. }
  apply next_sites_in in I; [|lia]. destruct I as [_ I]. apply chain_list_good in I. apply I.
Qed.

(** * Nearest neighbours *)
Definition nn_sites (c : pctx) (k : nat) : list (list nat) :=
  if Nat.eqb k 2 then map (fun f => [f; f + 1]) (seq 0 (pc_qubits c - 1)) ++ (if pc_wrap c then [[pc_qubits c - 1; 0]] else [])
  else map (fun f => map (pos (pc_qubits c) (pc_wrap c) f) (seq 0 k)) (seq 0 (final_first_party c k + 1)).
Lemma chain_list_one n wrap s k : 0 < k <= n -> (length s = k /\ chain_list n wrap 1 s <-> exists f, f < n /\ (wrap = false -> f + k <= n) /\ s = map (pos n wrap f) (seq 0 k)).
Proof.
  intro K. split.
  - intros (L & f & cs & F & G & B & ->). exists f. split; [exact F|]. cbn in L. rewrite map_length in L. apply gapped_one in G.
    split.
    + intros ->. destruct cs as [|x cs]; [cbn in L; lia|]. assert (I : In (length (x :: cs)) (x :: cs)) by (rewrite G at 2; apply in_seq; cbn; lia).
      apply B in I. unfold fits in I. lia.
    + subst k. cbn [seq map]. f_equal. f_equal. exact G.
  - intros (f & F & FK & ->). split; [now rewrite map_length, seq_length|]. exists f, (seq 1 (k - 1)). split; [exact F|]. split; [apply gapped_one; now rewrite seq_length|].
    split.
    + intros a A. apply in_seq in A. unfold fits. destruct wrap; [lia|]. specialize (FK eq_refl). lia.
    + destruct k as [|k]; [lia|]. cbn [seq map]. now rewrite Nat.sub_succ, Nat.sub_0_r.
Qed.
Lemma nn_sites_in c k s : 2 <= k <= pc_qubits c -> (In s (nn_sites c k) <-> length s = k /\ chain_list (pc_qubits c) (pc_wrap c) 1 s).
Proof.
  intro K. rewrite chain_list_one by lia. unfold nn_sites. set (n := pc_qubits c) in *. destruct (Nat.eqb_spec k 2) as [->|NE].
  - rewrite in_app_iff, in_map_iff. split.
    + intros [(f & <- & F)|I].
      * apply in_seq in F. exists f. split; [lia|]. split; [lia|]. cbn [seq map]. rewrite pos_zero by lia. f_equal. unfold pos.
        destruct (pc_wrap c); [rewrite Nat.mod_small by lia|]; reflexivity.
      * destruct (pc_wrap c); [|destruct I]. destruct I as [<-|[]]. exists (n - 1). split; [lia|]. split; [discriminate|]. cbn [seq map].
        rewrite pos_zero by lia. unfold pos. replace (n - 1 + 1) with n by lia. rewrite Nat.mod_same by lia. reflexivity.
    + intros (f & F & FK & ->). cbn [seq map]. rewrite pos_zero by lia. unfold pos. destruct (pc_wrap c).
      * destruct (Nat.eq_dec f (n - 1)) as [->|NE].
        -- right. left. replace (n - 1 + 1) with n by lia. rewrite Nat.mod_same by lia. reflexivity.
        -- left. exists f. split; [rewrite Nat.mod_small by lia; reflexivity|apply in_seq; lia].
      * left. exists f. specialize (FK eq_refl). split; [reflexivity|apply in_seq; lia].
  - rewrite in_map_iff. unfold final_first_party. fold n. split.
    + intros (f & <- & F). apply in_seq in F. exists f. split; [destruct (pc_wrap c); lia|]. split; [intro E; rewrite E in F; lia|reflexivity].
    + intros (f & F & FK & ->). exists f. split; [reflexivity|]. apply in_seq. destruct (pc_wrap c); [lia|]. specialize (FK eq_refl). lia.
Qed.
Lemma nn_sites_nodup c k : 2 <= k <= pc_qubits c -> NoDup (nn_sites c k).
Proof.
  intro K. unfold nn_sites. destruct (Nat.eqb_spec k 2) as [->|NE].
  - apply nodup_app.
    + apply FinFun.Injective_map_NoDup; [intros x y E; congruence|apply seq_NoDup].
    + destruct (pc_wrap c); repeat constructor; intros [].
    + intros s I J. apply in_map_iff in I. destruct I as (f & <- & F). apply in_seq in F. destruct (pc_wrap c); [|destruct J].
      destruct J as [E|[]]. injection E as E1 E2. lia.
  - assert (H : forall l, (forall f, In f l -> f < pc_qubits c) -> NoDup l -> NoDup (map (fun f => map (pos (pc_qubits c) (pc_wrap c) f) (seq 0 k)) l)).
    { intros l B N. induction N as [|f l NI N IH]; [constructor|]. cbn [map]. constructor; [|apply IH; intros g G; apply B; now right].
      intro I. apply in_map_iff in I. destruct I as (g & E & G). apply NI. replace f with g; [exact G|].
      destruct k as [|k]; [lia|]. cbn [seq map] in E. injection E as E _. rewrite !pos_zero in E; [exact E|apply B; now left|apply B; now right]. }
    apply H; [|apply seq_NoDup]. intros f F. apply in_seq in F. unfold final_first_party in F. destruct (pc_wrap c); lia.
Qed.
Lemma window_ops n (wrap : bool) f k raw : length raw = k ->
  map (fun i => 3 * (if wrap then (f + i) mod n else f + i) + nth i raw 0) (seq 0 k) = site_ops (map (pos n wrap f) (seq 0 k)) raw.
Proof.
  intro L. subst k. unfold site_ops. assert (H : forall (raw : list nat) o, map (fun i => 3 * (if wrap then (f + i) mod n else f + i) + nth (i - o) raw 0) (seq o (length raw)) =
    map (fun x => 3 * fst x + snd x) (List.combine (map (pos n wrap f) (seq o (length raw))) raw)).
  { clear raw. induction raw as [|r raw IH]; intro o; [reflexivity|]. cbn [length seq map List.combine fst snd]. f_equal; [unfold pos; now rewrite Nat.sub_diag|].
    rewrite <- IH. apply map_ext_in. intros i I. apply in_seq in I. replace (i - o) with (S (i - S o)) by lia. reflexivity. }
  specialize (H raw 0). rewrite <- H. apply map_ext. intro i. now rewrite Nat.sub_0_r.
Qed.
Lemma window_value c k f : 0 < k -> chain_nn_window c k f = DOk (fill_words (pc_qubits c) (map (pos (pc_qubits c) (pc_wrap c) f) (seq 0 k))).
Proof.
  intro K. unfold chain_nn_window. rewrite moi_run_spec; [|exact K|reflexivity]. cbn [of_res dbind]. f_equal. unfold fill_words.
  rewrite map_length, seq_length. apply map_ext_in. intros raw R. apply in_digits in R. f_equal. apply window_ops, R.
Qed.
Lemma nn_value c k : 3 <= k <= pc_qubits c ->
  each (chain_nn_window c k) (seq 0 (final_first_party c k + 1)) = DOk (flat_map (fill_words (pc_qubits c)) (nn_sites c k)).
Proof.
  intro K. unfold nn_sites. destruct (Nat.eqb_spec k 2) as [->|_]; [lia|]. rewrite <- (flat_map_of (fill_words (pc_qubits c))).
  apply each_ok. intros f F. apply window_value. lia.
Qed.
Lemma nn_pairs_value c : 2 <= pc_qubits c -> chain_nn_pairs c = flat_map (fill_words (pc_qubits c)) (nn_sites c 2).
Proof.
  intro K. unfold chain_nn_pairs, nn_sites. cbn [Nat.eqb]. rewrite flat_map_app. f_equal.
  - rewrite <- (flat_map_of (fill_words (pc_qubits c))). apply flat_ext. intros f F. apply two_fill_value. lia.
  - destruct (pc_wrap c); [|reflexivity]. cbn [flat_map]. rewrite app_nil_r. apply two_fill_value. lia.
Qed.
