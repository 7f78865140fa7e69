(** Proofs about ranges of measurements. *)
From Coq Require Import List Arith Bool Lia.
From Verif Require Import TensorModel TensorSpec EnumSpec ProbSpec RangeModel RangeSpec.
Import ListNotations.

(** * Lists *)
Lemma all2_nth {A B} (P : A -> B -> Prop) : forall l l', Forall2 P l l' <->
  length l = length l' /\ forall i a b, nth_error l i = Some a -> nth_error l' i = Some b -> P a b.
Proof.
  intros l l'; split.
  - induction 1 as [|a b l l' H F [IHl IH]]; [split; [reflexivity|intros [|i]; discriminate]|].
    split; [cbn; now rewrite IHl|]. intros [|i] x y; cbn; [intros [= <-] [= <-]; exact H|apply IH].
  - revert l'; induction l as [|a l IH]; intros [|b l'] [Hl H]; try discriminate; [constructor|].
    constructor; [exact (H 0 a b eq_refl eq_refl)|]. apply IH. injection Hl as Hl. split; [exact Hl|]. intros i; exact (H (S i)).
Qed.
Lemma set_length l i x : i < length l -> length (set_at l i x) = length l.
Proof. intros H; unfold set_at. rewrite app_length, firstn_length; cbn [length]. rewrite skipn_length. lia. Qed.
Lemma set_nth l i x j d : i < length l -> nth j (set_at l i x) d = if j =? i then x else nth j l d.
Proof.
  intros H; unfold set_at. assert (Hf : length (firstn i l) = i) by (rewrite firstn_length; lia). destruct (Nat.eqb_spec j i) as [->|Hn].
  - rewrite app_nth2; rewrite Hf; [|lia]. now rewrite Nat.sub_diag.
  - destruct (Nat.lt_ge_cases j i) as [Hlt|Hge].
    + rewrite app_nth1 by lia. transitivity (nth j (firstn i l ++ skipn i l) d); [rewrite app_nth1 by lia; reflexivity|now rewrite firstn_skipn].
    + rewrite app_nth2 by lia. rewrite Hf. replace (j - i) with (S (j - i - 1)) by lia. cbn [nth].
      transitivity (nth j (firstn (S i) l ++ skipn (S i) l) d); [|now rewrite firstn_skipn].
      assert (Hs : length (firstn (S i) l) = S i) by (rewrite firstn_length; lia).
      rewrite app_nth2 by lia. rewrite Hs. f_equal. lia.
Qed.
Lemma choose {A} (P : nat -> A -> Prop) : forall n, (forall i, i < n -> exists a, P i a) ->
  exists l, length l = n /\ forall i a, nth_error l i = Some a -> P i a.
Proof.
  induction n as [|n IH]; intros H; [exists []; split; [reflexivity|intros [|i]; discriminate]|].
  destruct IH as (l & Hl & Hp); [intros i Hi; apply H; lia|]. destruct (H n) as (a & Ha); [lia|].
  exists (l ++ [a]). split; [rewrite app_length; cbn; lia|]. intros i b Hb.
  destruct (Nat.lt_ge_cases i (length l)) as [Hlt|Hge]; [rewrite nth_error_app1 in Hb by exact Hlt; now apply Hp|].
  rewrite nth_error_app2 in Hb by exact Hge. destruct (i - length l) as [|k] eqn:E; cbn in Hb; [|destruct k; discriminate].
  injection Hb as <-. replace i with n by lia. exact Ha.
Qed.
Lemma nth_error_at {A} (l : list A) i d : i < length l -> nth_error l i = Some (nth i l d).
Proof. intros H. now apply nth_error_nth'. Qed.

(** * The table *)
Section Table.
  Variable len : nat * bool -> nat.
  Definition offset_of (sc : list party) (p m : nat) : nat := 1 + list_sum (map len (firstn m (nth p sc []))).

  Lemma gm_ms p : forall ms off m x, nth_error ms m = Some x ->
    nth_error (gm_measurements len p off ms) m = Some {| gm_party := p; gm_offset := off + list_sum (map len (firstn m ms)); gm_length := len x |}.
  Proof.
    induction ms as [|y ms IH]; intros off [|m] x H; cbn in H; try discriminate.
    - injection H as ->. cbn. now rewrite Nat.add_0_r.
    - cbn [gm_measurements nth_error firstn map]. rewrite (IH _ _ _ H). cbn [list_sum fold_right]. do 2 f_equal. fold (list_sum (map len (firstn m ms))). lia.
  Qed.
  Lemma gm_ms_length p : forall ms off, length (gm_measurements len p off ms) = length ms.
  Proof. induction ms as [|y ms IH]; intros off; cbn; [reflexivity|now rewrite IH]. Qed.
  Lemma gm_length_of : forall sc p, length (gm_parties len p sc) = measurements sc.
  Proof. unfold measurements. induction sc as [|ms sc IH]; intros p; cbn; [reflexivity|]. rewrite app_length, gm_ms_length, IH. reflexivity. Qed.
  Lemma gm_at : forall sc p0 g p m x, numbered sc g p m x ->
    nth_error (gm_parties len p0 sc) g = Some {| gm_party := p0 + p; gm_offset := offset_of sc p m; gm_length := len x |}.
  Proof.
    unfold offset_of. induction sc as [|ms sc IH]; intros p0 g p m x (before & ms' & after & E & Hl & Hx & Hg); [destruct before; discriminate|].
    assert (Hm : m < length ms') by (apply nth_error_Some; congruence).
    destruct before as [|b before]; cbn in E, Hl, Hg; injection E as -> ->.
    - subst p g. cbn [gm_parties nth]. rewrite nth_error_app1 by (now rewrite gm_ms_length). rewrite (gm_ms _ _ _ _ _ Hx). now rewrite Nat.add_0_r.
    - destruct p as [|p]; [discriminate|]. injection Hl as Hl. cbn [gm_parties]. unfold list_sum in *. change (size b) with (length b) in Hg. rewrite nth_error_app2 by (rewrite gm_ms_length; lia).
      rewrite gm_ms_length. rewrite (IH (S p0) (g - length b) p m x); [cbn [nth]; do 2 f_equal; lia|].
      exists before, ms', after. unfold list_sum. repeat split; auto; lia.
  Qed.
End Table.
Lemma numbered_lt sc g p m x : numbered sc g p m x -> g < measurements sc /\ p < length sc /\ nth_error (nth p sc []) m = Some x.
Proof.
  intros (before & ms & after & -> & <- & Hx & ->). unfold measurements. assert (m < length ms) by (apply nth_error_Some; congruence).
  rewrite map_app, list_sum_app, app_length. unfold list_sum; cbn [length map fold_right]. rewrite nth_middle. unfold size at 3. repeat split; [lia|lia|exact Hx].
Qed.
Lemma numbered_found sc : forall g, g < measurements sc -> exists p m x, numbered sc g p m x.
Proof.
  unfold measurements. induction sc as [|ms sc IH]; cbn; intros g Hg; [lia|].
  destruct (Nat.lt_ge_cases g (length ms)) as [Hlt|Hge].
  - destruct (nth_error ms g) as [x|] eqn:E; [|apply nth_error_None in E; lia].
    exists 0, g, x, [], ms, sc. auto.
  - destruct (IH (g - length ms)) as (p & m & x & b & ms' & a & -> & Hp & Hx & Hg'); [unfold list_sum, size in *; lia|].
    exists (S p), m, x, (ms :: b), ms', a. cbn. unfold list_sum in *. unfold size at 1. repeat split; auto; lia.
Qed.
Lemma numbered_one sc g p m x p' m' x' : numbered sc g p m x -> numbered sc g p' m' x' -> p = p' /\ m = m' /\ x = x'.
Proof.
  intros H H'. pose proof (gm_at (fun _ => 1) sc 0 g p m x H) as E. rewrite (gm_at (fun _ => 1) sc 0 g p' m' x' H') in E.
  injection E as Ep Eo. cbn in Ep. subst p'. destruct (numbered_lt _ _ _ _ _ H) as (_ & _ & Hm). destruct (numbered_lt _ _ _ _ _ H') as (_ & _ & Hm').
  unfold offset_of in Eo.
  assert (Hs : forall l : party, list_sum (map (fun _ => 1) l) = length l) by (induction l as [|a l IH]; cbn; [reflexivity|unfold list_sum in IH; now rewrite IH]).
  assert (m = m').
  { assert (m < length (nth p sc [])) by (apply nth_error_Some; congruence). assert (m' < length (nth p sc [])) by (apply nth_error_Some; congruence).
    rewrite !Hs in Eo. rewrite !firstn_length in Eo. lia. }
  subst m'. repeat split. congruence.
Qed.
(** the same place of the party determines the number *)
Lemma numbered_same sc g g' p m x x' : numbered sc g p m x -> numbered sc g' p m x' -> g = g'.
Proof.
  intros (b & ms & a & -> & Hl & _ & ->) (b' & ms' & a' & E & Hl' & _ & ->).
  assert (b = b') as ->; [|reflexivity].
  revert b' p Hl Hl' E. induction b as [|y b IH]; intros [|y' b'] p Hl Hl' E; cbn in *; subst; try discriminate; [reflexivity|].
  injection E as -> E. injection Hl' as Hl'. f_equal. eapply IH; [reflexivity|exact Hl'|exact E].
Qed.

(** * The loop *)
Section Loop.
  Variables (len : nat * bool -> nat) (sc : list party).
  Notation gm := (gm_table len sc).
  Definition low (p m : nat) (o : option nat) : nat := offset_of len sc p m + match o with None => 0 | Some a => a end.
  Definition high (p m : nat) (x : nat * bool) (o : option nat) : nat := offset_of len sc p m + match o with None => len x | Some a => a + 1 end.
  Definition asked (qs : list request) (p : nat) (lo hi : nat) : Prop :=
    (exists g o m x, In (g, o) qs /\ numbered sc g p m x /\ lo = low p m o /\ hi = high p m x o) \/
    ((forall g o m x, In (g, o) qs -> ~ numbered sc g p m x) /\ lo = 0 /\ hi = 1).
  Definition bounds_of (qs : list request) (lo hi : list nat) : Prop :=
    length lo = length sc /\ length hi = length sc /\ ~ clash sc qs /\ forall p, p < length sc -> asked qs p (nth p lo 0) (nth p hi 0).

  Lemma clash_last qs g o p m x : numbered sc g p m x -> clash sc (qs ++ [(g, o)]) ->
    clash sc qs \/ exists g' o' m' x', In (g', o') qs /\ numbered sc g' p m' x'.
  Proof.
    intros Hn (i & j & g1 & o1 & g2 & o2 & p' & m1 & m2 & x1 & x2 & Hij & H1 & H2 & N1 & N2).
    assert (B : forall k r, nth_error (qs ++ [(g, o)]) k = Some r -> (k < length qs /\ nth_error qs k = Some r) \/ (k = length qs /\ r = (g, o))).
    { intros k r Hk. destruct (Nat.lt_ge_cases k (length qs)) as [Hlt|Hge].
      - left. split; [exact Hlt|]. now rewrite nth_error_app1 in Hk by exact Hlt.
      - right. rewrite nth_error_app2 in Hk by exact Hge. destruct (k - length qs) as [|z] eqn:E; cbn in Hk; [|destruct z; discriminate].
        injection Hk as <-. split; [lia|reflexivity]. }
    destruct (B _ _ H1) as [[L1 H1']|[E1 R1]], (B _ _ H2) as [[L2 H2']|[E2 R2]].
    - left. now exists i, j, g1, o1, g2, o2, p', m1, m2, x1, x2.
    - right. injection R2 as -> ->. destruct (numbered_one _ _ _ _ _ _ _ _ Hn N2) as [<- _].
      exists g1, o1, m1, x1. split; [now apply nth_error_In in H1'|exact N1].
    - right. injection R1 as -> ->. destruct (numbered_one _ _ _ _ _ _ _ _ Hn N1) as [<- _].
      exists g2, o2, m2, x2. split; [now apply nth_error_In in H2'|exact N2].
    - lia.
  Qed.
  Lemma low_pos p m o : low p m o <> 0.
  Proof. unfold low, offset_of. lia. Qed.
  Lemma step_spec done g o lo hi : g < measurements sc -> bounds_of done lo hi ->
    (exists lo' hi', range_step gm (lo, hi) (g, o) = Value (lo', hi') /\ bounds_of (done ++ [(g, o)]) lo' hi') \/
    (range_step gm (lo, hi) (g, o) = Throws /\ exists g' o' p m m' x x', In (g', o') done /\ numbered sc g p m x /\ numbered sc g' p m' x').
  Proof.
    intros Hg (Hlo & Hhi & Hc & Hb). destruct (numbered_found _ _ Hg) as (p & m & x & Hn).
    destruct (numbered_lt _ _ _ _ _ Hn) as (_ & Hp & Hx). unfold range_step. cbn [fst snd].
    assert (Hl : length gm = measurements sc) by apply gm_length_of. rewrite Hl.
    replace (measurements sc <? g) with false by (symmetry; apply Nat.ltb_ge; lia).
    unfold gm_table. rewrite (gm_at len sc 0 g p m x Hn). cbn [gm_party gm_offset gm_length Nat.add].
    rewrite (nth_error_at lo p 0) by lia. destruct (nth p lo 0) as [|k] eqn:E.
    - left. assert (Hnone : forall g' o' m' x', In (g', o') done -> ~ numbered sc g' p m' x').
      { destruct (Hb p Hp) as [(g' & o' & m' & x' & _ & _ & Hlow & _)|(H & _)]; [|exact H]. rewrite E in Hlow. now destruct (low_pos p m' o'). }
      assert (Hnew : forall lo' hi', (forall i, nth i lo' 0 = if i =? p then low p m o else nth i lo 0) ->
        (forall i, nth i hi' 0 = if i =? p then high p m x o else nth i hi 0) -> length lo' = length sc -> length hi' = length sc ->
        bounds_of (done ++ [(g, o)]) lo' hi').
      { intros lo' hi' H1 H2 L1 L2. split; [exact L1|]. split; [exact L2|]. split.
        - intros H. destruct (clash_last _ _ _ _ _ _ Hn H) as [H'|(g' & o' & m' & x' & Hin & Hn')]; [now apply Hc|exact (Hnone _ _ _ _ Hin Hn')].
        - intros i Hi. rewrite H1, H2. destruct (Nat.eqb_spec i p) as [->|Hne].
          + left. exists g, o, m, x. split; [apply in_app_iff; right; now left|auto].
          + destruct (Hb i Hi) as [(g' & o' & m' & x' & Hin & Hn' & R)|(H & R)].
            * left. exists g', o', m', x'. split; [apply in_app_iff; now left|auto].
            * right. split; [|exact R]. intros g' o' m' x' Hin Hn'. apply in_app_iff in Hin. destruct Hin as [Hin|[Hin|[]]]; [exact (H _ _ _ _ Hin Hn')|].
              injection Hin as <- <-. destruct (numbered_one _ _ _ _ _ _ _ _ Hn Hn') as [Hpi _]. congruence. }
      destruct o as [a|]; do 2 eexists; (split; [reflexivity|]); apply Hnew; intros; try (rewrite set_nth by lia); rewrite ?set_length by lia; auto;
        unfold low, high; match goal with |- context [if ?b then _ else _] => destruct b; [|reflexivity] end; lia.
    - right. split; [reflexivity|]. destruct (Hb p Hp) as [(g' & o' & m' & x' & Hin & Hn' & _)|(_ & H & _)]; [|congruence].
      exists g', o', p, m, m', x, x'. auto.
  Qed.
  Lemma clash_app done g o qs g' o' p m m' x x' : In (g', o') done -> numbered sc g p m x -> numbered sc g' p m' x' -> clash sc (done ++ (g, o) :: qs).
  Proof.
    intros Hin Hn Hn'. apply In_nth_error in Hin. destruct Hin as (i & Hi). assert (i < length done) by (apply nth_error_Some; congruence).
    exists i, (length done), g', o', g, o, p, m', m, x', x. split; [lia|]. split; [now rewrite nth_error_app1 by lia|].
    split; [rewrite nth_error_app2 by lia; now rewrite Nat.sub_diag|auto].
  Qed.
  Lemma steps_spec : forall qs done lo hi, (forall g o, In (g, o) qs -> g < measurements sc) -> bounds_of done lo hi ->
    (exists lo' hi', range_steps gm (lo, hi) qs = Value (lo', hi') /\ bounds_of (done ++ qs) lo' hi') \/
    (range_steps gm (lo, hi) qs = Throws /\ clash sc (done ++ qs)).
  Proof.
    induction qs as [|[g o] qs IH]; intros done lo hi Hq Hb.
    - left. exists lo, hi. split; [reflexivity|]. now rewrite app_nil_r.
    - cbn [range_steps]. destruct (step_spec done g o lo hi (Hq g o (or_introl eq_refl)) Hb)
        as [(lo' & hi' & -> & Hb')|(-> & g' & o' & p & m & m' & x & x' & Hin & Hn & Hn')].
      + cbn [tbind]. replace (done ++ (g, o) :: qs) with ((done ++ [(g, o)]) ++ qs) by (now rewrite <- app_assoc).
        apply IH; [|exact Hb']. intros g' o' Hin; apply (Hq g' o'); now right.
      + right. split; [reflexivity|]. exact (clash_app _ _ _ _ _ _ _ _ _ _ _ Hin Hn Hn').
  Qed.
  Lemma start_bounds : bounds_of [] (repeat 0 (length sc)) (repeat 1 (length sc)).
  Proof.
    split; [apply repeat_length|]. split; [apply repeat_length|]. split.
    - intros (i & j & g & o & g' & o' & p & m & m' & x & x' & _ & H & _). destruct i; discriminate.
    - intros p Hp. right. split; [intros g o m x []|]. split; [apply nth_repeat|].
      revert p Hp. induction (length sc) as [|n IHn]; intros [|p] Hp; cbn; [lia|lia|reflexivity|apply IHn; lia].
  Qed.
  Lemma loop_spec qs : (forall g o, In (g, o) qs -> g < measurements sc) ->
    (exists lo hi, measurement_to_range gm (length sc) qs = Value (lo, hi) /\ bounds_of qs lo hi) \/
    (measurement_to_range gm (length sc) qs = Throws /\ clash sc qs).
  Proof. intros H. exact (steps_spec qs [] _ _ H start_bounds). Qed.

  (** * Meaning of the corners *)
  Definition place_by (p : party) (e : report) : nat := match e with None => 0 | Some (m, a) => 1 + list_sum (map len (firstn m p)) + a end.
  Definition dim_by (p : party) : nat := 1 + list_sum (map len p).
  Definition can_by (p : party) (e : report) : Prop :=
    match e with None => True | Some (m, a) => exists k x, nth_error p m = Some (k, x) /\ a < len (k, x) end.

  Lemma sum_before (ms : party) m x : nth_error ms m = Some x -> list_sum (map len (firstn m ms)) + len x <= list_sum (map len ms).
  Proof.
    intros H. rewrite <- (firstn_skipn m ms) at 2. rewrite map_app, list_sum_app.
    destruct (nth_error_split _ _ H) as (l1 & l2 & -> & <-). rewrite skipn_app, skipn_all, Nat.sub_diag. cbn. lia.
  Qed.
  Lemma between_nth lo hi index : length lo = length sc -> length hi = length sc ->
    (between lo hi index <-> length index = length sc /\ forall p, p < length sc -> nth p lo 0 <= nth p index 0 < nth p hi 0).
  Proof.
    intros Hlo Hhi. unfold between, in_box. rewrite all2_nth. rewrite combine_length, Hlo, Hhi, Nat.min_id.
    split; intros [Hl H]; (split; [lia|]).
    - intros p Hp. apply (H p (nth p lo 0, nth p hi 0) (nth p index 0)); [|apply nth_error_at; lia].
      rewrite <- combine_nth by lia. apply nth_error_at. rewrite combine_length. lia.
    - intros i [a b] y Hc Hy. assert (Hi : i < length sc) by (rewrite <- Hl; apply nth_error_Some; congruence). specialize (H i Hi).
      apply (nth_error_nth _ _ (0, 0)) in Hc. rewrite combine_nth in Hc by lia. injection Hc as <- <-.
      apply (nth_error_nth _ _ 0) in Hy. now subst y.
  Qed.
  Lemma places_nth es p : length es = length sc -> p < length sc -> nth p (places place_by sc es) 0 = place_by (nth p sc []) (nth p es None).
  Proof.
    intros Hl Hp. unfold places. rewrite (nth_indep _ 0 (place_by [] None)) by (rewrite map_length, combine_length, Hl, Nat.min_id; exact Hp).
    rewrite (map_nth (fun x => place_by (fst x) (snd x)) (List.combine sc es) ([], None)). now rewrite combine_nth by (symmetry; exact Hl).
  Qed.
  Lemma places_length es : length es = length sc -> length (places place_by sc es) = length sc.
  Proof. intros Hl. unfold places. rewrite map_length, combine_length, Hl. apply Nat.min_id. Qed.
  Lemma in_same qs g o g' o' p m m' x x' : ~ clash sc qs -> In (g, o) qs -> In (g', o') qs -> numbered sc g p m x -> numbered sc g' p m' x' -> g = g' /\ o = o'.
  Proof.
    intros Hc Hi Hi' Hn Hn'. apply In_nth_error in Hi, Hi'. destruct Hi as (i & Hi), Hi' as (j & Hj).
    destruct (Nat.eq_dec i j) as [->|Hij]; [rewrite Hi in Hj; injection Hj; auto|].
    exfalso. apply Hc. now exists i, j, g, o, g', o', p, m, m', x, x'.
  Qed.
  Lemma bounds_range qs lo hi : sound_requests len sc qs -> bounds_of qs lo hi ->
    range_of (Forall2 can_by sc) place_by dim_by sc qs lo hi.
  Proof.
    intros (Hs & Hc) (Hlo & Hhi & _ & Hb).
    assert (Hv : forall g o p m x, In (g, o) qs -> numbered sc g p m x -> 0 < len x /\ (forall a, o = Some a -> a < len x)).
    { intros g o p m x Hin Hn. destruct (Hs g o Hin) as (p' & m' & x' & Hn' & H). destruct (numbered_one _ _ _ _ _ _ _ _ Hn Hn') as (_ & _ & <-). exact H. }
    assert (Hd : forall p m x, nth_error (nth p sc []) m = Some x -> offset_of len sc p m + len x <= dim_by (nth p sc [])).
    { intros p m x H. apply sum_before in H. unfold offset_of, dim_by. lia. }
    assert (Hw : forall p, p < length sc -> nth p lo 0 < dim_by (nth p sc []) /\ nth p lo 0 <= nth p hi 0 <= dim_by (nth p sc [])).
    { intros p Hp. destruct (Hb p Hp) as [(g & o & m & x & Hin & Hn & -> & ->)|(_ & -> & ->)]; [|unfold dim_by; lia].
      destruct (Hv _ _ _ _ _ Hin Hn) as (H0 & Ha). destruct (numbered_lt _ _ _ _ _ Hn) as (_ & _ & Hx). specialize (Hd _ _ _ Hx).
      unfold low, high. destruct o as [a|]; [specialize (Ha a eq_refl)|]; lia. }
    split.
    - assert (Hdn : forall i d, nth_error (map dim_by sc) i = Some d -> i < length sc /\ d = dim_by (nth i sc [])).
      { intros i d H. assert (i < length sc) by (rewrite <- (map_length dim_by sc); apply nth_error_Some; congruence). split; [assumption|].
        rewrite nth_error_map, (nth_error_at sc i []) in H by assumption. injection H as <-. reflexivity. }
      assert (Hn0 : forall (l : list nat) i a, nth_error l i = Some a -> a = nth i l 0) by (intros l i a H; symmetry; now apply nth_error_nth).
      unfold corners, index_of. rewrite !all2_nth, !map_length, Hlo, Hhi. repeat split; intros.
      + apply Hdn in H0 || apply Hdn in H. repeat match goal with H : nth_error (map _ _) _ = _ |- _ => apply Hdn in H; destruct H as [? ->] end.
        repeat match goal with H : nth_error _ _ = Some _ |- _ => apply Hn0 in H; subst end. destruct H0 as [? ->] || destruct H as [? ->]. now apply Hw.
      + assert (Hi : i < length sc) by (rewrite <- Hlo; apply nth_error_Some; congruence).
        repeat match goal with H : nth_error _ _ = Some _ |- _ => apply Hn0 in H; subst end. now apply Hw.
      + match goal with H : nth_error (map _ _) _ = _ |- _ => apply Hdn in H; destruct H as [? ->] end.
        repeat match goal with H : nth_error _ _ = Some _ |- _ => apply Hn0 in H; subst end. now apply Hw.
    - intros index. rewrite (between_nth lo hi index Hlo Hhi). split.
      + intros (Hl & Hi).
        destruct (choose (fun p e => can_by (nth p sc []) e /\ nth p index 0 = place_by (nth p sc []) e /\
          match e with None => forall g o m x, In (g, o) qs -> ~ numbered sc g p m x
                  | Some (m, a) => exists g o x, In (g, o) qs /\ numbered sc g p m x /\ (o = None \/ o = Some a) end) (length sc)) as (es & Hel & He).
        { intros p Hp. specialize (Hi p Hp). destruct (Hb p Hp) as [(g & o & m & x & Hin & Hn & El & Eh)|(Hno & El & Eh)]; rewrite El, Eh in Hi.
          - destruct (Hv _ _ _ _ _ Hin Hn) as (H0 & Ha). destruct (numbered_lt _ _ _ _ _ Hn) as (_ & _ & Hx). unfold low, high in Hi.
            exists (Some (m, nth p index 0 - offset_of len sc p m)). unfold can_by, place_by. split; [|split].
            + destruct x as [k y]. exists k, y. split; [exact Hx|]. destruct o as [a|]; [specialize (Ha a eq_refl)|]; lia.
            + unfold offset_of in *. lia.
            + exists g, o, x. split; [exact Hin|]. split; [exact Hn|]. destruct o as [a|]; [right|now left]. f_equal. lia.
          - exists None. cbn. repeat split; [lia|exact Hno]. }
        exists es. split; [|split; [split; [exact Hel|]|]].
        * apply all2_nth. split; [now symmetry|]. intros i ms e Hms He'. destruct (He i e He') as (H & _).
          apply (nth_error_nth _ _ []) in Hms. now subst ms.
        * intros p e H. now apply (He p e).
        * apply (nth_ext _ _ 0 0); [now rewrite places_length|]. intros p Hp. rewrite Hl in Hp. rewrite places_nth by assumption.
          destruct (He p (nth p es None)) as (_ & H & _); [apply nth_error_at; lia|exact H].
      + intros (es & Hok & (Hel & He) & ->). split; [now apply places_length|]. intros p Hp. rewrite places_nth by assumption.
        apply all2_nth in Hok. destruct Hok as (_ & Hok). specialize (Hok p _ _ (nth_error_at sc p [] Hp) (nth_error_at es p None ltac:(lia))).
        specialize (He p _ (nth_error_at es p None ltac:(lia))). destruct (nth p es None) as [[m a]|].
        * destruct He as (g & o & x & Hin & Hn & Ho). destruct (Hb p Hp) as [(g' & o' & m' & x' & Hin' & Hn' & -> & ->)|(Hno & _)]; [|now destruct (Hno _ _ _ _ Hin Hn)].
          destruct (in_same _ _ _ _ _ _ _ _ _ _ Hc Hin Hin' Hn Hn') as (<- & <-). destruct (numbered_one _ _ _ _ _ _ _ _ Hn Hn') as (_ & <- & <-).
          destruct (numbered_lt _ _ _ _ _ Hn) as (_ & _ & Hx). destruct Hok as (k & y & Hk & Ha). rewrite Hx in Hk. injection Hk as ->.
          unfold place_by, low, high, offset_of. destruct Ho as [->| ->]; lia.
        * destruct (Hb p Hp) as [(g' & o' & m' & x' & Hin' & Hn' & _)|(_ & -> & ->)]; [now destruct (He _ _ _ _ Hin' Hn')|]. cbn. lia.
  Qed.
End Loop.
