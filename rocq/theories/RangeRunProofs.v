(** Ranges, elements and refused requests. *)
From Coq Require Import List NArith Arith Bool Lia Permutation.
From Verif Require Import FieldModel PolyModel PolySpec AlgModel TensorModel TensorSpec EnumSpec ProbModel ProbSpec ProbProofs ProbFinalProofs RangeModel RangeSpec RangeProofs.
Import ListNotations.

Lemma sound_below len sc qs : sound_requests len sc qs -> forall g o, In (g, o) qs -> g < measurements sc.
Proof. intros (H & _) g o Hin. destruct (H g o Hin) as (p & m & x & Hn & _). exact (proj1 (numbered_lt _ _ _ _ _ Hn)). Qed.
Lemma range_by len sc qs : sound_requests len sc qs ->
  exists lo hi, measurement_to_range (gm_table len sc) (length sc) qs = Value (lo, hi) /\ range_of (Forall2 (can_by len) sc) (place_by len) (dim_by len) sc qs lo hi.
Proof.
  intros Hs. destruct (loop_spec len sc qs (sound_below _ _ _ Hs)) as [(lo & hi & E & Hb)|(_ & Hc)]; [|now destruct Hs].
  exists lo, hi. split; [exact E|]. now apply bounds_range.
Qed.
Lemma outcomes_range sc qs : sound_requests fst sc qs ->
  exists lo hi, measurement_to_range (gm_table num_outcomes sc) (length sc) qs = Value (lo, hi) /\ range_of (joint sc) full_place full_dim sc qs lo hi.
Proof. exact (range_by fst sc qs). Qed.
Lemma operators_range sc qs : sound_requests operators sc qs ->
  exists lo hi, measurement_to_range (gm_table num_operators sc) (length sc) qs = Value (lo, hi) /\ range_of (joint_operator sc) cg_place cg_dim sc qs lo hi.
Proof. exact (range_by operators sc qs). Qed.

(** * Refused requests *)
Lemma clash_throws len sc qs : (forall g o, In (g, o) qs -> g < measurements sc) ->
  (measurement_to_range (gm_table len sc) (length sc) qs = Throws <-> clash sc qs).
Proof.
  intros H. destruct (loop_spec len sc qs H) as [(lo & hi & E & _ & _ & Hc & _)|(E & Hc)]; rewrite E; split; auto; [discriminate|now intros].
Qed.
Lemma steps_app gm : forall qs b qs', range_steps gm b (qs ++ qs') = tbind (range_steps gm b qs) (fun b' => range_steps gm b' qs').
Proof.
  induction qs as [|q qs IH]; intros b qs'; cbn [app range_steps]; [reflexivity|]. destruct (range_step gm b q) as [b'| |]; cbn [tbind]; [apply IH|reflexivity|reflexivity].
Qed.
Lemma first_beyond n : forall qs : list request, (forall g o, In (g, o) qs -> g <> n) -> (exists g o, In (g, o) qs /\ n < g) ->
  exists before g o after, qs = before ++ (g, o) :: after /\ n < g /\ forall g' o', In (g', o') before -> g' < n.
Proof.
  induction qs as [|[g o] qs IH]; intros Hn (g' & o' & Hin & Hg); [destruct Hin|].
  destruct (Nat.lt_ge_cases n g) as [Hlt|Hge]; [exists [], g, o, qs; repeat split; [exact Hlt|intros ? ? []]|].
  destruct Hin as [Hin|Hin]; [injection Hin as -> ->; lia|].
  destruct IH as (b & g1 & o1 & a & -> & H1 & H2); [intros; eapply Hn; right; eassumption|now exists g', o'|].
  exists ((g, o) :: b), g1, o1, a. repeat split; [exact H1|]. intros g2 o2 [E|E]; [injection E as <- <-|now apply (H2 g2 o2)].
  specialize (Hn g o (or_introl eq_refl)). lia.
Qed.
Lemma beyond_throws len sc qs : (forall g o, In (g, o) qs -> g <> measurements sc) -> (exists g o, In (g, o) qs /\ measurements sc < g) ->
  measurement_to_range (gm_table len sc) (length sc) qs = Throws.
Proof.
  intros Hn He. destruct (first_beyond _ _ Hn He) as (b & g & o & a & -> & Hg & Hb). unfold measurement_to_range. rewrite steps_app.
  destruct (loop_spec len sc b Hb) as [(lo & hi & E & _)|(E & _)]; unfold measurement_to_range in E; rewrite E; cbn [tbind]; [|reflexivity].
  cbn [range_steps]. unfold range_step. cbn [fst]. unfold gm_table at 1. rewrite gm_length_of.
  apply Nat.ltb_lt in Hg. now rewrite Hg.
Qed.
Lemma end_undefined len sc o : measurement_to_range (gm_table len sc) (length sc) [(measurements sc, o)] = Undefined.
Proof.
  unfold measurement_to_range, range_steps, range_step. cbn [fst]. unfold gm_table. rewrite gm_length_of, Nat.ltb_irrefl.
  assert (E : nth_error (gm_parties len 0 sc) (measurements sc) = None) by (apply nth_error_None; rewrite gm_length_of; lia).
  now rewrite E.
Qed.

(** * One element *)
Lemma element_steps_range gm : forall qs lo hi,
  element_steps gm lo qs = tbind (range_steps gm (lo, hi) (fixed qs)) (fun b => Value (fst b)).
Proof.
  induction qs as [|[g a] qs IH]; intros lo hi; [reflexivity|]. cbn [element_steps fixed map range_steps fst snd]. unfold range_step at 1. cbn [fst snd].
  destruct (length gm <? g); [reflexivity|]. destruct (nth_error gm g) as [e|]; [|reflexivity].
  destruct (nth_error lo (gm_party e)) as [[|k]|]; [|reflexivity|reflexivity]. cbn [tbind]. apply IH.
Qed.
Lemma element_range gm n qs : outcome_to_element gm n qs = tbind (measurement_to_range gm n (fixed qs)) (fun b => Value (fst b)).
Proof. apply element_steps_range. Qed.
Lemma in_fixed qs g o : In (g, o) (fixed qs) -> exists a, o = Some a /\ In (g, a) qs.
Proof. unfold fixed. intros H. apply in_map_iff in H. destruct H as ([g' a] & E & Hin). cbn in E. injection E as <- <-. now exists a. Qed.
Lemma fixed_one len sc qs lo hi : bounds_of len sc (fixed qs) lo hi -> forall index, between lo hi index -> index = lo.
Proof.
  intros (Hlo & Hhi & _ & Hb) index H. apply (between_nth sc _ _ _ Hlo Hhi) in H. destruct H as (Hl & H).
  apply (nth_ext _ _ 0 0); [congruence|]. intros p Hp. rewrite Hl in Hp. specialize (H p Hp).
  destruct (Hb p Hp) as [(g & o & m & x & Hin & _ & El & Eh)|(_ & El & Eh)]; rewrite El, Eh in *; [|lia].
  destruct (in_fixed _ _ _ Hin) as (a & -> & _). unfold low, high in *. lia.
Qed.
Lemma outcomes_element sc qs : sound_requests fst sc (fixed qs) ->
  exists es, joint sc es /\ answers_requests sc (fixed qs) es /\
    outcome_to_element (gm_table num_outcomes sc) (length sc) qs = Value (places full_place sc es).
Proof.
  intros Hs. destruct (loop_spec num_outcomes sc _ (sound_below _ _ _ Hs)) as [(lo & hi & E & Hb)|(_ & Hc)]; [|now destruct Hs].
  pose proof (bounds_range _ _ _ _ _ Hs Hb) as (_ & Hr).
  assert (Hin : between lo hi lo).
  { destruct Hb as (Hlo & Hhi & _ & Hb). apply (between_nth sc _ _ _ Hlo Hhi). split; [exact Hlo|]. intros p Hp.
    destruct (Hb p Hp) as [(g & o & m & x & Hin & _ & -> & ->)|(_ & -> & ->)]; [|lia].
    destruct (in_fixed _ _ _ Hin) as (a & -> & _). unfold low, high. lia. }
  destruct (proj1 (Hr lo) Hin) as (es & Hj & Ha & Hp). exists es. split; [exact Hj|]. split; [exact Ha|].
  rewrite element_range, E. cbn [tbind fst]. now rewrite Hp.
Qed.
(** the reports that answer are determined *)
Lemma answers_one sc qs es es' : ~ clash sc (fixed qs) -> answers_requests sc (fixed qs) es -> answers_requests sc (fixed qs) es' -> es = es'.
Proof.
  intros Hc (Hl & H) (Hl' & H'). apply (nth_ext _ _ None None); [congruence|]. intros p Hp.
  assert (Hp' : p < length es') by congruence.
  specialize (H p _ (nth_error_at es p None Hp)). specialize (H' p _ (nth_error_at es' p None Hp')).
  destruct (nth p es None) as [[m a]|], (nth p es' None) as [[m' a']|].
  - destruct H as (g & o & x & Hin & Hn & Ho), H' as (g' & o' & x' & Hin' & Hn' & Ho').
    destruct (in_same _ _ _ _ _ _ _ _ _ _ _ Hc Hin Hin' Hn Hn') as (<- & <-). destruct (numbered_one _ _ _ _ _ _ _ _ Hn Hn') as (_ & <- & _).
    destruct (in_fixed _ _ _ Hin) as (b & -> & _). destruct Ho as [Ho|Ho]; [discriminate|]. destruct Ho' as [Ho'|Ho']; [discriminate|]. congruence.
  - destruct H as (g & o & x & Hin & Hn & _). now destruct (H' _ _ _ _ Hin Hn).
  - destruct H' as (g & o & x & Hin & Hn & _). now destruct (H _ _ _ _ Hin Hn).
  - reflexivity.
Qed.
Lemma outcomes_element_all sc qs : sound_requests fst sc (fixed qs) -> exists es, joint sc es /\ answers_requests sc (fixed qs) es /\
    (forall es', answers_requests sc (fixed qs) es' -> es' = es) /\
    outcome_to_element (gm_table num_outcomes sc) (length sc) qs = Value (places full_place sc es).
Proof.
  intros Hs. destruct (outcomes_element sc qs Hs) as (es & Hj & Ha & E). exists es. split; [exact Hj|]. split; [exact Ha|]. split; [|exact E].
  intros es' Ha'. destruct Hs as (_ & Hc). exact (answers_one _ _ _ _ Hc Ha' Ha).
Qed.
Lemma element_refused sc qs : (forall g a, In (g, a) qs -> g < measurements sc) -> clash sc (fixed qs) ->
  outcome_to_element (gm_table num_outcomes sc) (length sc) qs = Throws.
Proof.
  intros H Hc. rewrite element_range. assert (Hb : forall g o, In (g, o) (fixed qs) -> g < measurements sc) by (intros g o Hin; destruct (in_fixed _ _ _ Hin) as (a & _ & Hin'); exact (H _ _ Hin')).
  apply (clash_throws num_outcomes _ _ Hb) in Hc. now rewrite Hc.
Qed.

(** * Inflation: one measurement per dimension *)
Lemma single_numbered : forall vs g v, nth_error vs g = Some v -> numbered (map single vs) g g 0 v.
Proof.
  induction vs as [|y vs IH]; intros [|g] v H; cbn in H; try discriminate.
  - injection H as ->. exists [], (single v), (map single vs). auto.
  - destruct (IH g v H) as (b & ms & a & E & Hl & Hx & Hg). exists (single y :: b), ms, a. cbn [map app length]. rewrite E. repeat split; auto.
    cbn. unfold list_sum in *. lia.
Qed.
Lemma single_measurements vs : measurements (map single vs) = length vs.
Proof. unfold measurements. induction vs as [|v vs IH]; [reflexivity|]. cbn. unfold list_sum in IH. now rewrite IH. Qed.
Lemma variant_same vs lo hi q : length lo = length vs -> variant_step (variant_dims vs) (lo, hi) q = range_step (gm_table num_outcomes (map single vs)) (lo, hi) q.
Proof.
  intros Hl. unfold variant_step, range_step, variant_dims, gm_table. destruct q as [g o]. cbn [fst snd]. rewrite map_length, gm_length_of, single_measurements.
  destruct (Nat.ltb_spec (length vs) g) as [Hg|Hg]; [reflexivity|].
  destruct (nth_error vs g) as [v|] eqn:E.
  - rewrite (gm_at num_outcomes _ 0 _ _ _ _ (single_numbered _ _ _ E)). cbn [gm_party gm_offset gm_length Nat.add].
    assert (Ho : offset_of num_outcomes (map single vs) g 0 = 1) by reflexivity. rewrite Ho.
    destruct (nth_error lo g) as [[|k]|]; [|reflexivity|reflexivity]. destruct o as [a|].
    + do 3 f_equal. lia.
    + rewrite nth_error_map, E. cbn [option_map]. do 3 f_equal. unfold num_outcomes. lia.
  - apply nth_error_None in E. assert (g = length vs) by lia. subst g.
    assert (E1 : nth_error lo (length vs) = None) by (apply nth_error_None; lia). rewrite E1.
    assert (E2 : nth_error (gm_parties num_outcomes 0 (map single vs)) (length vs) = None) by (apply nth_error_None; rewrite gm_length_of, single_measurements; lia).
    now rewrite E2.
Qed.
Lemma range_step_length gm lo hi q lo' hi' : range_step gm (lo, hi) q = Value (lo', hi') -> length lo' = length lo.
Proof.
  unfold range_step. cbn [fst snd]. destruct (length gm <? fst q); [discriminate|]. destruct (nth_error gm (fst q)) as [e|]; [|discriminate].
  destruct (nth_error lo (gm_party e)) as [[|k]|] eqn:E; try discriminate.
  assert (gm_party e < length lo) by (apply nth_error_Some; congruence).
  destruct (snd q); intros [= <- _]; now apply set_length.
Qed.
Lemma variant_steps_same vs : forall qs lo hi, length lo = length vs ->
  variant_steps (variant_dims vs) (lo, hi) qs = range_steps (gm_table num_outcomes (map single vs)) (lo, hi) qs.
Proof.
  induction qs as [|q qs IH]; intros lo hi Hl; [reflexivity|]. cbn [variant_steps range_steps]. rewrite (variant_same vs lo hi q Hl).
  destruct (range_step _ (lo, hi) q) as [[lo' hi']| |] eqn:E; [|reflexivity|reflexivity]. cbn [tbind]. apply IH.
  now rewrite (range_step_length _ _ _ _ _ _ E).
Qed.
Lemma variant_range_same vs qs : variant_to_range (variant_dims vs) qs = measurement_to_range (gm_table num_outcomes (map single vs)) (length (map single vs)) qs.
Proof.
  unfold variant_to_range, measurement_to_range. unfold variant_dims at 2 3. rewrite !map_length. apply variant_steps_same. apply repeat_length.
Qed.
Lemma variants_range vs qs : sound_requests fst (map single vs) qs ->
  exists lo hi, variant_to_range (variant_dims vs) qs = Value (lo, hi) /\ range_of (joint (map single vs)) full_place full_dim (map single vs) qs lo hi.
Proof. intros H. rewrite variant_range_same. now apply outcomes_range. Qed.

(** * Correlators *)
Definition correlator_request (counts : list nat) (qs : list (nat * nat)) : Prop :=
  NoDup (map fst qs) /\ forall p m, In (p, m) qs -> exists c, nth_error counts p = Some c /\ m < c.
Lemma correlator_run counts : forall qs index, length index = length counts ->
  (exists index', correlator_steps counts index qs = Value index' /\ correlator_request counts qs /\ length index' = length counts /\
     (forall p m, In (p, m) qs -> nth p index 0 = 0 /\ nth p index' 0 = S m) /\
     (forall p, ~ In p (map fst qs) -> nth p index' 0 = nth p index 0)) \/
  (correlator_steps counts index qs = Throws /\ ~ (correlator_request counts qs /\ forall p m, In (p, m) qs -> nth p index 0 = 0)).
Proof.
  induction qs as [|[p m] qs IH]; intros index Hl.
  - left. exists index. repeat split; auto; [constructor|intros ? ? []|destruct H|destruct H].
  - cbn [correlator_steps]. destruct (Nat.leb_spec (length index) p) as [Hp|Hp].
    { right. split; [reflexivity|]. intros ((_ & H) & _). destruct (H p m (or_introl eq_refl)) as (c & Hc & _).
      assert (p < length counts) by (apply nth_error_Some; congruence). lia. }
    rewrite (nth_error_at counts p 0) by lia. rewrite (nth_error_at index p 0) by lia.
    destruct (Nat.eqb_spec (nth p index 0) 0) as [E|E]; cbn [negb].
    2:{ right. split; [reflexivity|]. intros (_ & H). exact (E (H p m (or_introl eq_refl))). }
    destruct (Nat.leb_spec (nth p counts 0) m) as [Hm|Hm].
    { right. split; [reflexivity|]. intros ((_ & H) & _). destruct (H p m (or_introl eq_refl)) as (c & Hc & Hlt).
      apply (nth_error_nth _ _ 0) in Hc. lia. }
    assert (Hs : forall j, nth j (set_at index p (m + 1)) 0 = if j =? p then m + 1 else nth j index 0) by (intros; now apply set_nth).
    destruct (IH (set_at index p (m + 1))) as [(index' & E1 & (Hnd & Hv) & Hl' & Hi & Hk)|(E1 & Hno)]; [now rewrite set_length| |].
    + left. exists index'. assert (Hnp : ~ In p (map fst qs)).
      { intros H. apply in_map_iff in H. destruct H as ([p' m'] & Ep & Hin). cbn in Ep. subst p'. destruct (Hi _ _ Hin) as (Hz & _).
        rewrite Hs, Nat.eqb_refl in Hz. lia. }
      split; [exact E1|]. split; [split|split; [exact Hl'|split]].
      * cbn. now constructor.
      * intros p' m' [H|H]; [injection H as <- <-|now apply Hv]. exists (nth p counts 0). split; [apply nth_error_at; lia|lia].
      * intros p' m' [H|H].
        -- injection H as <- <-. split; [exact E|]. rewrite (Hk _ Hnp), Hs, Nat.eqb_refl. lia.
        -- destruct (Hi _ _ H) as (H0 & H1). split; [|exact H1]. rewrite Hs in H0. destruct (p' =? p); [lia|exact H0].
      * intros p' Hn. cbn in Hn. rewrite (Hk p') by tauto. rewrite Hs. destruct (Nat.eqb_spec p' p) as [->|]; [tauto|reflexivity].
    + right. split; [exact E1|]. intros ((Hnd & Hv) & Hz). apply Hno. cbn in Hnd. apply NoDup_cons_iff in Hnd. destruct Hnd as (Hnp & Hnd).
      split; [split; [exact Hnd|intros; apply Hv; now right]|]. intros p' m' Hin. rewrite Hs.
      destruct (Nat.eqb_spec p' p) as [->|]; [|apply (Hz p' m'); now right]. destruct Hnp. apply in_map_iff. now exists (p, m').
Qed.
Lemma correlator_element counts qs : NoDup (map fst qs) -> (forall p m, In (p, m) qs -> exists c, nth_error counts p = Some c /\ m < c) ->
  exists index, mmt_to_element counts qs = Value index /\ length index = length counts /\
    (forall p m, In (p, m) qs -> nth p index 0 = S m) /\ (forall p, ~ In p (map fst qs) -> nth p index 0 = 0).
Proof.
  intros Hnd Hv. unfold mmt_to_element. destruct (correlator_run counts qs (repeat 0 (length counts)) (repeat_length _ _))
    as [(index & E & _ & Hl & Hi & Hk)|(_ & Hno)].
  - exists index. repeat split; auto; [intros p m Hin; now apply Hi|]. intros p Hn. rewrite (Hk p Hn). apply nth_repeat.
  - destruct Hno. split; [split; assumption|]. intros; apply nth_repeat.
Qed.
Lemma correlator_refused counts qs :
  ~ NoDup (map fst qs) \/ (exists p m, In (p, m) qs /\ forall c, nth_error counts p = Some c -> c <= m) -> mmt_to_element counts qs = Throws.
Proof.
  intros H. unfold mmt_to_element. destruct (correlator_run counts qs (repeat 0 (length counts)) (repeat_length _ _))
    as [(index & _ & (Hnd & Hv) & _)|(E & _)]; [|exact E].
  destruct H as [H|(p & m & Hin & H)]; [now destruct H|]. destruct (Hv p m Hin) as (c & Hc & Hlt). specialize (H c Hc). lia.
Qed.

(** * The value of the element *)
Lemma element_value : forall (R : rfield) (sc : list party) (sym : N -> option nat),
  Forall (Forall (fun m => 0 < fst m)) sc -> small (map cg_dim sc) ->
  forall psort factory : list (mono R) -> list (mono R), (forall l, Permutation l (psort l)) ->
  forall P, consistent sc P -> forall fuel v, entries sc P v -> 2 ^ length sc + volume (map cg_dim sc) <= fuel ->
  forall qs, sound_requests fst sc (fixed qs) ->
  exists axes index e es, make_axes (map (@length _) sc) (concat sc) = Value axes /\
    outcome_to_element (gm_table num_outcomes sc) (length sc) qs = Value index /\
    make_probability (map cg_dim sc) sym psort factory fuel axes index = Ret (Value e) /\
    answers_requests sc (fixed qs) es /\ value v (el_cg e) = P es.
Proof.
  intros R sc sym H1 H2 psort factory H3 P H4 fuel v H5 H6 qs Hs. destruct (outcomes_element sc qs Hs) as (es & Hj & Ha & E).
  destruct (@probability_spec R sc sym H1 H2 psort factory H3 P H4 es fuel v Hj H5 H6) as (axes & e & Hx & Hm & Hv & _).
  exists axes, (places full_place sc es), e, es. auto.
Qed.
