(** Completed rulebooks decide equality: termination, local confluence, Newman's lemma, and the normal-form algebra. *)
From Coq Require Import List ZArith NArith Arith Bool Sorted Lia Wellfounded.
From Coq Require Import ZifyBool ZifyNat ZifyN.
From Verif Require Import CoreModel CoreSpec CoreProofs AlgModel AlgSpec AlgProofs AlgTheoryProofs AlgCompleteProofs.
Import ListNotations.

(* ---------------------------------------------------------------- contexts *)
Definition ctx (s : sign) (a b : word) (t : term) : term :=
  match t with None => None | Some (s', w) => Some (smul s s', a ++ w ++ b) end.
Definition rt (rl : rule) : term := if N.eqb (hs_hash (rl_rhs rl)) 0 then None else Some (hs_sign (rl_rhs rl), hs_ops (rl_rhs rl)).

Lemma via_ctx rl a b : via rl a b = ctx SPos a b (rt rl).
Proof. unfold via, rt. destruct (N.eqb (hs_hash (rl_rhs rl)) 0); cbn; [reflexivity|]. destruct (hs_sign (rl_rhs rl)); reflexivity. Qed.

Lemma ctx_ctx s a b s' a' b' t : ctx s a b (ctx s' a' b' t) = ctx (smul s s') (a ++ a') (b' ++ b) t.
Proof.
  destruct t as [[s'' w]|]; cbn; [|reflexivity]. rewrite smul_assoc. rewrite <- !app_assoc. reflexivity.
Qed.
Lemma ctx_pos t : ctx SPos [] [] t = t.
Proof. destruct t as [[s w]|]; cbn; [|reflexivity]. rewrite app_nil_r. destruct s; reflexivity. Qed.

Lemma rewrites_iff m t u : rewrites m t u <->
  exists k rl s a b, In (k, rl) m /\ t = Some (s, a ++ hs_ops (rl_lhs rl) ++ b) /\ u = ctx s a b (rt rl).
Proof.
  split.
  - intro H. destruct H as [k rl s a b Hin Hz|k rl s a b Hin Hz]; exists k, rl, s, a, b; unfold rt.
    + rewrite Hz. auto.
    + destruct (N.eqb_spec (hs_hash (rl_rhs rl)) 0); [contradiction|]. auto.
  - intros (k & rl & s & a & b & Hin & -> & ->). unfold rt. destruct (N.eqb_spec (hs_hash (rl_rhs rl)) 0) as [Z|Z].
    + apply (rw_zero m k rl s a b Hin Z).
    + apply (rw_word m k rl s a b Hin Z).
Qed.

Lemma rewrites_ctx m s a b t u : rewrites m t u -> rewrites m (ctx s a b t) (ctx s a b u).
Proof.
  intro H. apply rewrites_iff in H as (k & rl & s' & a' & b' & Hin & -> & ->). apply rewrites_iff.
  exists k, rl, (smul s s'), (a ++ a'), (b' ++ b). split; [exact Hin|]. split; [|apply ctx_ctx].
  cbn. rewrite <- !app_assoc. reflexivity.
Qed.
Lemma rws_ctx m s a b t u : rewrites_star m t u -> rewrites_star m (ctx s a b t) (ctx s a b u).
Proof. induction 1 as [|t u x H1 H2 IH]; [constructor|]. eapply rws_step; [apply rewrites_ctx, H1|exact IH]. Qed.
Lemma joinable_ctx m s a b t u : joinable m t u -> joinable m (ctx s a b t) (ctx s a b u).
Proof. intros (x & H1 & H2). exists (ctx s a b x). split; apply rws_ctx; assumption. Qed.
Lemma joinable_sym m t u : joinable m t u -> joinable m u t.
Proof. intros (x & H1 & H2). exists x. auto. Qed.

(* ---------------------------------------------------------------- termination *)
Definition term_rel (m : rulemap) (u t : term) : Prop := rewrites m t u.

Lemma over_mono r R w : r <= R -> over r w -> over R w.
Proof. intros H Hw o Ho. specialize (Hw o Ho). lia. Qed.
Lemma over_exists r w : exists R, r <= R /\ over R w.
Proof.
  induction w as [|o w (R & H1 & H2)]; [exists r; split; [lia|intros o []]|].
  exists (R + S o). split; [lia|]. intros x [<-|Hx]; [lia|]. specialize (H2 x Hx). lia.
Qed.

Lemma rewrites_wf r L m : hash_safe r L -> wf_map r L m -> forall t, Acc (term_rel m) t.
Proof.
  intros HL Hm.
  assert (N0 : Acc (term_rel m) None) by (constructor; intros u H; inversion H).
  assert (G : forall R, r <= R -> forall n s w, over R w -> (val (N.of_nat R) w < n)%N -> Acc (term_rel m) (Some (s, w))).
  { intros R HR. induction n as [|n IH] using N.peano_ind; intros s w Hw Hn; [lia|].
    constructor. intros u H. unfold term_rel in H. inversion H as [k rl s0 a b Hin Hz Eq1 Eq2|k rl s0 a b Hin Hz Eq1 Eq2]; [exact N0|]. subst s0 w. clear H.
    destruct (proj2 Hm _ _ Hin) as [_ W].
    assert (Hov : over R (a ++ hs_ops (rl_rhs rl) ++ b)).
    { apply over_app in Hw as [Ha Hw]. apply over_app in Hw as [_ Hb]. rewrite !over_app. split; [exact Ha|split; [|exact Hb]].
      apply (over_mono r R _ HR). apply (wf_rhs r L rl W Hz). }
    apply IH; [exact Hov|].
    pose proof (shortlex_lt_val R _ _ Hov (shortlex_context a b _ _ (wf_rhs_shortlex r L rl HL W Hz))). lia. }
  intros [[s w]|]; [|exact N0]. destruct (over_exists r w) as (R & HR & Hw).
  apply (G R HR (val (N.of_nat R) w + 1)%N s w Hw). lia.
Qed.

Lemma rewrites_dec m : forall t, (exists u, rewrites m t u) \/ normal m t.
Proof.
  intros [[s w]|]; [|right; intros u H; inversion H].
  assert (Hocc : forall l : word, (exists a b, w = a ++ l ++ b) \/ (forall a b, w <> a ++ l ++ b)).
  { intro l. destruct l as [|o l]; [left; exists [], w; reflexivity|].
    destruct (matches_anywhere (o :: l) w) as [i|] eqn:E.
    - left. apply matches_anywhere_some in E as (_ & p & q & E & _). exists p, q. exact E.
    - right. intros a b C. apply (matches_anywhere_none (o :: l) ltac:(discriminate) w E). exists a, b. exact C. }
  assert (G : forall m', incl m' m -> (exists k rl a b, In (k, rl) m' /\ w = a ++ hs_ops (rl_lhs rl) ++ b) \/
                       (forall k rl a b, In (k, rl) m' -> w <> a ++ hs_ops (rl_lhs rl) ++ b)).
  { induction m' as [|[k rl] m' IH]; intro Hi; [right; intros ? ? ? ? []|].
    destruct (Hocc (hs_ops (rl_lhs rl))) as [(a & b & E)|H1].
    - left. exists k, rl, a, b. split; [left; reflexivity|exact E].
    - destruct IH as [(k' & rl' & a & b & Hin & E)|H2]; [intros x Hx; apply Hi; right; exact Hx| |].
      + left. exists k', rl', a, b. split; [right; exact Hin|exact E].
      + right. intros k' rl' a b [E|Hin]; [injection E as <- <-; apply H1|apply (H2 _ _ _ _ Hin)]. }
  destruct (G m (incl_refl m)) as [(k & rl & a & b & Hin & E)|H].
  - left. eexists. apply rewrites_iff. exists k, rl, s, a, b. split; [exact Hin|]. split; [rewrite E; reflexivity|reflexivity].
  - right. intros u Hu. apply rewrites_iff in Hu as (k & rl & s' & a & b & Hin & E & _). injection E as _ E.
    apply (H k rl a b Hin E).
Qed.

Lemma normal_form_exists r L m : hash_safe r L -> wf_map r L m -> forall t, exists u, rewrites_star m t u /\ normal m u.
Proof.
  intros HL Hm t. induction (rewrites_wf r L m HL Hm t) as [t _ IH].
  destruct (rewrites_dec m t) as [(u & H)|H].
  - destruct (IH u H) as (x & H1 & H2). exists x. split; [eapply rws_step; eassumption|exact H2].
  - exists t. split; [constructor|exact H].
Qed.

(* ---------------------------------------------------------------- Newman *)
Lemma newman m : (forall t, Acc (term_rel m) t) -> (forall t u x, rewrites m t u -> rewrites m t x -> joinable m u x) -> confluent m.
Proof.
  intros Hwf Hloc t. induction (Hwf t) as [t _ IH]. intros u x Hu Hx.
  destruct Hu as [t|t u1 u H1 H1']; [exists x; split; [exact Hx|constructor]|].
  destruct Hx as [t|t x1 x H2 H2']; [exists u; split; [constructor|eapply rws_step; eassumption]|].
  destruct (Hloc t u1 x1 H1 H2) as (y & Y1 & Y2).
  destruct (IH u1 H1 u y H1' Y1) as (z & Z1 & Z2).
  destruct (IH x1 H2 z x (rws_trans _ _ _ _ Y2 Z2) H2') as (q & Q1 & Q2).
  exists q. split; [eapply rws_trans; eassumption|exact Q2].
Qed.

(* ---------------------------------------------------------------- local confluence *)
Lemma joinable_refl m t : joinable m t t.
Proof. exists t. split; constructor. Qed.

Lemma same_rule r L m k1 k2 a b : hash_safe r L -> wf_map r L m -> In (k1, a) m -> In (k2, b) m ->
  hs_ops (rl_lhs a) = hs_ops (rl_lhs b) -> k1 = k2 /\ a = b.
Proof.
  intros HL [Hs Hm] Ha Hb E. destruct (Hm _ _ Ha) as [E1 W1]. destruct (Hm _ _ Hb) as [E2 W2].
  destruct (wf_lhs r L a W1) as (A1 & _). destruct (wf_lhs r L b W2) as (B1 & _).
  assert (k1 = k2) by congruence. split; [assumption|]. subst k2.
  assert (F1 : map_find k1 m = Some a) by (apply sorted_map_find; assumption).
  assert (F2 : map_find k1 m = Some b) by (apply sorted_map_find; [assumption|congruence]). congruence.
Qed.

(** the two one-step results of a proper overlap are joinable *)
Definition overlaps_join (m : rulemap) : Prop :=
  forall k1 a k2 b x y z, In (k1, a) m -> In (k2, b) m -> overlap a b x y z ->
    joinable m (via a [] z) (via b x []).

Lemma local_confluence r L m : hash_safe r L -> wf_map r L m -> interreduced m -> overlaps_join m ->
  forall t u x, rewrites m t u -> rewrites m t x -> joinable m u x.
Proof.
  intros HL Hm [Hne Hir] Hov t u x H1 H2.
  apply rewrites_iff in H1 as (k1 & a & s & p1 & q1 & Ha & Et & Eu).
  apply rewrites_iff in H2 as (k2 & b & s' & p2 & q2 & Hb & Et' & Ex).
  rewrite Et in Et'. injection Et' as <- E. clear t Et. subst u x.
  assert (G : forall k1 a k2 b p1 q1 p2 q2, In (k1, a) m -> In (k2, b) m ->
            p1 ++ hs_ops (rl_lhs a) ++ q1 = p2 ++ hs_ops (rl_lhs b) ++ q2 -> length p1 <= length p2 ->
            joinable m (ctx s p1 q1 (rt a)) (ctx s p2 q2 (rt b))).
  { clear k1 a p1 q1 Ha k2 b p2 q2 Hb E. intros k1 a k2 b p1 q1 p2 q2 Ha Hb E Hlen.
    apply app_eq_app in E as (d & [[E1 E2]|[E1 E2]]).
    { assert (d = []) by (rewrite E1, app_length in Hlen; destruct d; [reflexivity|cbn in Hlen; lia]). subst d.
      rewrite app_nil_r in E1. subst p2. cbn [app] in E2. symmetry in E2.
      (* same start *)
      apply app_eq_app in E2 as (e & [[E1 E2]|[E1 E2]]).
      - destruct (N.eq_dec k1 k2) as [Ek|Ek].
        + subst k2. assert (a = b).
          { pose proof (sorted_map_find _ _ _ (proj1 Hm) Ha). pose proof (sorted_map_find _ _ _ (proj1 Hm) Hb). congruence. }
          subst b. assert (e = []) by (apply (f_equal (@length nat)) in E1; rewrite app_length in E1; destruct e; [reflexivity|cbn in E1; lia]).
          subst e. cbn in E2. subst q2. apply joinable_refl.
        + exfalso. apply (Hir k2 b k1 a Hb Ha (not_eq_sym Ek)). exists [], e. exact E1.
      - destruct (N.eq_dec k1 k2) as [Ek|Ek].
        + subst k2. assert (a = b).
          { pose proof (sorted_map_find _ _ _ (proj1 Hm) Ha). pose proof (sorted_map_find _ _ _ (proj1 Hm) Hb). congruence. }
          subst b. assert (e = []) by (apply (f_equal (@length nat)) in E1; rewrite app_length in E1; destruct e; [reflexivity|cbn in E1; lia]).
          subst e. cbn in E2. subst q1. apply joinable_refl.
        + exfalso. apply (Hir k1 a k2 b Ha Hb Ek). exists [], e. exact E1. }
    (* p2 = p1 ++ d, l1 ++ q1 = d ++ l2 ++ q2 *)
    subst p2. apply app_eq_app in E2 as (y & [[E1 E2]|[E1 E2]]).
    - (* l1 = d ++ y *)
      destruct y as [|y0 y]; [|].
      { rewrite app_nil_r in E1. cbn [app] in E2. subst d.
        (* disjoint, adjacent *)
        subst q1.
        assert (J : joinable m (ctx SPos [] (hs_ops (rl_lhs b)) (rt a)) (ctx SPos (hs_ops (rl_lhs a)) [] (rt b))).
        { exists (match rt a, rt b with Some (sa, wa), Some (sb, wb) => Some (smul sa sb, wa ++ wb) | _, _ => None end).
          split.
          - destruct (rt a) as [[sa wa]|] eqn:Ra; cbn [ctx]; [|constructor]. apply rws_one, rewrites_iff.
            exists k2, b, (smul SPos sa), wa, []. split; [exact Hb|]. split; [rewrite app_nil_r; reflexivity|].
            destruct (rt b) as [[sb wb]|]; cbn [ctx]; [|reflexivity]. rewrite app_nil_r. destruct sa; reflexivity.
          - destruct (rt b) as [[sb wb]|] eqn:Rb; cbn [ctx]; [|destruct (rt a) as [[]|]; constructor].
            apply rws_one, rewrites_iff. exists k1, a, (smul SPos sb), [], wb. split; [exact Ha|].
            split; [cbn [app]; rewrite app_nil_r; reflexivity|].
            destruct (rt a) as [[sa wa]|]; cbn [ctx]; [|reflexivity]. cbn [app]. destruct sa, sb; reflexivity. }
        apply (joinable_ctx m s p1 q2) in J. rewrite !ctx_ctx in J. cbn [app] in J. rewrite app_nil_r, smul_pos_r in J. exact J. }
      set (Y := y0 :: y) in *. assert (HY : Y <> []) by discriminate. clearbody Y. clear y0 y.
      (* Y ++ q1 = l2 ++ q2 *)
      symmetry in E2. apply app_eq_app in E2 as (z & [[E3 E4]|[E3 E4]]).
      + (* Y = l2 ++ z : l2 inside l1 *)
        destruct (N.eq_dec k1 k2) as [Ek|Ek].
        * subst k2. assert (a = b).
          { pose proof (sorted_map_find _ _ _ (proj1 Hm) Ha). pose proof (sorted_map_find _ _ _ (proj1 Hm) Hb). congruence. }
          subst b. assert (Hl : length (hs_ops (rl_lhs a)) = length d + (length (hs_ops (rl_lhs a)) + length z)).
          { rewrite E1 at 1. rewrite E3, !app_length. lia. }
          assert (d = []) by (destruct d; [reflexivity|cbn in Hl; lia]). assert (z = []) by (destruct z; [reflexivity|cbn in Hl; lia]).
          subst d z. cbn [app] in E4. subst q2. rewrite app_nil_r. apply joinable_refl.
        * exfalso. apply (Hir k2 b k1 a Hb Ha (not_eq_sym Ek)). exists d, z. rewrite <- E3. exact E1.
      + (* l2 = Y ++ z *)
        destruct z as [|z0 z].
        { rewrite app_nil_r in E3. cbn [app] in E4. subst q1 Y.
          destruct (N.eq_dec k1 k2) as [Ek|Ek].
          * subst k2. assert (a = b).
            { pose proof (sorted_map_find _ _ _ (proj1 Hm) Ha). pose proof (sorted_map_find _ _ _ (proj1 Hm) Hb). congruence. }
            subst b. assert (d = []) by (apply (f_equal (@length nat)) in E1; rewrite app_length in E1; destruct d; [reflexivity|cbn in E1; lia]).
            subst d. rewrite app_nil_r. apply joinable_refl.
          * exfalso. apply (Hir k2 b k1 a Hb Ha (not_eq_sym Ek)). exists d, []. rewrite app_nil_r. exact E1. }
        set (Z := z0 :: z) in *. assert (HZ : Z <> []) by discriminate. clearbody Z. clear z0 z.
        destruct d as [|d0 d].
        { cbn [app] in E1. destruct (N.eq_dec k1 k2) as [Ek|Ek].
          - subst k2. assert (a = b).
            { pose proof (sorted_map_find _ _ _ (proj1 Hm) Ha). pose proof (sorted_map_find _ _ _ (proj1 Hm) Hb). congruence. }
            subst b. exfalso. rewrite E1 in E3. apply (f_equal (@length nat)) in E3. rewrite app_length in E3.
            destruct Z; [contradiction|cbn in E3; lia].
          - exfalso. apply (Hir k1 a k2 b Ha Hb Ek). exists [], Z. rewrite E1. exact E3. }
        set (D := d0 :: d) in *. assert (HD : D <> []) by discriminate. clearbody D. clear d0 d.
        assert (O : overlap a b D Y Z) by (repeat split; assumption).
        pose proof (Hov k1 a k2 b D Y Z Ha Hb O) as J. rewrite !via_ctx in J.
        apply (joinable_ctx m s p1 q2) in J. rewrite !ctx_ctx in J. cbn [app] in J. rewrite app_nil_r, smul_pos_r in J.
        rewrite E4. exact J.
    - (* d = l1 ++ y : disjoint *)
      subst d q1.
      assert (J : joinable m (ctx SPos [] (y ++ hs_ops (rl_lhs b)) (rt a)) (ctx SPos (hs_ops (rl_lhs a) ++ y) [] (rt b))).
      { exists (match rt a, rt b with Some (sa, wa), Some (sb, wb) => Some (smul sa sb, wa ++ y ++ wb) | _, _ => None end).
        split.
        - destruct (rt a) as [[sa wa]|] eqn:Ra; cbn [ctx]; [|constructor]. apply rws_one, rewrites_iff.
          exists k2, b, (smul SPos sa), (wa ++ y), []. split; [exact Hb|]. split; [cbn [app]; rewrite app_nil_r, app_assoc; reflexivity|].
          destruct (rt b) as [[sb wb]|]; cbn [ctx]; [|reflexivity]. rewrite app_nil_r, app_assoc. destruct sa; reflexivity.
        - destruct (rt b) as [[sb wb]|] eqn:Rb; cbn [ctx]; [|destruct (rt a) as [[]|]; constructor].
          apply rws_one, rewrites_iff. exists k1, a, (smul SPos sb), [], (y ++ wb). split; [exact Ha|].
          split; [cbn [app]; rewrite app_nil_r, <- app_assoc; reflexivity|].
          destruct (rt a) as [[sa wa]|]; cbn [ctx]; [|reflexivity]. cbn [app]. destruct sa, sb; reflexivity. }
      apply (joinable_ctx m s p1 q2) in J. rewrite !ctx_ctx in J. cbn [app] in J. rewrite app_nil_r, smul_pos_r, <- app_assoc in J. exact J. }
  destruct (Nat.le_ge_cases (length p1) (length p2)) as [H|H].
  - apply (G k1 a k2 b p1 q1 p2 q2 Ha Hb E H).
  - apply joinable_sym, (G k2 b k1 a p2 q2 p1 q1 Hb Ha (eq_sym E) H).
Qed.

Lemma term_ph_ctx s t : term_ph s t = ctx s [] [] t.
Proof. destruct t as [[s' w]|]; cbn; [rewrite app_nil_r|]; reflexivity. Qed.

Lemma tested_overlaps_join r L M c fuel rb : rb_ok r L rb -> 2 * M <= L -> wf_map r M (rb_rules rb) -> tame_map c (rb_rules rb) ->
  interreduced (rb_rules rb) -> unexamined_overlaps_join (rb_rules rb) -> combine_outer fuel rb (rb_rules rb) = Ret None ->
  overlaps_join (rb_rules rb).
Proof.
  intros Hrb HM Wm Tm [_ Hir] Hso E k1 a k2 b x y z Ha Hb O.
  pose proof (combine_outer_sound r L M c fuel rb Hrb HM Wm Tm _ (incl_refl _) _ E) as HC. cbn in HC.
  destruct (N.eq_dec k1 k2) as [Hk|Hk]; [apply (Hso k1 a k2 b x y z Ha Hb O); left; exact Hk|].
  pose proof O as O'. destruct O as (O1 & O2 & O3 & O4 & O5).
  destruct (suffix_prefix_overlap_spec (hs_ops (rl_lhs a)) (hs_ops (rl_lhs b))) as (S1 & S2 & S3 & S4).
  pose proof (S4 x y z O1 O2) as Hy.
  destruct (combine_ok (rb_pc rb) r L M a b (proj1 (proj2 Hrb)) ltac:(lia) (proj2 (proj2 Wm _ _ Ha)) (proj2 (proj2 Wm _ _ Hb))) as (oc & Ec).
  destruct oc as [p|].
  2:{ exfalso. unfold combine in Ec. destruct (Nat.leb_spec (suffix_prefix_overlap (hs_ops (rl_lhs a)) (hs_ops (rl_lhs b))) 0) as [H|H].
      - destruct y; [contradiction|cbn in Hy; lia].
      - repeat (apply bind_ret in Ec as (? & _ & Ec)). discriminate. }
  pose proof (HC k1 a k2 b p Ha Hb Hk Ec) as (t & T1 & T2).
  destruct (combine_shape (rb_pc rb) r L M a b p (proj1 Hrb) (proj1 (proj2 Hrb)) HM (proj2 (proj2 Wm _ _ Ha)) (proj2 (proj2 Wm _ _ Hb)) Ec)
    as (x' & y' & z' & E1 & E2 & E3 & E4 & _ & _ & _ & s & D).
  assert (Op : overlap a b x' y' z').
  { destruct x' as [|x0 x'].
      - exfalso. cbn [app] in E1. apply (Hir k1 a k2 b Ha Hb Hk). exists [], z'. rewrite E1. exact E2.
      - destruct z' as [|z0 z'].
        + exfalso. rewrite app_nil_r in E2. apply (Hir k2 b k1 a Hb Ha (not_eq_sym Hk)). exists (x0 :: x'), [].
          rewrite app_nil_r, E2. exact E1.
        + repeat split; try assumption; discriminate. }
  destruct (Nat.lt_ge_cases (length y) (length y')) as [Hlt|Hge].
  { apply (Hso k1 a k2 b x y z Ha Hb O'). right. exists x', y', z'. split; [exact Op|exact Hlt]. }
  assert (Exyz : x' = x /\ y' = y /\ z' = z).
  { assert (Ly : length y' = length y) by lia.
    assert (y' = y).
    { rewrite O2 in E2. apply (f_equal (firstn (length y))) in E2. rewrite <- Ly in E2 at 2.
      rewrite !firstn_app, !Nat.sub_diag, !firstn_all, !firstn_O, !app_nil_r in E2. congruence. }
    subst y'. split; [|split; [reflexivity|]].
    - rewrite O1 in E1. apply app_inv_tail in E1. congruence.
    - rewrite O2 in E2. apply app_inv_head in E2. congruence. }
  destruct Exyz as (-> & -> & ->).
  apply (rws_ctx _ s [] []) in T1. apply (rws_ctx _ s [] []) in T2. rewrite !term_ph_ctx in D.
  exists (ctx s [] [] t). destruct D as [[D1 D2]|[D1 D2]]; rewrite <- D1, <- D2; auto.
Qed.
