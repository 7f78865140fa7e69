(** The normal-form algebra of a confluent rulebook; confluence decides provable equality. *)
From Coq Require Import List ZArith NArith Arith Bool Sorted Lia.
From Coq Require Import ZifyBool ZifyNat ZifyN.
From Verif Require Import CoreModel CoreSpec CoreProofs AlgModel AlgSpec AlgProofs AlgTheoryProofs AlgCompleteProofs AlgConfluenceProofs.
Import ListNotations.

Lemma rws_normal m t u : rewrites_star m t u -> normal m t -> u = t.
Proof. intros H N. destruct H as [|t u x H1 H2]; [reflexivity|]. exfalso. apply (N u H1). Qed.

Lemma unique_normal_forms m : confluent m -> forall t u x, rewrites_star m t u -> rewrites_star m t x ->
  normal m u -> normal m x -> u = x.
Proof.
  intros C t u x Hu Hx Nu Nx. destruct (C t u x Hu Hx) as (y & H1 & H2).
  apply rws_normal in H1; [|exact Nu]. apply rws_normal in H2; [|exact Nx]. congruence.
Qed.

Lemma joinable_trans m t u x : confluent m -> joinable m t u -> joinable m u x -> joinable m t x.
Proof.
  intros C (y & H1 & H2) (z & H3 & H4). destruct (C u y z H2 H3) as (q & Q1 & Q2).
  exists q. split; eapply rws_trans; eassumption.
Qed.

Lemma joinable_normal m t u nt nu : confluent m -> rewrites_star m t nt -> normal m nt -> rewrites_star m u nu -> normal m nu ->
  (joinable m t u <-> nt = nu).
Proof.
  intros C H1 N1 H2 N2. split.
  - intro J. assert (Jn : joinable m nt nu).
    { apply (joinable_trans m nt t nu C); [exists nt; split; [constructor|exact H1]|].
      apply (joinable_trans m t u nu C J). exists nu. split; [exact H2|constructor]. }
    destruct Jn as (y & Y1 & Y2). apply rws_normal in Y1; [|exact N1]. apply rws_normal in Y2; [|exact N2]. congruence.
  - intros ->. exists nu. auto.
Qed.

(* ---------------------------------------------------------------- the algebra of terms modulo the rules *)
Definition tmul (t u : term) : term :=
  match t, u with Some (s, w), Some (s', w') => Some (smul s s', w ++ w') | _, _ => None end.
Definition tph (s : sign) (t : term) : term := ctx s [] [] t.

Lemma tmul_ctx_l s w u : tmul (Some (s, w)) u = ctx s w [] u.
Proof. destruct u as [[s' w']|]; cbn; [rewrite app_nil_r|]; reflexivity. Qed.
Lemma tmul_ctx_r t s w : tmul t (Some (s, w)) = ctx s [] w t.
Proof. destruct t as [[s' w']|]; cbn; [|reflexivity]. destruct s, s'; reflexivity. Qed.
Lemma tmul_none_l t : tmul None t = None. Proof. reflexivity. Qed.
Lemma tmul_none_r t : tmul t None = None. Proof. destruct t as [[]|]; reflexivity. Qed.

Lemma rws_none m u : rewrites_star m None u -> u = None.
Proof. intro H. inversion H as [|t u' x H1]; [reflexivity|inversion H1]. Qed.

Lemma rws_tmul m t t' u u' : rewrites_star m t t' -> rewrites_star m u u' -> rewrites_star m (tmul t u) (tmul t' u').
Proof.
  intros H1 H2. apply rws_trans with (tmul t u').
  - destruct t as [[s w]|]; [|constructor]. rewrite !tmul_ctx_l. apply rws_ctx, H2.
  - destruct u' as [[s w]|]; [rewrite !tmul_ctx_r; apply rws_ctx, H1|rewrite !tmul_none_r; constructor].
Qed.
Lemma joinable_tmul m t t' u u' : joinable m t t' -> joinable m u u' -> joinable m (tmul t u) (tmul t' u').
Proof. intros (x & A1 & A2) (y & B1 & B2). exists (tmul x y). split; apply rws_tmul; assumption. Qed.

Section NF.
  Variable r L : nat.
  Variable m : rulemap.
  Hypothesis HL : hash_safe r L.
  Hypothesis Hm : wf_map r L m.
  Hypothesis HC : confluent m.

  Lemma joinable_free s t : s <> SPos -> joinable m (tph s t) t -> joinable m t None.
  Proof.
    intros Hs J. destruct (normal_form_exists r L m HL Hm t) as (n & Hn & Nn).
    destruct n as [[s' w]|]; [|exists None; split; [exact Hn|constructor]].
    exfalso. assert (Nn' : normal m (tph s (Some (s', w)))).
    { intros u Hu. apply (rewrites_ctx m (sconj s) [] []) in Hu. unfold tph in Hu. rewrite ctx_ctx in Hu. cbn [app] in Hu.
      replace (smul (sconj s) s) with SPos in Hu by (destruct s; reflexivity). rewrite ctx_pos in Hu. apply (Nn _ Hu). }
    pose proof (proj1 (joinable_normal m _ _ _ _ HC (rws_ctx m s [] [] _ _ Hn) Nn' Hn Nn) J) as E.
    cbn in E. injection E as E _. destruct s, s'; try discriminate; contradiction.
  Qed.

  Definition nf_algebra : algebra.
  Proof.
    refine {| carrier := term; aeq := joinable m; aone := Some (SPos, []); azero := None; amul := tmul; aph := tph |}.
    - apply joinable_refl.
    - apply joinable_sym.
    - intros x y z. apply joinable_trans, HC.
    - intros; apply joinable_tmul; assumption.
    - intros; apply joinable_ctx; assumption.
    - intros [[s w]|] [[s' w']|] [[s'' w'']|]; cbn; try (exists None; split; constructor).
      rewrite smul_assoc, app_assoc. apply joinable_refl.
    - intros [[s w]|]; cbn; [|exists None; split; constructor]. destruct s; apply joinable_refl.
    - intros [[s w]|]; cbn; [|exists None; split; constructor]. rewrite app_nil_r, smul_pos_r. apply joinable_refl.
    - intro x. cbn. apply joinable_refl.
    - intro x. rewrite tmul_none_r. apply joinable_refl.
    - intro x. unfold tph. rewrite ctx_pos. apply joinable_refl.
    - intros s t x. unfold tph. rewrite ctx_ctx. apply joinable_refl.
    - intros s [[s' w]|] [[s'' w']|]; cbn; try (exists None; split; constructor). rewrite !app_nil_r, smul_assoc. apply joinable_refl.
    - intros s [[s' w]|] [[s'' w']|]; cbn; try (exists None; split; constructor). rewrite !app_nil_r, !smul_assoc.
      replace (smul s' s) with (smul s s') by (destruct s, s'; reflexivity). apply joinable_refl.
    - intros s. cbn. apply joinable_refl.
    - intros s x Hs J. apply (joinable_free s x Hs J).
  Defined.
  Definition nf_val (o : nat) : nf_algebra := Some (SPos, [o]).

  Lemma nf_den_word w : den_word nf_algebra nf_val w = Some (SPos, w).
  Proof. induction w as [|o w IH]; cbn [den_word]; [reflexivity|]. rewrite IH. reflexivity. Qed.
  Lemma nf_den_term t : den_term nf_algebra nf_val t = t.
  Proof.
    destruct t as [[s w]|]; cbn [den_term]; [|reflexivity]. unfold den_signed. rewrite nf_den_word. cbn.
    rewrite app_nil_r, smul_pos_r. reflexivity.
  Qed.
  Lemma nf_all_hold : all_hold nf_algebra nf_val m.
  Proof.
    intros k rl Hin. destruct (proj2 Hm _ _ Hin) as [_ W].
    apply (wf_holds nf_algebra nf_val r L rl HL W). rewrite nf_den_word.
    rewrite (den_term_of nf_algebra nf_val), nf_den_term.
    change (term_of (rl_rhs rl)) with (rt rl). exists (rt rl). split; [|constructor].
    apply rws_one, rewrites_iff. exists k, rl, SPos, [], []. split; [exact Hin|]. split; [cbn; rewrite app_nil_r; reflexivity|].
    rewrite ctx_pos. reflexivity.
  Qed.

  Lemma provable_joinable t u : provably_equal m t u <-> joinable m t u.
  Proof.
    split.
    - intro H. specialize (H nf_algebra nf_val nf_all_hold). rewrite !nf_den_term in H. exact H.
    - intros (x & H1 & H2) A v HA. eapply aeq_trans; [apply (rws_sound A v r L m t x HL Hm HA H1)|].
      apply aeq_sym, (rws_sound A v r L m u x HL Hm HA H2).
  Qed.
End NF.

Lemma irreducible_normal m s w : interreduced m -> irreducible m w -> normal m (Some (s, w)).
Proof.
  intros [Hne _] Hirr u Hu. apply rewrites_iff in Hu as (k & rl & s' & a & b & Hin & E & _). injection E as _ E.
  apply (Hirr k rl Hin (Hne k rl Hin)). exists a, b. exact E.
Qed.
Lemma normal_none m : normal m None.
Proof. intros u H. inversion H. Qed.

Lemma complete_confluent r L M c fuel rb cc : rb_ok r L rb -> 2 * M <= L -> wf_map r M (rb_rules rb) -> tame_map c (rb_rules rb) ->
  interreduced (rb_rules rb) -> unexamined_overlaps_join (rb_rules rb) -> is_complete fuel rb cc = Ret true -> confluent (rb_rules rb).
Proof.
  intros Hrb HM Wm Tm Hir Hso E. unfold is_complete in E. apply bind_ret in E as (b & _ & E).
  destruct b; [discriminate|]. apply bind_ret in E as (oc & E & E'). destruct oc; [discriminate|].
  apply newman; [apply (rewrites_wf r L); apply Hrb|].
  apply (local_confluence r L); [apply Hrb|apply Hrb|exact Hir|].
  apply (tested_overlaps_join r L M c fuel rb Hrb HM Wm Tm Hir Hso E).
Qed.
