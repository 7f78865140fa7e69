(** Decision theorem for complete contexts, exact conjugation laws, and counterexamples. *)
From Coq Require Import List ZArith NArith Arith Bool Sorted Lia.
From Coq Require Import ZifyBool ZifyNat ZifyN.
From Verif Require Import CoreModel CoreSpec CoreProofs AlgModel AlgSpec AlgProofs AlgTheoryProofs AlgCompleteProofs
  AlgConfluenceProofs AlgNormalProofs AlgContextProofs.
Import ListNotations.

(* ---------------------------------------------------------------- C08 *)
Lemma decidable_ok L M c ctx : decidable_context L M c ctx -> context_ok L ctx /\ rb_ok (pc_num (rb_pc (ac_rules ctx))) L (ac_rules ctx).
Proof.
  intros (H1 & H2 & H3 & _). assert (W : wf_map (pc_num (rb_pc (ac_rules ctx))) L (rb_rules (ac_rules ctx))) by (apply (wf_map_mono _ M L); [lia|exact H3]).
  split; [split; assumption|split; [reflexivity|split; assumption]].
Qed.

Lemma decidable_confluent L M c ctx fuel cc : decidable_context L M c ctx -> is_complete fuel (ac_rules ctx) cc = Ret true ->
  confluent (rb_rules (ac_rules ctx)).
Proof.
  intros H E. pose proof (proj2 (decidable_ok L M c ctx H)) as Hrb. destruct H as (H1 & H2 & H3 & H4 & H5 & H6 & _).
  apply (complete_confluent _ L M c fuel (ac_rules ctx) cc Hrb H2 H3 H4 H5 H6 E).
Qed.

Lemma canonical_form_canonical L ctx fuel w s q : context_ok L ctx -> over (pc_num (rb_pc (ac_rules ctx))) w -> length w <= L ->
  canonical_form fuel ctx w s = Ret q -> canonical L ctx q.
Proof.
  intros Hc Hw Lw E. destruct (canonical_form_post L ctx fuel w s q Hc Hw Lw E) as (W & _ & _ & Hi & Hz).
  split; [exact W|split; assumption].
Qed.

Lemma canonical_normal L ctx q : interreduced (rb_rules (ac_rules ctx)) -> canonical L ctx q -> normal (rb_rules (ac_rules ctx)) (term_of q).
Proof.
  intros Hi (_ & Hirr & _). unfold term_of. destruct (N.eqb (hs_hash q) 0); [apply normal_none|apply irreducible_normal; assumption].
Qed.

Lemma canonical_eq L ctx p q : hash_safe (pc_num (rb_pc (ac_rules ctx))) L -> canonical L ctx p -> canonical L ctx q -> term_of p = term_of q -> p = q.
Proof.
  intros HL (Wp & _ & Zp) (Wq & _ & Zq) E. unfold term_of in E.
  destruct (N.eqb_spec (hs_hash p) 0) as [A|A]; destruct (N.eqb_spec (hs_hash q) 0) as [B|B]; try discriminate.
  - rewrite (Zp A), (Zq B). reflexivity.
  - injection E as E1 E2. destruct Wp as [[C _]|(P1 & _)]; [contradiction|]. destruct Wq as [[C _]|(Q1 & _)]; [contradiction|].
    destruct p, q; cbn in *. subst. reflexivity.
Qed.

Lemma canonical_form_joinable L M c ctx fuel w s q : decidable_context L M c ctx -> confluent (rb_rules (ac_rules ctx)) ->
  over (pc_num (rb_pc (ac_rules ctx))) w -> length w <= L ->
  canonical_form fuel ctx w s = Ret q -> joinable (rb_rules (ac_rules ctx)) (Some (s, w)) (term_of q).
Proof.
  intros Hd HC Hw Lw E. destruct (decidable_ok L M c ctx Hd) as [Hc Hrb].
  apply (provable_joinable _ L _ (proj1 Hc) (proj2 Hc) HC). intros A v HA. cbn [den_term].
  rewrite <- (den_term_of A v). apply aeq_sym. apply (canonical_form_sound L ctx fuel w s q Hc Hw Lw E A v).
  split; [exact HA|]. intro Hcm. apply Hd; assumption.
Qed.

Lemma joinable_canonical_eq L M c ctx p q : decidable_context L M c ctx -> confluent (rb_rules (ac_rules ctx)) ->
  canonical L ctx p -> canonical L ctx q -> joinable (rb_rules (ac_rules ctx)) (term_of p) (term_of q) -> p = q.
Proof.
  intros Hd HC Cp Cq J. apply (canonical_eq L ctx); [apply Hd|exact Cp|exact Cq|].
  assert (Hi : interreduced (rb_rules (ac_rules ctx))) by apply Hd.
  apply (joinable_normal (rb_rules (ac_rules ctx)) (term_of p) (term_of q) (term_of p) (term_of q) HC); try exact J;
    try apply (canonical_normal L); try assumption; constructor.
Qed.

Lemma complete_decides L M c ctx fuel cc fu fw u s w s' p q : decidable_context L M c ctx ->
  is_complete fuel (ac_rules ctx) cc = Ret true ->
  over (pc_num (rb_pc (ac_rules ctx))) u -> length u <= L -> over (pc_num (rb_pc (ac_rules ctx))) w -> length w <= L ->
  canonical_form fu ctx u s = Ret p -> canonical_form fw ctx w s' = Ret q ->
  (provably_equal (rb_rules (ac_rules ctx)) (Some (s, u)) (Some (s', w)) <-> p = q).
Proof.
  intros Hd E Hu Lu Hw Lw Eu Ew. pose proof (decidable_confluent L M c ctx fuel cc Hd E) as HC.
  destruct (decidable_ok L M c ctx Hd) as [Hc Hrb].
  rewrite (provable_joinable _ L _ (proj1 Hc) (proj2 Hc) HC).
  pose proof (canonical_form_joinable L M c ctx fu u s p Hd HC Hu Lu Eu) as Ju.
  pose proof (canonical_form_joinable L M c ctx fw w s' q Hd HC Hw Lw Ew) as Jw.
  split.
  - intro J. apply (joinable_canonical_eq L M c ctx p q Hd HC).
    + apply (canonical_form_canonical L ctx fu u s p Hc Hu Lu Eu).
    + apply (canonical_form_canonical L ctx fw w s' q Hc Hw Lw Ew).
    + apply (joinable_trans _ _ _ _ HC (joinable_sym _ _ _ Ju)). apply (joinable_trans _ _ _ _ HC J Jw).
  - intros ->. apply (joinable_trans _ _ _ _ HC Ju). apply joinable_sym, Jw.
Qed.

(** every reduction strategy gives the same answer in a complete book *)
Lemma complete_unique L M c ctx fuel cc t x y : decidable_context L M c ctx -> is_complete fuel (ac_rules ctx) cc = Ret true ->
  rewrites_star (rb_rules (ac_rules ctx)) t x -> normal (rb_rules (ac_rules ctx)) x ->
  rewrites_star (rb_rules (ac_rules ctx)) t y -> normal (rb_rules (ac_rules ctx)) y -> x = y.
Proof.
  intros Hd E H1 N1 H2 N2. exact (unique_normal_forms _ (decidable_confluent L M c ctx fuel cc Hd E) t x y H1 H2 N1 N2).
Qed.

(* ---------------------------------------------------------------- C09 *)
Definition conj_t (pc : precontext) (t : term) : term :=
  match t with None => None | Some (s, w) => Some (sconj s, conj_word pc w) end.

Lemma conj_word_app pc u w : conj_word pc (u ++ w) = conj_word pc w ++ conj_word pc u.
Proof. unfold conj_word. rewrite rev_app_distr, map_app. reflexivity. Qed.
Lemma conj_word_invol pc w : over (pc_num pc) w -> conj_word pc (conj_word pc w) = w.
Proof.
  intro H. unfold conj_word. rewrite <- map_rev, rev_involutive, map_map.
  induction w as [|o w IH]; cbn [map]; [reflexivity|]. rewrite conj_op_invol by (apply H; left; reflexivity).
  f_equal. apply IH. intros x Hx. apply H. right. exact Hx.
Qed.
Lemma sconj_smul s t : sconj (smul s t) = smul (sconj s) (sconj t).
Proof. destruct s, t; reflexivity. Qed.
Lemma conj_t_ctx pc s a b t : conj_t pc (ctx s a b t) = ctx (sconj s) (conj_word pc b) (conj_word pc a) (conj_t pc t).
Proof.
  destruct t as [[s' w]|]; cbn; [|reflexivity]. rewrite sconj_smul, !conj_word_app, app_assoc. reflexivity.
Qed.

Definition conj_closed (pc : precontext) (m : rulemap) : Prop :=
  forall k rl, In (k, rl) m -> joinable m (Some (SPos, conj_word pc (hs_ops (rl_lhs rl)))) (conj_t pc (rt rl)).

Lemma joinable_conj pc m t u : confluent m -> conj_closed pc m -> joinable m t u -> joinable m (conj_t pc t) (conj_t pc u).
Proof.
  intros HC Hcl.
  assert (G : forall t u, rewrites_star m t u -> joinable m (conj_t pc t) (conj_t pc u)).
  { intros t' u' H. induction H as [t'|t' u' x H1 H2 IH]; [apply joinable_refl|].
    apply (joinable_trans m _ (conj_t pc u') _ HC); [|exact IH].
    apply rewrites_iff in H1 as (k & rl & s & a & b & Hin & -> & ->). rewrite conj_t_ctx.
    pose proof (joinable_ctx m (sconj s) (conj_word pc b) (conj_word pc a) _ _ (Hcl k rl Hin)) as J.
    cbn [ctx] in J. rewrite smul_pos_r in J. cbn [conj_t]. rewrite !conj_word_app, <- app_assoc. exact J. }
  intros (x & H1 & H2). apply (joinable_trans m _ (conj_t pc x) _ HC); [apply G, H1|apply joinable_sym, G, H2].
Qed.

Lemma make_rule_joinable m l r rl : make_rule l r = Ret rl -> joinable m (term_of (rl_lhs rl)) (term_of (rl_rhs rl)) ->
  joinable m (term_of l) (term_of r).
Proof.
  intros E J. pose proof (make_rule_lhs _ _ _ E) as (M1 & M2 & _). rewrite M1, M2 in J.
  apply (joinable_ctx m (hs_sign l) [] []) in J. unfold term_of in *. cbn [set_sign hs_hash hs_sign hs_ops] in J.
  destruct (N.eqb (hs_hash l) 0), (N.eqb (hs_hash r) 0); cbn [ctx app] in J;
    rewrite ?app_nil_r, ?smul_pos_r in J; try exact J.
  - replace (smul (hs_sign l) (sdiff (hs_sign l) (hs_sign r))) with (hs_sign r) in J by (destruct (hs_sign l), (hs_sign r); reflexivity). exact J.
  - replace (smul (hs_sign l) (sdiff (hs_sign l) (hs_sign r))) with (hs_sign r) in J by (destruct (hs_sign l), (hs_sign r); reflexivity). exact J.
Qed.

Lemma term_of_conj_hs pc r L q : pc_num pc = r -> hash_safe r L -> wf_seq r L q -> term_of (conj_hs pc q) = conj_t pc (term_of q).
Proof.
  intros Hr HL W. unfold conj_hs, hs_zero. unfold term_of at 2. destruct (N.eqb_spec (hs_hash q) 0) as [Z|Z]; [reflexivity|].
  destruct W as [[C _]|(W1 & W2 & W3)]; [contradiction|]. unfold pc_radix. rewrite Hr. subst r.
  rewrite (term_of_make _ L); [reflexivity|exact HL|apply conj_word_over, W2|rewrite conj_word_length; exact W3].
Qed.

Lemma mock_conjugate_closed r L M c fuel rb : rb_ok r L rb -> M <= L -> wf_map r M (rb_rules rb) -> tame_map c (rb_rules rb) ->
  mock_conjugate fuel rb = Ret false -> conj_closed (rb_pc rb) (rb_rules rb).
Proof.
  intros Hrb HM Wm Tm E. pose proof Hrb as (Hr & HL & _). unfold mock_conjugate in E.
  assert (G : forall m, incl m (rb_rules rb) -> mock_conjugate_loop fuel rb m = Ret false ->
            forall k rl, In (k, rl) m -> joinable (rb_rules rb) (Some (SPos, conj_word (rb_pc rb) (hs_ops (rl_lhs rl)))) (conj_t (rb_pc rb) (rt rl))).
  { induction m as [|[k0 rl0] m IH]; intros Hi E' k rl Hin; [destruct Hin|]. cbn [mock_conjugate_loop] in E'.
    apply bind_ret in E' as (cj & E1 & E'). apply bind_ret in E' as (cr & E2 & E').
    destruct (rl_trivial cr) eqn:Tv; [|discriminate].
    destruct Hin as [Hin|Hin]; [injection Hin as <- <-|apply (IH (fun x Hx => Hi x (or_intror Hx)) E' k rl Hin)].
    assert (Hin0 : In (k0, rl0) (rb_rules rb)) by (apply Hi; left; reflexivity).
    pose proof (proj2 (proj2 Wm _ _ Hin0)) as W0.
    destruct (conj_rule_sound (rb_pc rb) r L M c rl0 cj Hr HL HM W0 (Tm _ _ Hin0) E1) as (A1 & A2 & A3 & _).
    destruct (reduce_rule_post r L M rb c cj fuel cr Hrb HM Tm A1 A2 A3 E2) as (_ & _ & P3 & _).
    destruct (P3 Tv) as (_ & J). unfold conj_rule in E1.
    pose proof (wf_rule_mono r M L _ HM W0) as WL.
    assert (T1 : term_of (conj_hs (rb_pc rb) (rl_lhs rl0)) = Some (SPos, conj_word (rb_pc rb) (hs_ops (rl_lhs rl0)))).
    { rewrite (term_of_conj_hs _ r L) by (try assumption; apply WL). unfold term_of.
      destruct (N.eqb_spec (hs_hash (rl_lhs rl0)) 0) as [C|_]; [destruct WL as (_ & _ & _ & Hlt & _); lia|].
      cbn [conj_t]. destruct WL as (_ & _ & -> & _). reflexivity. }
    assert (T2 : term_of (conj_hs (rb_pc rb) (rl_rhs rl0)) = conj_t (rb_pc rb) (rt rl0)).
    { rewrite (term_of_conj_hs _ r L) by (try assumption; apply WL). reflexivity. }
    rewrite <- T1, <- T2.
    destruct (hs_ltb (conj_hs (rb_pc rb) (rl_lhs rl0)) (conj_hs (rb_pc rb) (rl_rhs rl0))).
    - apply joinable_sym, (make_rule_joinable _ _ _ _ E1 J).
    - apply (make_rule_joinable _ _ _ _ E1 J). }
  intros k rl Hin. apply (G (rb_rules rb) (incl_refl _) E k rl Hin).
Qed.

Section Conj.
  Variables (L M : nat) (c : bool) (ctx : acontext) (fuel : nat).
  Hypothesis Hd : decidable_context L M c ctx.
  Hypothesis Hcomplete : is_complete fuel (ac_rules ctx) true = Ret true.
  Let pc := rb_pc (ac_rules ctx).
  Let m := rb_rules (ac_rules ctx).

  Lemma ctx_confluent : confluent m.
  Proof. exact (decidable_confluent L M c ctx fuel true Hd Hcomplete). Qed.
  Lemma ctx_closed : conj_closed pc m.
  Proof.
    pose proof (proj2 (decidable_ok L M c ctx Hd)) as Hrb. destruct Hd as (H1 & H2 & H3 & H4 & _).
    unfold is_complete in Hcomplete. apply bind_ret in Hcomplete as (b & E & E'). destruct b; [discriminate|].
    apply (mock_conjugate_closed _ L M c fuel (ac_rules ctx) Hrb ltac:(lia) H3 H4 E).
  Qed.

  Lemma conjugate_joinable f q cq : wf_seq (pc_num pc) L q -> phase_safe c ctx q -> conjugate f ctx q = Ret cq ->
    joinable m (conj_t pc (term_of q)) (term_of cq) /\ canonical L ctx cq /\ phase_safe c ctx cq /\
    length (hs_ops cq) <= length (hs_ops q).
  Proof.
    intros W Hp E. destruct (N.eq_dec (hs_hash q) 0) as [Z|Z].
    { unfold conjugate, hs_zero in E. rewrite Z in E. injection E as <-. unfold term_of. rewrite Z. cbn.
      split; [apply joinable_refl|]. split; [|split; [|lia]].
      - split; [apply wf_const|]. split; [apply irreducible_nil|reflexivity].
      - destruct Hp as [H|[H _]]; [left; exact H|right; split; [exact H|reflexivity]]. }
    assert (Hk : conj_keeps_phase ctx q) by (destruct Hp as [H|[_ H]]; [left|right]; exact H).
    rewrite (conjugate_as_form ctx f q Z Hk) in E. destruct W as [[C _]|(W1 & W2 & W3)]; [contradiction|].
    destruct (decidable_ok L M c ctx Hd) as [Hc _].
    assert (W3' : length (conj_word (rb_pc (ac_rules ctx)) (hs_ops q)) <= L) by (rewrite conj_word_length; exact W3).
    split; [|split; [|split]].
    - unfold term_of at 1. destruct (N.eqb_spec (hs_hash q) 0); [contradiction|]. cbn [conj_t].
      apply (canonical_form_joinable L M c ctx f _ _ cq Hd ctx_confluent (conj_word_over _ _ W2) W3' E).
    - apply (canonical_form_canonical L ctx f _ _ cq Hc (conj_word_over _ _ W2) W3' E).
    - destruct Hp as [H|[H Hs]]; [left; exact H|]. right. split; [exact H|].
      destruct (canonical_form_post L ctx f _ _ cq Hc (conj_word_over _ _ W2) W3' E) as (_ & _ & R & _ & Zc).
      assert (T : tame_term c (term_of cq)).
      { refine (rws_tame c m _ _ _ R _); [apply Hd|]. rewrite Hs, H. reflexivity. }
      unfold term_of, tame_term in T. rewrite H in T. destruct (N.eqb_spec (hs_hash cq) 0) as [Z'|_]; [|exact T].
      rewrite (Zc Z'). reflexivity.
    - destruct (canonical_form_post L ctx f _ _ cq Hc (conj_word_over _ _ W2) W3' E) as (_ & Hl & _).
      rewrite conj_word_length in Hl. exact Hl.
  Qed.

  Lemma conj_t_invol q : wf_seq (pc_num pc) L q -> conj_t pc (conj_t pc (term_of q)) = term_of q.
  Proof.
    intro W. unfold term_of. destruct (N.eqb_spec (hs_hash q) 0) as [Z|Z]; [reflexivity|].
    destruct W as [[C _]|(W1 & W2 & W3)]; [contradiction|]. cbn [conj_t]. rewrite conj_word_invol by exact W2.
    destruct (hs_sign q); reflexivity.
  Qed.

  Lemma conjugate_involutive f1 f2 q cq ccq : canonical L ctx q -> phase_safe c ctx q ->
    conjugate f1 ctx q = Ret cq -> conjugate f2 ctx cq = Ret ccq -> ccq = q.
  Proof.
    intros Cq Hp E1 E2. destruct (conjugate_joinable f1 q cq (proj1 Cq) Hp E1) as (J1 & C1 & P1 & _).
    destruct (conjugate_joinable f2 cq ccq (proj1 C1) P1 E2) as (J2 & C2 & _ & _).
    apply (joinable_canonical_eq L M c ctx ccq q Hd ctx_confluent C2 Cq).
    apply joinable_sym. apply (joinable_trans m _ (conj_t pc (term_of cq)) _ ctx_confluent); [|exact J2].
    apply (joinable_conj pc m _ _ ctx_confluent ctx_closed) in J1. rewrite (conj_t_invol q (proj1 Cq)) in J1. exact J1.
  Qed.

  Lemma multiply_joinable f a b p : wf_seq (pc_num pc) L a -> wf_seq (pc_num pc) L b -> length (hs_ops a) + length (hs_ops b) <= L ->
    multiply f ctx a b = Ret p -> joinable m (tmul (term_of a) (term_of b)) (term_of p) /\ canonical L ctx p.
  Proof.
    intros Wa Wb Hl E. unfold multiply, hs_zero in E.
    assert (C0 : canonical L ctx (hseq_const true)) by (split; [apply wf_const|split; [apply irreducible_nil|reflexivity]]).
    unfold term_of at 1 2. destruct (N.eqb_spec (hs_hash a) 0) as [Za|Za].
    { injection E as <-. split; [apply joinable_refl|exact C0]. }
    destruct (N.eqb_spec (hs_hash b) 0) as [Zb|Zb].
    { injection E as <-. split; [rewrite tmul_none_r; apply joinable_refl|exact C0]. }
    cbn [orb] in E. destruct Wa as [[C _]|(A1 & A2 & A3)]; [contradiction|]. destruct Wb as [[C _]|(B1 & B2 & B3)]; [contradiction|].
    assert (Hov : over (pc_num (rb_pc (ac_rules ctx))) (hs_ops a ++ hs_ops b)) by (apply over_app; auto).
    assert (Hlen : length (hs_ops a ++ hs_ops b) <= L) by (rewrite app_length; exact Hl).
    destruct (decidable_ok L M c ctx Hd) as [Hc _]. split.
    - cbn [tmul]. apply (canonical_form_joinable L M c ctx f _ _ p Hd ctx_confluent Hov Hlen E).
    - apply (canonical_form_canonical L ctx f _ _ p Hc Hov Hlen E).
  Qed.

  Lemma conj_t_tmul t u : conj_t pc (tmul t u) = tmul (conj_t pc u) (conj_t pc t).
  Proof.
    destruct t as [[s w]|], u as [[s' w']|]; cbn; try reflexivity. rewrite conj_word_app, sconj_smul.
    destruct s, s'; reflexivity.
  Qed.

  Lemma conjugate_antimultiplicative f1 f2 f3 f4 f5 a b p cp ca cb q :
    canonical L ctx a -> canonical L ctx b -> phase_safe c ctx a -> phase_safe c ctx b ->
    length (hs_ops a) + length (hs_ops b) <= L ->
    multiply f1 ctx a b = Ret p -> conjugate f2 ctx p = Ret cp ->
    conjugate f3 ctx a = Ret ca -> conjugate f4 ctx b = Ret cb -> multiply f5 ctx cb ca = Ret q -> cp = q.
  Proof.
    intros Ca Cb Pa Pb Hl E1 E2 E3 E4 E5.
    destruct (multiply_joinable f1 a b p (proj1 Ca) (proj1 Cb) Hl E1) as [J1 Cp].
    assert (Pp : phase_safe c ctx p).
    { destruct Pa as [H|[H Hs]]; [left; exact H|]. destruct Pb as [H'|[_ Hs']]; [left; exact H'|]. right. split; [exact H|].
      unfold multiply, hs_zero in E1. destruct (N.eqb_spec (hs_hash a) 0) as [Za|Za]; [injection E1 as <-; reflexivity|].
      destruct (N.eqb_spec (hs_hash b) 0) as [Zb|Zb]; [injection E1 as <-; reflexivity|]. cbn [orb] in E1.
      destruct (proj1 Ca) as [[C _]|(A1 & A2 & A3)]; [contradiction|]. destruct (proj1 Cb) as [[C _]|(B1 & B2 & B3)]; [contradiction|].
      destruct (decidable_ok L M c ctx Hd) as [Hc _].
      assert (Hlen : length (hs_ops a ++ hs_ops b) <= L) by (rewrite app_length; exact Hl).
      destruct (canonical_form_post L ctx f1 _ _ p Hc (proj2 (over_app _ _ _) (conj A2 B2)) Hlen E1) as (_ & _ & R & _ & Zc).
      assert (T : tame_term c (term_of p)).
      { refine (rws_tame c m _ _ _ R _); [apply Hd|]. rewrite Hs, Hs', H. reflexivity. }
      unfold term_of, tame_term in T. rewrite H in T. destruct (N.eqb_spec (hs_hash p) 0) as [Z'|_]; [|exact T].
      rewrite (Zc Z'). reflexivity. }
    destruct (conjugate_joinable f2 p cp (proj1 Cp) Pp E2) as (J2 & Ccp & _ & _).
    destruct (conjugate_joinable f3 a ca (proj1 Ca) Pa E3) as (J3 & Cca & _ & L3).
    destruct (conjugate_joinable f4 b cb (proj1 Cb) Pb E4) as (J4 & Ccb & _ & L4).
    destruct (multiply_joinable f5 cb ca q (proj1 Ccb) (proj1 Cca) ltac:(lia) E5) as [J5 Cq].
    apply (joinable_canonical_eq L M c ctx cp q Hd ctx_confluent Ccp Cq).
    apply (joinable_trans m _ (conj_t pc (term_of p)) _ ctx_confluent (joinable_sym _ _ _ J2)).
    apply (joinable_conj pc m _ _ ctx_confluent ctx_closed) in J1. rewrite conj_t_tmul in J1.
    apply (joinable_trans m _ _ _ ctx_confluent (joinable_sym _ _ _ J1)).
    apply (joinable_trans m _ _ _ ctx_confluent (joinable_tmul m _ _ _ _ J4 J3) J5).
  Qed.
End Conj.
