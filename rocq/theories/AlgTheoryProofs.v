(** Rule construction, rulebook maintenance and completion preserve the theory. *)
From Coq Require Import List ZArith NArith Arith Bool Sorted Lia.
From Coq Require Import ZifyBool ZifyNat ZifyN.
From Verif Require Import CoreModel CoreSpec CoreProofs AlgModel AlgSpec AlgProofs.
Import ListNotations.

Lemma wf_seq_mono r L M q : L <= M -> wf_seq r L q -> wf_seq r M q.
Proof. intros H [E|(E1 & E2 & E3)]; [left; exact E|right; repeat split; auto; lia]. Qed.
Lemma wf_rule_mono r L M rl : L <= M -> wf_rule r L rl -> wf_rule r M rl.
Proof. intros H (A & B & C). split; [|split]; try (eapply wf_seq_mono; eassumption). exact C. Qed.
Lemma wf_map_mono r L M m : L <= M -> wf_map r L m -> wf_map r M m.
Proof.
  intros H [A B]. split; [exact A|]. intros k rl Hin. destruct (B _ _ Hin) as [E W]. split; [exact E|].
  eapply wf_rule_mono; eassumption.
Qed.
Lemma wf_const r L z : wf_seq r L (hseq_const z).
Proof. destruct z; [left; split; reflexivity|right; repeat split; [intros o []|cbn; lia]]. Qed.

Lemma term_of_bound r L q : wf_seq r L q -> term_bound r L (term_of q).
Proof.
  intros [[E1 E2]|(E1 & E2 & E3)]; unfold term_of.
  - rewrite E1. exact I.
  - destruct (N.eqb (hs_hash q) 0); [exact I|split; assumption].
Qed.

(* ---------------------------------------------------------------- reduce(HashedSequence) *)
Definition sign_kept (q : hseq) : Prop := hs_hash q <> 0%N -> hs_ops q = [] -> hs_sign q = SPos.

Lemma term_of_make r L s w : hash_safe r L -> over r w -> length w <= L -> term_of (hseq_make (N.of_nat r) w s) = Some (s, w).
Proof.
  intros HL H1 H2. unfold term_of, hseq_make. cbn [hs_hash hs_sign hs_ops].
  destruct (N.eqb_spec (hash (N.of_nat r) w) 0) as [E|_]; [|reflexivity].
  exfalso. exact (hash_nonzero r L w HL H1 H2 E).
Qed.

Definition rb_ok (r L : nat) (rb : rulebook) : Prop :=
  pc_num (rb_pc rb) = r /\ hash_safe r L /\ wf_map r L (rb_rules rb).

Lemma reduce_hs_post r L M rb q fuel q' : rb_ok r L rb -> M <= L -> wf_seq r M q -> sign_kept q ->
  reduce_hs fuel rb q = Ret q' ->
  wf_seq r M q' /\ rewrites_star (rb_rules rb) (term_of q) (term_of q') /\
  (hs_hash q' <> 0%N -> irreducible (rb_rules rb) (hs_ops q')).
Proof.
  intros (Hr & HL & Hm) HM W HS E. unfold reduce_hs in E.
  destruct (hs_ops q) as [|o w0] eqn:Eo.
  - injection E as <-. split; [apply wf_const|]. destruct W as [[E1 E2]|(E1 & E2 & E3)].
    + unfold hs_zero. rewrite E1. split; [|intro C; exfalso; apply C; reflexivity]. 
      unfold term_of at 1. rewrite E1. constructor.
    + rewrite Eo in E1. rewrite hash_nil in E1. unfold hs_zero. rewrite E1. cbn [N.eqb hseq_const]. split.
      * unfold term_of. rewrite E1. cbn. rewrite Eo, HS; [constructor| |exact Eo]. rewrite E1. discriminate.
      * intros _ k rl _ Hne (a & b & C). cbn in C. destruct a; [|discriminate].
        destruct (hs_ops (rl_lhs rl)); [contradiction|discriminate].
  - destruct (rb_rules rb) as [|e m0] eqn:Em.
    { injection E as <-. split; [exact W|split; [constructor|]]. intros _ k rl []. }
    rewrite <- Em in *. clear e m0 Em.
    destruct W as [[E1 E2]|(E1 & E2 & E3)]; [congruence|].
    rewrite <- Eo in E. set (w := hs_ops q) in *.
    assert (Lw : length w <= L) by lia.
    assert (Hp : forall x, (if use_iteration rb (length w) then reduce_via_iteration fuel rb w (hs_sign q)
                     else reduce_via_search fuel rb w (hs_sign q)) = Ret x -> red_post (rb_rules rb) w (hs_sign q) x).
    { intros x Hx. destruct (use_iteration rb (length w)).
      - pose proof (reduce_loop_post r L _ _ true HL Hm (iterate_match_ok r L _) _ _ _ _ _ E2 Lw Hx) as P.
        destruct x as [[[| |] w'] s']; cbn; tauto.
      - unfold reduce_via_search in Hx. unfold pc_radix in Hx. rewrite Hr in Hx.
        pose proof (reduce_loop_post r L _ _ false HL Hm (search_match_ok r L _ HL Hm) _ _ _ _ _ E2 Lw Hx) as P.
        destruct x as [[[| |] w'] s']; cbn; tauto. }
    destruct (if use_iteration rb (length w) then reduce_via_iteration fuel rb w (hs_sign q)
                     else reduce_via_search fuel rb w (hs_sign q)) as [x| |]; [|discriminate|discriminate].
    specialize (Hp x eq_refl). cbn [bind] in E.
    assert (Hq : term_of q = Some (hs_sign q, w)).
    { unfold term_of. destruct (N.eqb_spec (hs_hash q) 0) as [C|_]; [|reflexivity].
      exfalso. rewrite E1 in C. exact (hash_nonzero r L w HL E2 Lw C). }
    destruct x as [[[| |] w'] s']; cbn [red_post] in Hp; injection E as <-.
    + split; [right; auto|]. split; [constructor|intros _; apply Hp].
    + destruct Hp as [P1 P2]. unfold pc_radix. rewrite Hr.
      pose proof (rws_bound r L _ _ _ HL Hm P1 M (conj E2 E3)) as [B1 B2].
      split; [right; cbn; auto|]. split; [|intros _; exact P2].
      rewrite Hq, (term_of_make r L) by (auto; lia). exact P1.
    + split; [apply wf_const|]. split; [rewrite Hq; exact Hp|intro C; exfalso; apply C; reflexivity].
Qed.

Lemma reduce_hs_terminates r L rb q : rb_ok r L rb -> wf_seq r L q ->
  exists n, forall fuel, n <= fuel -> exists q', reduce_hs fuel rb q = Ret q'.
Proof.
  intros (Hr & HL & Hm) W. unfold reduce_hs.
  destruct (hs_ops q) as [|o w0] eqn:Eo; [exists 0; intros; eexists; reflexivity|].
  destruct (rb_rules rb) as [|e m0] eqn:Em; [exists 0; intros; eexists; reflexivity|].
  rewrite <- Em in *. clear e m0 Em. rewrite <- Eo. destruct W as [[E1 E2]|(E1 & E2 & E3)]; [congruence|].
  destruct (use_iteration rb (length (hs_ops q))).
  - destruct (reduce_loop_terminates r L _ _ true HL Hm (iterate_match_ok r L _) _ E2 E3) as (n & Hn).
    exists n. intros fuel Hf. destruct (Hn fuel Hf (hs_sign q) false) as (x & Hx). unfold reduce_via_iteration.
    rewrite Hx. destruct x as [[[| |] w'] s']; cbn [bind]; eexists; reflexivity.
  - unfold reduce_via_search, pc_radix. rewrite Hr.
    destruct (reduce_loop_terminates r L _ _ false HL Hm (search_match_ok r L _ HL Hm) _ E2 E3) as (n & Hn).
    exists n. intros fuel Hf. destruct (Hn fuel Hf (hs_sign q) false) as (x & Hx).
    rewrite Hx. destruct x as [[[| |] w'] s']; cbn [bind]; eexists; reflexivity.
Qed.

(* tame terms stay tame *)
Definition tame_term (c : bool) (t : term) : Prop :=
  match t with None => True | Some (s, w) => if c then s = SPos else real_sign s /\ w <> [] end.
Lemma tame_term_of c q : tame_seq c q <-> tame_term c (term_of q).
Proof.
  unfold tame_seq, tame_term, term_of. destruct (N.eqb_spec (hs_hash q) 0) as [E|E]; [tauto|].
  split; [intros [H|H]; [contradiction|exact H]|intro H; right; exact H].
Qed.
Lemma real_smul s t : real_sign s -> real_sign t -> real_sign (smul s t).
Proof. intros [->| ->] [->| ->]; cbv; auto. Qed.
Lemma rewrites_tame c m t u : tame_map c m -> rewrites m t u -> tame_term c t -> tame_term c u.
Proof.
  intros Hm H. destruct H as [k rl s a b Hin Hz|k rl s a b Hin Hz]; cbn [tame_term]; [auto|].
  destruct (Hm _ _ Hin) as [_ [C|T]]; [contradiction|]. destruct c.
  - intros ->. rewrite T. reflexivity.
  - intros [S1 _]. destruct T as [T1 T2]. split; [apply real_smul; assumption|].
    intro E. apply T2. destruct a; [|discriminate]. destruct (hs_ops (rl_rhs rl)); [reflexivity|discriminate].
Qed.
Lemma rws_tame c m t u : tame_map c m -> rewrites_star m t u -> tame_term c t -> tame_term c u.
Proof. intros Hm H. induction H; intro T; [exact T|]. apply IHrewrites_star. eapply rewrites_tame; eassumption. Qed.
Lemma tame_sign_kept c q : tame_seq c q -> sign_kept q.
Proof. intros [H|H] Hz Ho; [contradiction|]. destruct c; [exact H|]. destruct H as [_ H]; contradiction. Qed.

Lemma reduce_hs_tame r L rb c q fuel q' : rb_ok r L rb -> wf_seq r L q -> tame_map c (rb_rules rb) -> tame_seq c q ->
  reduce_hs fuel rb q = Ret q' -> tame_seq c q'.
Proof.
  intros H W Tm Tq E. apply tame_term_of.
  destruct (reduce_hs_post r L L rb q fuel q' H (le_n L) W (tame_sign_kept c q Tq) E) as (_ & R & _).
  eapply rws_tame; [exact Tm|exact R|]. apply tame_term_of, Tq.
Qed.

(* ---------------------------------------------------------------- make_rule *)
Section Sem.
  Variable A : algebra.
  Variable v : nat -> A.
  Notation "x == y" := (aeq A x y) (at level 70).
  Notation den := (den A v).

  Lemma aph_cancel s x y : aph A s x == aph A s y -> x == y.
  Proof.
    intro H. apply (aph_cong A (sconj s)) in H.
    eapply aeq_trans; [apply aeq_sym; eapply aeq_trans; [apply aph_mul|]|eapply aeq_trans; [exact H|eapply aeq_trans; [apply aph_mul|]]];
      rewrite smul_comm, smul_sconj; apply aph_pos.
  Qed.
  Lemma aph_zero_iff s x : aph A s x == azero A <-> x == azero A.
  Proof.
    split; intro H.
    - apply (aph_cancel s). eapply aeq_trans; [exact H|apply aeq_sym, aph_zero].
    - eapply aeq_trans; [apply aph_cong, H|apply aph_zero].
  Qed.
  Lemma den_term_of q : den q = den_term A v (term_of q).
  Proof. unfold AlgSpec.den, term_of. destruct (N.eqb (hs_hash q) 0); reflexivity. Qed.

  Lemma make_rule_holds l r rl : make_rule l r = Ret rl -> (holds A v rl <-> den l == den r).
  Proof.
    unfold make_rule. cbn [set_sign hs_hash]. destruct (N.ltb_spec (hs_hash l) (hs_hash r)) as [H|H]; [discriminate|].
    intro E. injection E as <-. unfold holds, AlgSpec.den, den_signed. cbn [rl_lhs rl_rhs set_sign hs_hash hs_ops hs_sign].
    destruct (N.eqb_spec (hs_hash l) 0) as [El|El]; destruct (N.eqb_spec (hs_hash r) 0) as [Er|Er]; try lia.
    - tauto.
    - rewrite aph_zero_iff, aph_zero_iff. tauto.
    - set (x := den_word A v (hs_ops l)). set (y := den_word A v (hs_ops r)).
      split; intro G.
      + apply aeq_trans with (aph A (hs_sign l) (aph A (sdiff (hs_sign l) (hs_sign r)) y)).
        * apply aph_cong. apply (aph_cancel SPos). eapply aeq_trans; [exact G|]. apply aeq_sym, aph_pos.
        * eapply aeq_trans; [apply aph_mul|]. rewrite sdiff_smul. apply aeq_refl.
      + apply (aph_cancel (hs_sign l)). eapply aeq_trans; [apply aph_mul|]. rewrite smul_comm.
        eapply aeq_trans; [apply aeq_sym, aph_mul|]. eapply aeq_trans; [apply aph_pos|].
        eapply aeq_trans; [exact G|]. apply aeq_sym. eapply aeq_trans; [apply aph_mul|]. rewrite sdiff_smul. apply aeq_refl.
  Qed.
End Sem.

Lemma make_rule_wf r L q1 q2 rl : wf_seq r L q1 -> wf_seq r L q2 -> hs_hash q1 <> hs_hash q2 ->
  make_rule q1 q2 = Ret rl -> wf_rule r L rl.
Proof.
  intros W1 W2 Hne. unfold make_rule. cbn [set_sign hs_hash].
  destruct (N.ltb_spec (hs_hash q1) (hs_hash q2)) as [H|H]; [discriminate|]. intro E. injection E as <-.
  unfold wf_rule. cbn [rl_lhs rl_rhs rl_zero rl_trivial set_sign hs_hash hs_ops hs_sign].
  repeat split; try assumption; try lia; try reflexivity.
Qed.
Lemma make_rule_lhs q1 q2 rl : make_rule q1 q2 = Ret rl ->
  rl_lhs rl = set_sign q1 SPos /\ rl_rhs rl = set_sign q2 (sdiff (hs_sign q1) (hs_sign q2)) /\
  rl_trivial rl = N.eqb (hs_hash q1) (hs_hash q2) && negb (s_is_negative (sdiff (hs_sign q1) (hs_sign q2))) /\
  (hs_hash q2 <= hs_hash q1)%N.
Proof.
  unfold make_rule. cbn [set_sign hs_hash].
  destruct (N.ltb_spec (hs_hash q1) (hs_hash q2)) as [H|H]; [discriminate|]. intro E. injection E as <-. cbn. auto.
Qed.
Lemma make_rule_ok q1 q2 : (hs_hash q2 <= hs_hash q1)%N -> exists rl, make_rule q1 q2 = Ret rl.
Proof.
  intro H. unfold make_rule. cbn [set_sign hs_hash]. destruct (N.ltb_spec (hs_hash q1) (hs_hash q2)); [lia|eexists; reflexivity].
Qed.
Lemma real_sdiff s t : real_sign s -> real_sign t -> real_sign (sdiff s t).
Proof. intros [->| ->] [->| ->]; cbv; auto. Qed.
Lemma make_rule_tame c q1 q2 rl : tame_seq c q1 -> tame_seq c q2 -> make_rule q1 q2 = Ret rl -> tame_rule c rl.
Proof.
  intros T1 T2 E. apply make_rule_lhs in E as (E1 & E2 & _ & Hle). unfold tame_rule, tame_seq in *. rewrite E1, E2.
  cbn [set_sign hs_hash hs_sign hs_ops].
  destruct (N.eq_dec (hs_hash q2) 0) as [Z2|Z2]; destruct (N.eq_dec (hs_hash q1) 0) as [Z1|Z1]; try lia; auto.
  - split; [right|left; exact Z2]. destruct T1 as [T1|T1]; [contradiction|]. destruct c; [reflexivity|].
    destruct T1; split; [left; reflexivity|assumption].
  - destruct T1 as [T1|T1]; [contradiction|]. destruct T2 as [T2|T2]; [contradiction|]. destruct c.
    + rewrite T1, T2. auto.
    + destruct T1 as [T1 N1]. destruct T2 as [T2 N2]. split; right; split; auto using real_sdiff. left; reflexivity.
Qed.

(* ---------------------------------------------------------------- do_add_rule *)
Lemma bind_ret {A B} (x : res A) (f : A -> res B) y : bind x f = Ret y -> exists a, x = Ret a /\ f a = Ret y.
Proof. destruct x as [a| |]; cbn; intro H; [exists a; auto|discriminate|discriminate]. Qed.

Lemma wf_map_insert r L m k rl : wf_map r L m -> wf_rule r L rl -> k = hs_hash (rl_lhs rl) -> wf_map r L (map_insert k rl m).
Proof.
  intros [Hs Hm] W E. split; [apply sorted_map_insert, Hs|]. intros k' rl' Hin.
  apply in_map_insert in Hin as [[-> ->]|Hin]; [auto|apply Hm, Hin].
Qed.
Lemma wf_map_erase r L m k : wf_map r L m -> wf_map r L (map_erase k m).
Proof. intros [Hs Hm]. split; [apply sorted_map_erase, Hs|]. intros k' rl' Hin. apply Hm, (in_map_erase k _ _ _ Hin). Qed.
Lemma tame_map_insert c m k rl : tame_map c m -> tame_rule c rl -> tame_map c (map_insert k rl m).
Proof. intros Hm T k' rl' Hin. apply in_map_insert in Hin as [[-> ->]|Hin]; [auto|apply (Hm k' rl' Hin)]. Qed.
Lemma tame_map_erase c m k : tame_map c m -> tame_map c (map_erase k m).
Proof. intros Hm k' rl' Hin. apply (Hm k' rl'), (in_map_erase k _ _ _ Hin). Qed.

Lemma hold_insert A v m k rl : StronglySorted N.lt (map fst m) -> map_find k m = None ->
  (all_hold A v (map_insert k rl m) <-> all_hold A v m /\ holds A v rl).
Proof.
  intros Hs Hf. split.
  - intro H. split.
    + intros k' rl' Hin. apply (H k' rl'), in_map_insert_old, Hin.
    + apply (H k rl), in_map_insert_new; assumption.
  - intros [H1 H2] k' rl' Hin. apply in_map_insert in Hin as [[-> ->]|Hin]; [exact H2|apply (H1 k' rl' Hin)].
Qed.
Lemma hold_erase A v m k rl : StronglySorted N.lt (map fst m) -> map_find k m = Some rl ->
  (all_hold A v m <-> all_hold A v (map_erase k m) /\ holds A v rl).
Proof.
  intros Hs Hf. split.
  - intro H. split.
    + intros k' rl' Hin. apply (H k' rl'), (in_map_erase k _ _ _ Hin).
    + apply (H k rl), map_find_in, Hf.
  - intros [H1 H2] k' rl' Hin. destruct (N.eq_dec k' k) as [->|Hne].
    + rewrite (sorted_map_find k rl' m Hs Hin) in Hf. injection Hf as ->. exact H2.
    + apply (H1 k' rl'), in_map_erase_other; assumption.
Qed.

Lemma wf_seq_set_sign r L q s : wf_seq r L q -> wf_seq r L (set_sign q s).
Proof. intro H; exact H. Qed.

(** same left side, same right word, different sign: both sides are zero *)
Lemma sign_clash A s t x y : s <> t -> aeq A x (aph A s y) -> aeq A x (aph A t y) ->
  aeq A x (azero A) /\ aeq A y (azero A).
Proof.
  intros Hne H1 H2. assert (Hy : aeq A y (azero A)).
  { apply (aph_free A (sdiff s t)).
    - intro E. apply Hne. rewrite <- (sdiff_smul s t), E. symmetry. apply smul_pos_r.
    - apply (aph_cancel A s). eapply aeq_trans; [apply aph_mul|]. rewrite sdiff_smul.
      eapply aeq_trans; [apply aeq_sym, H2|exact H1]. }
  split; [|exact Hy]. eapply aeq_trans; [exact H1|]. eapply aeq_trans; [apply aph_cong, Hy|apply aph_zero].
Qed.

Lemma wf_holds A v r L rl : hash_safe r L -> wf_rule r L rl ->
  (holds A v rl <-> aeq A (den_word A v (hs_ops (rl_lhs rl))) (den A v (rl_rhs rl))).
Proof.
  intros HL W. unfold holds. pose proof (den_lhs A v r L rl W HL) as H. split; intro G.
  - eapply aeq_trans; [apply aeq_sym, H|exact G].
  - eapply aeq_trans; [exact H|exact G].
Qed.

Lemma aeq_swap (A : algebra) (x y z : A) : aeq A x y -> (aeq A x z <-> aeq A y z).
Proof. intro H; split; intro G; [eapply aeq_trans; [apply aeq_sym, H|exact G]|eapply aeq_trans; [exact H|exact G]]. Qed.

Lemma do_add_rule_sound r L : hash_safe r L -> forall fuel m rl x, wf_map r L m -> wf_rule r L rl ->
  do_add_rule fuel m rl = Ret x ->
  wf_map r L (fst x) /\ (forall A v, all_hold A v (fst x) <-> all_hold A v m /\ holds A v rl).
Proof.
  intro HL. induction fuel as [|f IH]; intros m rl x Wm W E; cbn [do_add_rule] in E; [discriminate|].
  assert (Ht : rl_trivial rl = false) by apply W. rewrite Ht in E.
  set (k := hs_hash (rl_lhs rl)) in *.
  destruct (map_find k m) as [pre|] eqn:F.
  - pose proof (map_find_in _ _ _ F) as Hin. destruct (proj2 Wm _ _ Hin) as [Ek Wp].
    assert (El : hs_ops (rl_lhs pre) = hs_ops (rl_lhs rl)).
    { destruct (wf_lhs r L rl W) as (A1 & A2 & A3). destruct (wf_lhs r L pre Wp) as (B1 & B2 & B3).
      apply (hash_inj r L); try assumption. rewrite <- A1, <- B1. symmetry. exact Ek. }
    assert (Hlr : forall A v, (holds A v pre <-> aeq A (den_word A v (hs_ops (rl_lhs rl))) (den A v (rl_rhs pre)))).
    { intros A v. rewrite <- El. apply (wf_holds A v r L); assumption. }
    assert (Hl2 : forall A v, (holds A v rl <-> aeq A (den_word A v (hs_ops (rl_lhs rl))) (den A v (rl_rhs rl)))).
    { intros A v. apply (wf_holds A v r L); assumption. }
    destruct (N.eqb_spec (hs_hash (rl_rhs pre)) (hs_hash (rl_rhs rl))) as [Eh|Eh].
    + assert (Er : hs_ops (rl_rhs pre) = hs_ops (rl_rhs rl)).
      { destruct (proj1 (proj2 W)) as [[A1 A2]|(A1 & A2 & A3)]; destruct (proj1 (proj2 Wp)) as [[B1 B2]|(B1 & B2 & B3)].
        - congruence.
        - exfalso. apply (hash_nonzero r L _ HL B2 B3). congruence.
        - exfalso. apply (hash_nonzero r L _ HL A2 A3). congruence.
        - apply (hash_inj r L); try assumption. congruence. }
      destruct (sign_eqb (rule_sign rl) (rule_sign pre)) eqn:Es.
      * apply sign_eqb_spec in Es. injection E as <-. cbn [fst]. split; [exact Wm|]. intros A v. split; [|tauto].
        intro H. split; [exact H|]. pose proof (H _ _ Hin) as Hp. apply Hlr in Hp. apply Hl2.
        unfold den in *. rewrite <- Eh, <- Er. unfold rule_sign in Es. rewrite Es. exact Hp.
      * assert (Es' : rule_sign rl <> rule_sign pre) by (intro C; apply sign_eqb_spec in C; congruence).
        apply bind_ret in E as (l0 & M1 & E). apply bind_ret in E as (r0 & M2 & E).
        assert (Wl0 : wf_rule r L l0).
        { eapply make_rule_wf; [| |  |exact M1].
          - destruct (wf_lhs r L rl W) as (A1 & A2 & A3). right. cbn. auto.
          - apply wf_const.
          - cbn. unfold k. destruct W as (_ & _ & _ & Hlt & _). lia. }
        assert (Wm1 : wf_map r L (map_insert k l0 (map_erase k m))).
        { apply wf_map_insert; [apply wf_map_erase, Wm|exact Wl0|].
          apply make_rule_lhs in M1 as (-> & _). reflexivity. }
        assert (H1 : forall A v, all_hold A v (map_insert k l0 (map_erase k m)) <-> all_hold A v (map_erase k m) /\ holds A v l0).
        { intros A v. apply hold_insert; [apply sorted_map_erase, Wm|apply map_erase_gone, Wm]. }
        assert (Hl0 : forall A v, holds A v l0 <-> aeq A (den_word A v (hs_ops (rl_lhs rl))) (azero A)).
        { intros A v. rewrite (make_rule_holds A v _ _ _ M1). unfold den, den_signed. cbn [hs_hash hs_ops hs_sign hseq_const N.eqb].
          destruct (wf_lhs r L rl W) as (A1 & A2 & A3).
          destruct (N.eqb_spec k 0) as [C|_]; [exfalso; unfold k in C; rewrite A1 in C; exact (hash_nonzero r L _ HL A2 A3 C)|].
          apply aeq_swap, aph_pos. }
        destruct (N.eq_dec (hs_hash (rl_rhs rl)) 0) as [Z|Z].
        -- (* both right sides are zero: r0 is trivial *)
           assert (Tr : rl_trivial r0 = true).
           { apply make_rule_lhs in M2 as (_ & _ & -> & _). cbn. rewrite Z. reflexivity. }
           destruct f as [|f]; cbn [do_add_rule] in E; [discriminate|]. rewrite Tr in E. injection E as <-. cbn [fst].
           split; [exact Wm1|]. intros A v. rewrite H1, (hold_erase A v m k pre (proj1 Wm) F), Hlr, Hl2, Hl0.
           unfold den. rewrite Eh, Z. cbn. tauto.
        -- assert (Wr0 : wf_rule r L r0).
           { eapply make_rule_wf; [| | |exact M2].
             - destruct (wf_rhs r L rl W Z) as (A1 & A2 & A3). right. cbn. auto.
             - apply wf_const.
             - cbn. exact Z. }
           destruct (IH _ _ _ Wm1 Wr0 E) as (I1 & I2). split; [exact I1|]. intros A v.
           rewrite I2, H1, (hold_erase A v m k pre (proj1 Wm) F), Hlr, Hl2, Hl0.
           assert (Hr0 : holds A v r0 <-> aeq A (den_word A v (hs_ops (rl_rhs rl))) (azero A)).
           { rewrite (make_rule_holds A v _ _ _ M2). unfold den, den_signed. cbn [hs_hash hs_ops hs_sign hseq_const N.eqb].
             destruct (N.eqb_spec (hs_hash (rl_rhs rl)) 0) as [C|_]; [contradiction|]. apply aeq_swap, aph_pos. }
           rewrite Hr0. unfold den. rewrite Eh, Er. destruct (N.eqb_spec (hs_hash (rl_rhs rl)) 0) as [C|_]; [contradiction|].
           unfold den_signed. split.
           ++ intros [[G1 G2] G3]. repeat split; [exact G1| |];
                (eapply aeq_trans; [exact G2|]; apply aeq_sym, (aph_zero_iff A), G3).
           ++ intros [[G1 G2] G3]. destruct (sign_clash A _ _ _ _ Es' G3 G2) as [G4 G5]. tauto.
    + destruct (N.ltb_spec (hs_hash (rl_rhs pre)) (hs_hash (rl_rhs rl))) as [Hlt|Hge].
      * apply bind_ret in E as (ba & M1 & E).
        assert (Wba : wf_rule r L ba).
        { apply (make_rule_wf r L (rl_rhs rl) (rl_rhs pre)); [apply W|apply Wp| |exact M1]. lia. }
        destruct (IH _ _ _ Wm Wba E) as (I1 & I2). split; [exact I1|]. intros A v.
        rewrite I2, (make_rule_holds A v _ _ _ M1). split; intros [G1 G2]; (split; [exact G1|]);
          pose proof (G1 _ _ Hin) as Hp; apply Hlr in Hp.
        -- apply Hl2. eapply aeq_trans; [exact Hp|apply aeq_sym, G2].
        -- apply Hl2 in G2. eapply aeq_trans; [apply aeq_sym, G2|exact Hp].
      * apply bind_ret in E as (ba & M1 & E).
        assert (Wba : wf_rule r L ba).
        { apply (make_rule_wf r L (rl_rhs pre) (rl_rhs rl)); [apply Wp|apply W| |exact M1]. lia. }
        assert (Wm1 : wf_map r L (map_insert k rl (map_erase k m))).
        { apply wf_map_insert; [apply wf_map_erase, Wm|exact W|reflexivity]. }
        destruct (IH _ _ _ Wm1 Wba E) as (I1 & I2). split; [exact I1|]. intros A v.
        rewrite I2, (make_rule_holds A v _ _ _ M1), (hold_erase A v m k pre (proj1 Wm) F).
        rewrite hold_insert; [|apply sorted_map_erase, Wm|apply map_erase_gone, Wm].
        rewrite Hlr, Hl2. split.
        -- intros [[G1 G2] G3]. repeat split; try assumption. eapply aeq_trans; [exact G2|apply aeq_sym, G3].
        -- intros [[G1 G2] G3]. repeat split; try assumption. eapply aeq_trans; [apply aeq_sym, G2|exact G3].
  - destruct (hs_zero (rl_rhs rl) && negb (sign_eqb (rule_sign rl) SPos)) eqn:Ez.
    + apply bind_ret in E as (rl' & M & E). injection E as <-. cbn [fst].
      assert (W' : wf_rule r L rl').
      { apply (make_rule_wf r L (rl_lhs rl) (rl_rhs rl)); [apply W|apply W| |exact M]. destruct W as (_ & _ & _ & Hlt & _). lia. }
      split; [apply wf_map_insert; [exact Wm|exact W'|]|].
      * apply make_rule_lhs in M as (-> & _). reflexivity.
      * intros A v. rewrite hold_insert by (apply Wm || exact F). rewrite (make_rule_holds A v _ _ _ M). tauto.
    + injection E as <-. cbn [fst]. split; [apply wf_map_insert; auto|]. intros A v. apply hold_insert; [apply Wm|exact F].
Qed.

Lemma do_add_rule_terminates r L : hash_safe r L -> forall rl m, wf_map r L m -> wf_rule r L rl ->
  exists n, forall fuel, n <= fuel -> exists x, do_add_rule fuel m rl = Ret x.
Proof.
  intros HL rl. remember (hs_hash (rl_lhs rl)) as h eqn:Eh. revert rl Eh.
  induction h as [h IH] using (well_founded_induction N.lt_wf_0). intros rl Eh m Wm W.
  assert (Ht : rl_trivial rl = false) by apply W.
  assert (Hlt : (hs_hash (rl_rhs rl) < h)%N) by (subst h; apply W).
  destruct (map_find h m) as [pre|] eqn:F.
  2:{ exists 1. intros fuel Hf. destruct fuel as [|f]; [lia|]. cbn [do_add_rule]. rewrite Ht, <- Eh, F.
      destruct (hs_zero (rl_rhs rl) && negb (sign_eqb (rule_sign rl) SPos)); [|eexists; reflexivity].
      destruct (make_rule_ok (rl_lhs rl) (rl_rhs rl)) as (rl' & ->); [lia|]. cbn [bind]. eexists; reflexivity. }
  pose proof (map_find_in _ _ _ F) as Hin. destruct (proj2 Wm _ _ Hin) as [Ek Wp].
  assert (Hltp : (hs_hash (rl_rhs pre) < h)%N) by (rewrite Ek; apply Wp).
  destruct (N.eqb_spec (hs_hash (rl_rhs pre)) (hs_hash (rl_rhs rl))) as [E1|E1].
  - destruct (make_rule_ok (mk_hseq h (hs_ops (rl_lhs rl)) SPos) (hseq_const true)) as (l0 & M1); [cbn; lia|].
    destruct (make_rule_ok (mk_hseq (hs_hash (rl_rhs rl)) (hs_ops (rl_rhs rl)) SPos) (hseq_const true)) as (r0 & M2); [cbn; lia|].
    assert (Wl0 : wf_rule r L l0).
    { eapply make_rule_wf; [| |  |exact M1]; [|apply wf_const|cbn; lia].
      destruct (wf_lhs r L rl W) as (A1 & A2 & A3). right. cbn. rewrite Eh. auto. }
    assert (Wm1 : wf_map r L (map_insert h l0 (map_erase h m))).
    { apply wf_map_insert; [apply wf_map_erase, Wm|exact Wl0|]. apply make_rule_lhs in M1 as (-> & _). reflexivity. }
    destruct (N.eq_dec (hs_hash (rl_rhs rl)) 0) as [Z|Z].
    + exists 2. intros fuel Hf. destruct fuel as [|[|f]]; [lia|lia|]. cbn [do_add_rule].
      rewrite Ht, <- Eh, F. destruct (N.eqb_spec (hs_hash (rl_rhs pre)) (hs_hash (rl_rhs rl))); [|contradiction].
      destruct (sign_eqb (rule_sign rl) (rule_sign pre)); [eexists; reflexivity|].
      rewrite M1. cbn [bind]. rewrite M2. cbn [bind].
      assert (Tr : rl_trivial r0 = true).
      { apply make_rule_lhs in M2 as (_ & _ & -> & _). cbn. rewrite Z. reflexivity. }
      rewrite Tr. eexists; reflexivity.
    + destruct (IH (hs_hash (rl_rhs rl)) Hlt r0) with (m := map_insert h l0 (map_erase h m)) as (n & Hn).
      * apply make_rule_lhs in M2 as (-> & _). reflexivity.
      * exact Wm1.
      * eapply make_rule_wf; [| | |exact M2]; [|apply wf_const|cbn; exact Z].
        destruct (wf_rhs r L rl W Z) as (A1 & A2 & A3). right. cbn. auto.
      * exists (S n). intros fuel Hf. destruct fuel as [|f]; [lia|]. cbn [do_add_rule].
        rewrite Ht, <- Eh, F. destruct (N.eqb_spec (hs_hash (rl_rhs pre)) (hs_hash (rl_rhs rl))); [|contradiction].
        destruct (sign_eqb (rule_sign rl) (rule_sign pre)); [eexists; reflexivity|].
        rewrite M1. cbn [bind]. rewrite M2. cbn [bind]. apply Hn. lia.
  - destruct (N.ltb_spec (hs_hash (rl_rhs pre)) (hs_hash (rl_rhs rl))) as [Hl|Hg].
    + destruct (make_rule_ok (rl_rhs rl) (rl_rhs pre)) as (ba & M1); [lia|].
      destruct (IH (hs_hash (rl_rhs rl)) Hlt ba) with (m := m) as (n & Hn).
      * apply make_rule_lhs in M1 as (-> & _). reflexivity.
      * exact Wm.
      * apply (make_rule_wf r L (rl_rhs rl) (rl_rhs pre)); [apply W|apply Wp| |exact M1]. lia.
      * exists (S n). intros fuel Hf. destruct fuel as [|f]; [lia|]. cbn [do_add_rule].
        rewrite Ht, <- Eh, F. destruct (N.eqb_spec (hs_hash (rl_rhs pre)) (hs_hash (rl_rhs rl))); [contradiction|].
        destruct (N.ltb_spec (hs_hash (rl_rhs pre)) (hs_hash (rl_rhs rl))); [|lia].
        rewrite M1. cbn [bind]. apply Hn. lia.
    + destruct (make_rule_ok (rl_rhs pre) (rl_rhs rl)) as (ba & M1); [lia|].
      destruct (IH (hs_hash (rl_rhs pre)) Hltp ba) with (m := map_insert h rl (map_erase h m)) as (n & Hn).
      * apply make_rule_lhs in M1 as (-> & _). reflexivity.
      * apply wf_map_insert; [apply wf_map_erase, Wm|exact W|exact Eh].
      * apply (make_rule_wf r L (rl_rhs pre) (rl_rhs rl)); [apply Wp|apply W| |exact M1]. lia.
      * exists (S n). intros fuel Hf. destruct fuel as [|f]; [lia|]. cbn [do_add_rule].
        rewrite Ht, <- Eh, F. destruct (N.eqb_spec (hs_hash (rl_rhs pre)) (hs_hash (rl_rhs rl))); [contradiction|].
        destruct (N.ltb_spec (hs_hash (rl_rhs pre)) (hs_hash (rl_rhs rl))); [lia|].
        rewrite M1. cbn [bind]. apply Hn. lia.
Qed.
