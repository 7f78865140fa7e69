(** Rule reduction, critical pairs, conjugation and completion preserve the theory. *)
From Coq Require Import List ZArith NArith Arith Bool Sorted Lia.
From Coq Require Import ZifyBool ZifyNat ZifyN.
From Verif Require Import CoreModel CoreSpec CoreProofs AlgModel AlgSpec AlgProofs AlgTheoryProofs.
Import ListNotations.

(* ---------------------------------------------------------------- fuel monotonicity *)
Lemma reduce_loop_mono find reset : forall fuel w s matched x, reduce_loop fuel find reset w s matched = Ret x ->
  forall fuel', fuel <= fuel' -> reduce_loop fuel' find reset w s matched = Ret x.
Proof.
  induction fuel as [|f IH]; intros w s matched x E fuel' Hf.
  - destruct fuel' as [|f']; cbn [reduce_loop] in *; destruct (find w) as [[rl pos]|]; try exact E;
      destruct (hs_zero (rl_rhs rl)); try exact E; discriminate.
  - destruct fuel' as [|f']; [lia|]. cbn [reduce_loop] in *. destruct (find w) as [[rl pos]|]; [|exact E].
    destruct (hs_zero (rl_rhs rl)); [exact E|]. destruct (apply_match rl w pos) as [w'| |]; cbn [bind] in *; try discriminate.
    apply (IH _ _ _ _ E). lia.
Qed.
Lemma reduce_hs_mono fuel rb q x : reduce_hs fuel rb q = Ret x -> forall fuel', fuel <= fuel' -> reduce_hs fuel' rb q = Ret x.
Proof.
  intros E fuel' Hf. unfold reduce_hs in *. destruct (hs_ops q) as [|o w]; [exact E|].
  destruct (rb_rules rb) as [|e m] eqn:Em; [exact E|].
  destruct (use_iteration rb (length (o :: w))).
  - apply bind_ret in E as (y & E1 & E2). unfold reduce_via_iteration in *.
    rewrite (reduce_loop_mono _ _ _ _ _ _ _ E1 _ Hf). exact E2.
  - apply bind_ret in E as (y & E1 & E2). unfold reduce_via_search in *.
    rewrite (reduce_loop_mono _ _ _ _ _ _ _ E1 _ Hf). exact E2.
Qed.
Lemma reduce_rule_mono fuel rb rl x : reduce_rule fuel rb rl = Ret x -> forall fuel', fuel <= fuel' -> reduce_rule fuel' rb rl = Ret x.
Proof.
  intros E fuel' Hf. unfold reduce_rule in *. apply bind_ret in E as (l & E1 & E). apply bind_ret in E as (r & E2 & E).
  rewrite (reduce_hs_mono _ _ _ _ E1 _ Hf). cbn [bind]. rewrite (reduce_hs_mono _ _ _ _ E2 _ Hf). exact E.
Qed.

(* ---------------------------------------------------------------- reduce(OperatorRule) *)
Lemma reduce_hs_zero_sign r L rb q fuel q' : wf_seq r L q -> hash_safe r L -> rb_ok r L rb -> sign_kept q ->
  reduce_hs fuel rb q = Ret q' -> hs_hash q' = 0%N -> hs_sign q' = SPos.
Proof.
  intros W HL Hrb HS E Z. destruct (reduce_hs_post r L L rb q fuel q' Hrb (le_n L) W HS E) as (W' & _ & _).
  unfold reduce_hs in E. destruct (hs_ops q) as [|o w] eqn:Eo; [injection E as <-; reflexivity|].
  destruct (rb_rules rb) as [|e m].
  - injection E as <-. destruct W as [[_ C]|(C & A1 & A2)]; [congruence|].
    exfalso. apply (hash_nonzero r L _ HL A1 A2). rewrite <- C. exact Z.
  - apply bind_ret in E as ([[[| |] w'] s'] & _ & E); injection E as <-.
    + destruct W as [[_ C]|(C & A1 & A2)]; [congruence|].
      exfalso. apply (hash_nonzero r L _ HL A1 A2). rewrite <- C. exact Z.
    + destruct W' as [[_ C]|(C & A1 & A2)].
      * cbn in C, Z. subst w'. cbn in Z. discriminate Z.
      * exfalso. apply (hash_nonzero r L _ HL A1 A2). rewrite <- C. exact Z.
    + reflexivity.
Qed.

Lemma make_rule_norm l r : make_rule (set_sign l SPos) (set_sign r (sdiff (hs_sign l) (hs_sign r))) = make_rule l r.
Proof. destruct l as [hl wl sl], r as [hr wr sr]. unfold make_rule, set_sign. cbn. destruct sl, sr; reflexivity. Qed.
Lemma make_rule_norm2 l r : make_rule (set_sign r SPos) (set_sign l (sconj (sdiff (hs_sign l) (hs_sign r)))) = make_rule r l.
Proof. destruct l as [hl wl sl], r as [hr wr sr]. unfold make_rule, set_sign. cbn. destruct sl, sr; reflexivity. Qed.

Lemma wf_same_word r L p q : hash_safe r L -> wf_seq r L p -> wf_seq r L q -> hs_hash p = hs_hash q -> hs_ops p = hs_ops q.
Proof.
  intros HL [[A1 A2]|(A1 & A2 & A3)] [[B1 B2]|(B1 & B2 & B3)] E.
  - congruence.
  - exfalso. apply (hash_nonzero r L _ HL B2 B3). congruence.
  - exfalso. apply (hash_nonzero r L _ HL A2 A3). congruence.
  - apply (hash_inj r L); try assumption. congruence.
Qed.

Lemma tame_set_pos c q : tame_seq c q -> tame_seq c (set_sign q SPos).
Proof. intros [H|H]; [left; exact H|right]. destruct c; [reflexivity|]. destruct H as [_ H]. split; [left; reflexivity|exact H]. Qed.

Lemma reduce_rule_post r L M rb c rl fuel rl' : rb_ok r L rb -> M <= L -> tame_map c (rb_rules rb) ->
  wf_seq r M (rl_lhs rl) -> wf_seq r M (rl_rhs rl) -> tame_rule c rl ->
  reduce_rule fuel rb rl = Ret rl' ->
  tame_rule c rl' /\
  (forall A v, all_hold A v (rb_rules rb) -> (holds A v rl <-> holds A v rl')) /\
  (rl_trivial rl' = true -> (forall A v, holds A v rl') /\
     exists t, rewrites_star (rb_rules rb) (term_of (rl_lhs rl)) t /\ rewrites_star (rb_rules rb) (term_of (rl_rhs rl)) t) /\
  (rl_trivial rl' = false -> wf_rule r M rl' /\ irreducible (rb_rules rb) (hs_ops (rl_lhs rl'))).
Proof.
  intros Hrb HM Tm Wl Wr [Tl Tr] E. pose proof Hrb as (Hr & HL & Hm). unfold reduce_rule in E.
  apply bind_ret in E as (l & E1 & E). apply bind_ret in E as (q & E2 & E).
  pose proof (wf_seq_mono r M L _ HM Wl) as Wl'. pose proof (wf_seq_mono r M L _ HM Wr) as Wr'.
  destruct (reduce_hs_post r L M rb _ fuel l Hrb HM Wl (tame_sign_kept c _ Tl) E1) as (L1 & L2 & L3).
  destruct (reduce_hs_post r L M rb _ fuel q Hrb HM Wr (tame_sign_kept c _ Tr) E2) as (R1 & R2 & R3).
  pose proof (reduce_hs_tame r L rb c _ fuel l Hrb Wl' Tm Tl E1) as TL.
  pose proof (reduce_hs_tame r L rb c _ fuel q Hrb Wr' Tm Tr E2) as TR.
  pose proof (reduce_hs_zero_sign r L rb _ fuel l Wl' HL Hrb (tame_sign_kept c _ Tl) E1) as ZL.
  pose proof (reduce_hs_zero_sign r L rb _ fuel q Wr' HL Hrb (tame_sign_kept c _ Tr) E2) as ZR.
  assert (Hsem : forall A v, all_hold A v (rb_rules rb) -> (holds A v rl <-> aeq A (den A v l) (den A v q))).
  { intros A v HA. unfold holds. rewrite !(den_term_of A v).
    pose proof (rws_sound A v r L _ _ _ HL Hm HA L2) as S1. pose proof (rws_sound A v r L _ _ _ HL Hm HA R2) as S2.
    split; intro G.
    - eapply aeq_trans; [apply aeq_sym, S1|]. eapply aeq_trans; [exact G|exact S2].
    - eapply aeq_trans; [exact S1|]. eapply aeq_trans; [exact G|apply aeq_sym, S2]. }
  pose proof (wf_seq_mono r M L _ HM L1) as L1'. pose proof (wf_seq_mono r M L _ HM R1) as R1'.
  destruct (N.eqb (hs_hash l) (hs_hash q) && sign_eqb (sdiff (hs_sign l) (hs_sign q)) SNeg) eqn:Ec.
  - apply andb_prop in Ec as [Eh Es]. apply N.eqb_eq in Eh. apply sign_eqb_spec in Es.
    assert (Hz : hs_hash l <> 0%N).
    { intro Z. rewrite ZL in Es by exact Z. rewrite ZR in Es by congruence. discriminate. }
    split; [eapply make_rule_tame; [| |exact E]; [apply tame_set_pos, TL|left; reflexivity]|]. split.
    { intros A v HA. rewrite (Hsem A v HA), (make_rule_holds A v _ _ _ E).
      unfold den. cbn [set_sign hs_hash hs_sign hs_ops hseq_const N.eqb]. rewrite <- Eh.
      destruct (N.eqb_spec (hs_hash l) 0) as [C|_]; [contradiction|].
      rewrite (wf_same_word r L l q HL L1' R1' Eh). unfold den_signed.
      set (x := den_word A v (hs_ops q)). rewrite (aph_zero_iff A SPos x).
      split; intro G.
      - apply (sign_clash A (hs_sign l) (hs_sign q) (aph A (hs_sign l) x) x).
        + intro C. rewrite C in Es. destruct (hs_sign q); discriminate.
        + apply aeq_refl.
        + exact G.
      - eapply aeq_trans; [apply (aph_zero_iff A), G|]. apply aeq_sym, (aph_zero_iff A), G. }
    pose proof (make_rule_lhs _ _ _ E) as (M1 & M2 & M3 & M4). cbn [set_sign hs_hash hseq_const] in M3.
    split.
    { rewrite M3. destruct (N.eqb_spec (hs_hash l) 0) as [C|_]; [contradiction|]. discriminate. }
    intros _. split.
    { eapply make_rule_wf; [| | |exact E]; [exact L1|apply wf_const|cbn; exact Hz]. }
    rewrite M1. apply L3, Hz.
  - assert (E' : (if N.ltb (hs_hash q) (hs_hash l) then make_rule l q else make_rule q l) = Ret rl').
    { destruct (N.ltb (hs_hash q) (hs_hash l)); [rewrite <- make_rule_norm|rewrite <- make_rule_norm2]; exact E. }
    clear E. destruct (N.ltb_spec (hs_hash q) (hs_hash l)) as [Hlt|Hge].
    + split; [eapply make_rule_tame; [| |exact E']; assumption|]. split.
      { intros A v HA. rewrite (Hsem A v HA), (make_rule_holds A v _ _ _ E'). tauto. }
      pose proof (make_rule_lhs _ _ _ E') as (M1 & M2 & M3 & M4). split.
      { rewrite M3. destruct (N.eqb_spec (hs_hash l) (hs_hash q)); [lia|discriminate]. }
      intros _. split; [eapply make_rule_wf; [| | |exact E']; [exact L1|exact R1|lia]|]. rewrite M1. apply L3. lia.
    + split; [eapply make_rule_tame; [| |exact E']; assumption|]. split.
      { intros A v HA. rewrite (Hsem A v HA), (make_rule_holds A v _ _ _ E'). split; apply aeq_sym. }
      pose proof (make_rule_lhs _ _ _ E') as (M1 & M2 & M3 & M4).
      destruct (N.eqb_spec (hs_hash q) (hs_hash l)) as [Eh|Eh].
      * assert (Esign : hs_hash l <> 0%N -> hs_sign l = hs_sign q).
        { intro Hz. destruct TL as [C|TL]; [contradiction|]. destruct TR as [C|TR]; [rewrite Eh in C; contradiction|].
          destruct c; [congruence|]. destruct TL as [TL _], TR as [TR _]. symmetry in Eh. apply N.eqb_eq in Eh. rewrite Eh in Ec. cbn [andb] in Ec.
          destruct TL as [TL|TL], TR as [TR|TR]; rewrite TL, TR in *; try reflexivity; discriminate. }
        assert (Eterm : term_of l = term_of q).
        { unfold term_of. rewrite Eh. destruct (N.eqb_spec (hs_hash l) 0) as [Z|Z]; [reflexivity|].
          rewrite (Esign Z). rewrite (wf_same_word r L l q HL L1' R1' (eq_sym Eh)). reflexivity. }
        assert (Tv : rl_trivial rl' = true).
        { rewrite M3. cbn [andb]. destruct (N.eq_dec (hs_hash l) 0) as [Z|Z].
          - rewrite ZL by exact Z. rewrite ZR by congruence. reflexivity.
          - rewrite (Esign Z), sdiff_refl. reflexivity. }
        split; [|congruence]. intros _. split.
        { intros A v. rewrite (make_rule_holds A v _ _ _ E'), !(den_term_of A v), Eterm. apply aeq_refl. }
        exists (term_of l). split; [exact L2|rewrite Eterm; exact R2].
      * split; [rewrite M3; discriminate|].
        intros _. split; [eapply make_rule_wf; [| | |exact E']; [exact R1|exact L1|lia]|]. rewrite M1. apply R3. lia.
Qed.

Lemma reduce_rule_terminates r L rb rl : rb_ok r L rb -> wf_seq r L (rl_lhs rl) -> wf_seq r L (rl_rhs rl) ->
  exists n x, forall fuel, n <= fuel -> reduce_rule fuel rb rl = Ret x.
Proof.
  intros Hrb W1 W2. destruct (reduce_hs_terminates r L rb _ Hrb W1) as (n1 & H1).
  destruct (reduce_hs_terminates r L rb _ Hrb W2) as (n2 & H2).
  destruct (H1 (n1 + n2)) as (l & E1); [lia|]. destruct (H2 (n1 + n2)) as (q & E2); [lia|].
  assert (exists x, reduce_rule (n1 + n2) rb rl = Ret x) as (x & Hx).
  { unfold reduce_rule. rewrite E1. cbn [bind]. rewrite E2. cbn [bind].
    destruct (N.eqb (hs_hash l) (hs_hash q) && sign_eqb (sdiff (hs_sign l) (hs_sign q)) SNeg).
    - apply make_rule_ok. cbn. lia.
    - destruct (N.ltb_spec (hs_hash q) (hs_hash l)); apply make_rule_ok; cbn; lia. }
  exists (n1 + n2), x. intros fuel Hf. eapply reduce_rule_mono; eassumption.
Qed.

(* ---------------------------------------------------------------- inserting an irreducible rule *)
Lemma hold_insert_irreducible r L m rl : hash_safe r L -> wf_map r L m -> wf_rule r L rl ->
  irreducible m (hs_ops (rl_lhs rl)) -> forall A v,
  (all_hold A v (map_insert (hs_hash (rl_lhs rl)) rl m) <-> all_hold A v m /\ holds A v rl).
Proof.
  intros HL Wm W Hirr A v. destruct (map_find (hs_hash (rl_lhs rl)) m) as [pre|] eqn:F.
  2:{ apply hold_insert; [apply Wm|exact F]. }
  pose proof (map_find_in _ _ _ F) as Hin. destruct (proj2 Wm _ _ Hin) as [Ek Wp].
  assert (El : hs_ops (rl_lhs pre) = hs_ops (rl_lhs rl)).
  { apply (wf_same_word r L); [exact HL|apply Wp|apply W|symmetry; exact Ek]. }
  destruct (hs_ops (rl_lhs rl)) as [|o w] eqn:Eo.
  2:{ exfalso. apply (Hirr _ _ Hin); rewrite El; [discriminate|]. exists [], []. rewrite app_nil_r. reflexivity. }
  (* both rules say "identity = 0" *)
  assert (Z : forall q, wf_rule r L q -> hs_ops (rl_lhs q) = [] -> hs_hash (rl_rhs q) = 0%N).
  { intros q Wq Eq. destruct (wf_lhs r L q Wq) as (A1 & _). rewrite Eq, hash_nil in A1.
    destruct Wq as (_ & _ & _ & Hlt & _). lia. }
  assert (Hsame : holds A v pre -> holds A v rl).
  { rewrite (wf_holds A v r L pre HL Wp), (wf_holds A v r L rl HL W), El, Eo. unfold den.
    rewrite (Z pre Wp El), (Z rl W Eo). auto. }
  assert (Hno : forall m0, StronglySorted N.lt (map fst m0) -> map_find (hs_hash (rl_lhs rl)) m0 <> None ->
            map_insert (hs_hash (rl_lhs rl)) rl m0 = m0).
  { clear. intros m0 Hs. induction m0 as [|[k0 r0] m0 IH]; cbn [map_find map_insert]; intro H; [contradiction|].
    cbn [map fst] in Hs. apply StronglySorted_inv in Hs as [Hs Hall].
    destruct (N.eqb_spec (hs_hash (rl_lhs rl)) k0) as [->|Hne].
    - rewrite N.ltb_irrefl. reflexivity.
    - destruct (N.ltb_spec (hs_hash (rl_lhs rl)) k0) as [Hlt|Hge].
      + destruct (map_find (hs_hash (rl_lhs rl)) m0) as [x|] eqn:F; [|contradiction].
        apply map_find_in in F. rewrite Forall_forall in Hall.
        assert (k0 < hs_hash (rl_lhs rl))%N by (apply Hall, in_map_iff; eexists; split; [|exact F]; reflexivity). lia.
      + f_equal. apply IH; assumption. }
  rewrite (Hno m (proj1 Wm)) by congruence. split; [|tauto]. intro H. split; [exact H|].
  apply Hsame, (H _ _ Hin).
Qed.

(* ---------------------------------------------------------------- reduce_ruleset *)
Definition same_theory (m m' : rulemap) : Prop := forall A v, all_hold A v m <-> all_hold A v m'.

Lemma reduce_ruleset_step_sound r L M rb c m k fuel x : pc_num (rb_pc rb) = r -> hash_safe r L -> M <= L ->
  wf_map r M m -> tame_map c m -> reduce_ruleset_step fuel rb m k = Ret x ->
  wf_map r M (fst x) /\ tame_map c (fst x) /\ same_theory m (fst x).
Proof.
  intros Hr HL HM Wm Tm E. unfold reduce_ruleset_step in E.
  destruct (map_find k m) as [iso|] eqn:F.
  2:{ injection E as <-. cbn [fst]. split; [exact Wm|split; [exact Tm|intros A v; tauto]]. }
  apply bind_ret in E as (red & E1 & E).
  pose proof (map_find_in _ _ _ F) as Hin. destruct (proj2 Wm _ _ Hin) as [Ek Wi].
  assert (We : wf_map r M (map_erase k m)) by (apply wf_map_erase, Wm).
  assert (Te : tame_map c (map_erase k m)) by (apply tame_map_erase, Tm).
  assert (Hrb : rb_ok r L (with_rules rb (map_erase k m))).
  { split; [exact Hr|split; [exact HL|apply (wf_map_mono r M L); assumption]]. }
  destruct (reduce_rule_post r L M _ c iso fuel red Hrb HM Te (proj1 Wi) (proj1 (proj2 Wi)) (Tm _ _ Hin) E1)
    as (P1 & P2 & P3 & P4). cbn [with_rules rb_rules] in *.
  destruct (rl_trivial red) eqn:Tv; injection E as <-; cbn [fst].
  - split; [exact We|]. split; [exact Te|]. intros A v. rewrite (hold_erase A v m k iso (proj1 Wm) F).
    split; [tauto|]. intro H. split; [exact H|]. apply (P2 A v H), P3. reflexivity.
  - destruct (P4 eq_refl) as [Wred Irr].
    split; [apply wf_map_insert; [exact We|exact Wred|reflexivity]|].
    split; [apply tame_map_insert; assumption|].
    intros A v. rewrite (hold_erase A v m k iso (proj1 Wm) F).
    rewrite (hold_insert_irreducible r L (map_erase k m) red HL (wf_map_mono r M L _ HM We) (wf_rule_mono r M L _ HM Wred) Irr A v).
    split; intros [H1 H2]; (split; [exact H1|]); apply (P2 A v H1); exact H2.
Qed.

Lemma reduce_ruleset_loop_sound r L M rb c keys : pc_num (rb_pc rb) = r -> hash_safe r L -> M <= L ->
  forall fuel m n x, wf_map r M m -> tame_map c m -> reduce_ruleset_loop fuel rb m keys n = Ret x ->
  wf_map r M (fst x) /\ tame_map c (fst x) /\ same_theory m (fst x).
Proof.
  intros Hr HL HM fuel. induction keys as [|k ks IH]; intros m n x Wm Tm E; cbn [reduce_ruleset_loop] in E.
  - injection E as <-. cbn [fst]. split; [exact Wm|split; [exact Tm|]]. intros A v; tauto.
  - apply bind_ret in E as (y & E1 & E).
    destruct (reduce_ruleset_step_sound r L M rb c m k fuel y Hr HL HM Wm Tm E1) as (S1 & S2 & S3).
    destruct (IH _ _ _ S1 S2 E) as (I1 & I2 & I3). split; [exact I1|split; [exact I2|]].
    intros A v. rewrite (S3 A v). apply I3.
Qed.

Lemma reduce_ruleset_sound r L M rb c fuel x : pc_num (rb_pc rb) = r -> hash_safe r L -> M <= L ->
  wf_map r M (rb_rules rb) -> tame_map c (rb_rules rb) -> reduce_ruleset fuel rb = Ret x ->
  rb_pc (fst x) = rb_pc rb /\ wf_map r M (rb_rules (fst x)) /\ tame_map c (rb_rules (fst x)) /\
  same_theory (rb_rules rb) (rb_rules (fst x)).
Proof.
  intros Hr HL HM Wm Tm E. unfold reduce_ruleset in E. apply bind_ret in E as (y & E1 & E). injection E as <-.
  cbn [fst with_rules rb_rules rb_pc]. split; [reflexivity|].
  apply (reduce_ruleset_loop_sound r L M rb c _ Hr HL HM _ _ _ _ Wm Tm E1).
Qed.

Lemma reduce_ruleset_terminates r L M c rb : pc_num (rb_pc rb) = r -> hash_safe r L -> M <= L ->
  wf_map r M (rb_rules rb) -> tame_map c (rb_rules rb) -> exists n x, forall fuel, n <= fuel -> reduce_ruleset fuel rb = Ret x.
Proof.
  intros Hr HL HM Wm Tm.
  assert (G : forall keys m j, wf_map r M m -> tame_map c m -> exists n x, forall fuel, n <= fuel -> reduce_ruleset_loop fuel rb m keys j = Ret x).
  { induction keys as [|k ks IH]; intros m j W T; cbn [reduce_ruleset_loop]; [exists 0; eexists; intros; reflexivity|].
    assert (exists n y, forall fuel, n <= fuel -> reduce_ruleset_step fuel rb m k = Ret y) as (n & y & Hy).
    { unfold reduce_ruleset_step. destruct (map_find k m) as [iso|] eqn:F; [|exists 0; eexists; intros; reflexivity].
      pose proof (map_find_in _ _ _ F) as Hin. destruct (proj2 W _ _ Hin) as [_ Wi].
      destruct (reduce_rule_terminates r L (with_rules rb (map_erase k m)) iso) as (n & y & Hy).
      - split; [exact Hr|split; [exact HL|apply (wf_map_mono r M L); [exact HM|apply wf_map_erase, W]]].
      - apply (wf_seq_mono r M L _ HM), Wi.
      - apply (wf_seq_mono r M L _ HM), Wi.
      - destruct (rl_trivial y) eqn:Ty; exists n; eexists; intros fuel Hf; rewrite (Hy fuel Hf); cbn [bind]; rewrite Ty; reflexivity. }
    destruct (reduce_ruleset_step_sound r L M rb c m k n y Hr HL HM W T (Hy n (le_n n))) as (S1 & S2 & S3).
    destruct (IH (fst y) (j + snd y) S1 S2) as (n2 & z & Hz).
    exists (n + n2), z. intros fuel Hf. rewrite (Hy fuel) by lia. cbn [bind]. apply Hz. lia. }
  destruct (G (map fst (rb_rules rb)) (rb_rules rb) 0 Wm Tm) as (n & x & Hx).
  exists n. eexists. intros fuel Hf. unfold reduce_ruleset. rewrite (Hx fuel Hf). reflexivity.
Qed.

(* ---------------------------------------------------------------- overlaps and combine *)
Lemma overlap_loop_spec rhs : forall n tail, length tail = n -> n <= length rhs ->
  let ov := overlap_loop n tail rhs in
  ov <= n /\ skipn (n - ov) tail = firstn ov rhs /\
  (forall k, k <= n -> skipn (n - k) tail = firstn k rhs -> k <= ov).
Proof.
  induction n as [|n IH]; intros tail Ht Hn; cbn [overlap_loop].
  - destruct tail; [|discriminate]. cbn. repeat split; lia.
  - destruct (is_prefix tail rhs) eqn:E.
    + cbn zeta. apply is_prefix_spec in E as [q Eq]. rewrite Nat.sub_diag. split; [lia|]. split; [|lia].
      rewrite Eq, <- Ht. cbn [skipn]. rewrite firstn_app, firstn_all, Nat.sub_diag, firstn_O, app_nil_r. reflexivity.
    + destruct tail as [|t tail]; [discriminate|]. cbn [tl]. injection Ht as Ht.
      destruct (IH tail Ht) as (A & B & C); [lia|]. cbn zeta in *. set (ov := overlap_loop n tail rhs) in *.
      split; [lia|]. split.
      * replace (S n - ov) with (S (n - ov)) by lia. exact B.
      * intros k Hk Ek. destruct (Nat.eq_dec k (S n)) as [->|Hne].
        -- exfalso. rewrite Nat.sub_diag in Ek. cbn [skipn] in Ek.
           assert (is_prefix (t :: tail) rhs = true) by (apply is_prefix_spec; exists (skipn (S n) rhs); rewrite Ek, firstn_skipn; reflexivity).
           congruence.
        -- apply C; [lia|]. replace (S n - k) with (S (n - k)) in Ek by lia. exact Ek.
Qed.

Lemma skipn_skipn' {A} (l : list A) : forall a b, skipn a (skipn b l) = skipn (a + b) l.
Proof.
  intros a b. revert l. induction b as [|b IH]; intro l; [rewrite Nat.add_0_r; reflexivity|].
  rewrite <- plus_n_Sm. destruct l; [rewrite !skipn_nil; reflexivity|]. cbn [skipn]. apply IH.
Qed.

Lemma suffix_prefix_overlap_spec l1 l2 : let ov := suffix_prefix_overlap l1 l2 in
  ov <= length l1 /\ ov <= length l2 /\
  l1 = firstn (length l1 - ov) l1 ++ firstn ov l2 /\
  (forall x y z, l1 = x ++ y -> l2 = y ++ z -> length y <= ov).
Proof.
  cbn zeta. unfold suffix_prefix_overlap. set (n := Nat.min (length l1) (length l2)).
  destruct (overlap_loop_spec l2 n (skipn (length l1 - n) l1)) as (A & B & C).
  { rewrite skipn_length. lia. } { lia. }
  cbn zeta in *. set (ov := overlap_loop n (skipn (length l1 - n) l1) l2) in *.
  repeat split; [lia|lia| |].
  - rewrite <- B, skipn_skipn'. replace (n - ov + (length l1 - n)) with (length l1 - ov) by lia.
    symmetry. apply firstn_skipn.
  - intros x y z E1 E2.
    assert (Hl1 : length l1 = length x + length y) by (rewrite E1, app_length; reflexivity).
    assert (Hl2 : length l2 = length y + length z) by (rewrite E2, app_length; reflexivity).
    apply C.
    + lia.
    + rewrite skipn_skipn'.
      replace (n - length y + (length l1 - n)) with (length x) by lia. rewrite E1, E2.
      rewrite skipn_app, skipn_all, Nat.sub_diag. cbn [skipn app].
      rewrite firstn_app, firstn_all, Nat.sub_diag, firstn_O, app_nil_r. reflexivity.
Qed.

Definition term_ph (s : sign) (t : term) : term := match t with None => None | Some (s', w) => Some (smul s s', w) end.

Lemma combine_shape pc r L M a b c : pc_num pc = r -> hash_safe r L -> 2 * M <= L -> wf_rule r M a -> wf_rule r M b ->
  combine pc a b = Ret (Some c) ->
  exists x y z, hs_ops (rl_lhs a) = x ++ y /\ hs_ops (rl_lhs b) = y ++ z /\ y <> [] /\
    length y = suffix_prefix_overlap (hs_ops (rl_lhs a)) (hs_ops (rl_lhs b)) /\
    wf_seq r (2 * M) (rl_lhs c) /\ wf_seq r (2 * M) (rl_rhs c) /\
    (forall k, tame_rule k a -> tame_rule k b -> tame_rule k c) /\
    exists s, (term_ph s (term_of (rl_lhs c)) = via a [] z /\ term_ph s (term_of (rl_rhs c)) = via b x []) \/
              (term_ph s (term_of (rl_lhs c)) = via b x [] /\ term_ph s (term_of (rl_rhs c)) = via a [] z).
Proof.
  intros Hr HL HM Wa Wb E. unfold combine in E.
  destruct (suffix_prefix_overlap_spec (hs_ops (rl_lhs a)) (hs_ops (rl_lhs b))) as (O1 & O2 & O3 & O4).
  set (ov := suffix_prefix_overlap (hs_ops (rl_lhs a)) (hs_ops (rl_lhs b))) in *.
  destruct (Nat.leb_spec ov 0) as [|Hov]; [discriminate|].
  set (x := firstn (length (hs_ops (rl_lhs a)) - ov) (hs_ops (rl_lhs a))) in *.
  set (y := firstn ov (hs_ops (rl_lhs b))) in *. set (z := skipn ov (hs_ops (rl_lhs b))).
  assert (Eb : hs_ops (rl_lhs b) = y ++ z) by (symmetry; apply firstn_skipn).
  assert (Ly : length y = ov) by (unfold y; rewrite firstn_length; lia).
  exists x, y, z. split; [exact O3|]. split; [exact Eb|].
  split; [intro C; rewrite C in Ly; cbn in Ly; lia|]. split; [exact Ly|].
  destruct (wf_lhs r M a Wa) as (A1 & A2 & A3). destruct (wf_lhs r M b Wb) as (B1 & B2 & B3).
  assert (WaL : wf_rule r L a) by (apply (wf_rule_mono r M L); [lia|exact Wa]).
  assert (WbL : wf_rule r L b) by (apply (wf_rule_mono r M L); [lia|exact Wb]).
  assert (Za : N.eqb (hs_hash (rl_rhs a)) 0 = rl_zero a) by (symmetry; apply Wa).
  assert (Zb : N.eqb (hs_hash (rl_rhs b)) 0 = rl_zero b) by (symmetry; apply Wb).
  (* the two results *)
  assert (Va : apply_match a (x ++ hs_ops (rl_lhs b)) 0 =
               Ret (if rl_zero a then [] else hs_ops (rl_rhs a) ++ z)).
  { destruct (rl_zero a) eqn:Z; [unfold apply_match; rewrite Z; reflexivity|].
    rewrite Eb, app_assoc, <- O3. rewrite <- (app_nil_l (hs_ops (rl_lhs a) ++ z)).
    change 0 with (length (@nil nat)). rewrite (apply_match_ok r L a [] z HL WaL); [reflexivity|].
    apply N.eqb_neq, Za. }
  assert (Vb : apply_match b (x ++ hs_ops (rl_lhs b)) (length (x ++ hs_ops (rl_lhs b)) - length (hs_ops (rl_lhs b))) =
               Ret (if rl_zero b then [] else x ++ hs_ops (rl_rhs b))).
  { destruct (rl_zero b) eqn:Z; [unfold apply_match; rewrite Z; reflexivity|].
    rewrite app_length. replace (length x + length (hs_ops (rl_lhs b)) - length (hs_ops (rl_lhs b))) with (length x) by lia.
    rewrite <- (app_nil_r (hs_ops (rl_lhs b))) at 1.
    rewrite (apply_match_ok r L b x [] HL WbL); [rewrite app_nil_r; reflexivity|].
    apply N.eqb_neq, Zb. }
  rewrite Va in E. cbn [bind] in E. rewrite Vb in E. cbn [bind] in E. clear Va Vb.
  set (wa := if rl_zero a then [] else hs_ops (rl_rhs a) ++ z) in *.
  set (wb := if rl_zero b then [] else x ++ hs_ops (rl_rhs b)) in *.
  set (ha := if rl_zero a then 0%N else pc_hash pc wa) in *.
  set (hb := if rl_zero b then 0%N else pc_hash pc wb) in *.
  assert (Hz_len : length z <= M) by (rewrite Eb, app_length in B3; lia).
  assert (Hx_len : length x <= M) by (rewrite O3, app_length in A3; lia).
  assert (Hz_over : over r z) by (rewrite Eb in B2; apply over_app in B2; tauto).
  assert (Hx_over : over r x) by (rewrite O3 in A2; apply over_app in A2; tauto).
  assert (Wsa : forall s, wf_seq r (2 * M) (mk_hseq ha wa s)).
  { intro s. unfold ha, wa. destruct (rl_zero a) eqn:Z; [left; split; reflexivity|right]. cbn [hs_hash hs_ops].
    unfold pc_hash, pc_radix. rewrite Hr. split; [reflexivity|].
    destruct (wf_rhs r M a Wa) as (_ & Q1 & Q2); [apply N.eqb_neq, Za|].
    rewrite over_app, app_length. split; [auto|lia]. }
  assert (Wsb : forall s, wf_seq r (2 * M) (mk_hseq hb wb s)).
  { intro s. unfold hb, wb. destruct (rl_zero b) eqn:Z; [left; split; reflexivity|right]. cbn [hs_hash hs_ops].
    unfold pc_hash, pc_radix. rewrite Hr. split; [reflexivity|].
    destruct (wf_rhs r M b Wb) as (_ & Q1 & Q2); [apply N.eqb_neq, Zb|].
    rewrite over_app, app_length. split; [auto|lia]. }
  assert (Ha0 : ha = 0%N <-> rl_zero a = true).
  { unfold ha. destruct (rl_zero a) eqn:Z; [tauto|]. split; [|discriminate]. intro C. exfalso.
    destruct (Wsa SPos) as [[_ W]|(W1 & W2 & W3)]; cbn [hs_hash hs_ops] in *.
    - unfold ha in *. rewrite W in C. cbn in C. discriminate.
    - apply (hash_nonzero r L wa HL W2); [lia|]. rewrite <- W1. unfold ha. exact C. }
  assert (Hb0 : hb = 0%N <-> rl_zero b = true).
  { unfold hb. destruct (rl_zero b) eqn:Z; [tauto|]. split; [|discriminate]. intro C. exfalso.
    destruct (Wsb SPos) as [[_ W]|(W1 & W2 & W3)]; cbn [hs_hash hs_ops] in *.
    - unfold hb in *. rewrite W in C. cbn in C. discriminate.
    - apply (hash_nonzero r L wb HL W2); [lia|]. rewrite <- W1. unfold hb. exact C. }
  assert (Tva : via a [] z = if N.eqb ha 0 then None else Some (rule_sign a, wa)).
  { unfold via. fold (rule_sign a). fold (rule_sign b). rewrite Za. destruct (rl_zero a) eqn:Z.
    - rewrite (proj2 Ha0 eq_refl). reflexivity.
    - destruct (N.eqb_spec ha 0) as [C|C]; [apply Ha0 in C; discriminate|]. reflexivity. }
  assert (Tvb : via b x [] = if N.eqb hb 0 then None else Some (rule_sign b, wb)).
  { unfold via. fold (rule_sign a). fold (rule_sign b). rewrite Zb. destruct (rl_zero b) eqn:Z.
    - rewrite (proj2 Hb0 eq_refl). reflexivity.
    - destruct (N.eqb_spec hb 0) as [C|C]; [apply Hb0 in C; discriminate|]. unfold wb. rewrite app_nil_r. reflexivity. }
  assert (Tma : forall k s, tame_rule k a -> real_sign s -> (k = true -> s = SPos) -> tame_seq k (mk_hseq ha wa s)).
  { intros k s [_ T] Hs Hk. unfold tame_seq. cbn [hs_hash hs_sign hs_ops].
    destruct (N.eq_dec ha 0) as [Z|Z]; [left; exact Z|right].
    assert (Zf : rl_zero a = false) by (destruct (rl_zero a); [exfalso; apply Z, Ha0; reflexivity|reflexivity]).
    destruct T as [T|T]; [exfalso; rewrite Zf in Za; apply N.eqb_neq in Za; contradiction|].
    destruct k; [auto|]. split; [exact Hs|]. destruct T as [_ T]. unfold wa. rewrite Zf. intro C. apply T.
    destruct (hs_ops (rl_rhs a)); [reflexivity|discriminate]. }
  assert (Tmb : forall k s, tame_rule k b -> real_sign s -> (k = true -> s = SPos) -> tame_seq k (mk_hseq hb wb s)).
  { intros k s [_ T] Hs Hk. unfold tame_seq. cbn [hs_hash hs_sign hs_ops].
    destruct (N.eq_dec hb 0) as [Z|Z]; [left; exact Z|right].
    assert (Zf : rl_zero b = false) by (destruct (rl_zero b); [exfalso; apply Z, Hb0; reflexivity|reflexivity]).
    destruct T as [T|T]; [exfalso; rewrite Zf in Zb; apply N.eqb_neq in Zb; contradiction|].
    destruct k; [auto|]. split; [exact Hs|]. destruct T as [_ T]. unfold wb. rewrite Zf. intro C. apply T.
    destruct x; [|discriminate]. exact C. }
  assert (Rs : forall k, tame_rule k a -> tame_rule k b -> ha <> 0%N -> hb <> 0%N ->
            real_sign (rule_sign a) /\ real_sign (rule_sign b) /\ (k = true -> rule_sign a = SPos /\ rule_sign b = SPos)).
  { intros k [_ Ta] [_ Tb] Na Nb.
    assert (Fa : hs_hash (rl_rhs a) <> 0%N).
    { intro C. apply Na, Ha0. rewrite <- Za, C. reflexivity. }
    assert (Fb : hs_hash (rl_rhs b) <> 0%N).
    { intro C. apply Nb, Hb0. rewrite <- Zb, C. reflexivity. }
    destruct Ta as [Ta|Ta]; [contradiction|]. destruct Tb as [Tb|Tb]; [contradiction|].
    unfold rule_sign. destruct k.
    - rewrite Ta, Tb. unfold real_sign. auto.
    - destruct Ta, Tb. repeat split; auto; discriminate. }
  clearbody wa wb ha hb. clear Wa Wb WaL WbL O3 O4.
  assert (D1 : forall k : bool, k = true -> SPos = SPos) by reflexivity.
  assert (D2 : real_sign SPos) by (left; reflexivity).
  destruct (N.ltb_spec ha hb) as [Hlt|Hge].
  - destruct (N.eqb_spec ha 0) as [Z|Z].
    + apply bind_ret in E as (c' & E & Ec). injection Ec as ->.
      pose proof (make_rule_lhs _ _ _ E) as (M1 & M2 & _ & _). rewrite M1, M2.
      split; [apply Wsb|]. split; [apply wf_const|]. split.
      { intros k Ta Tb. eapply make_rule_tame; [| |exact E]; [apply Tmb; auto|left; reflexivity]. }
      exists (rule_sign b). right. rewrite Tva, Tvb. unfold term_of. cbn. try rewrite Z. cbn.
      destruct (N.eqb hb 0); cbn; [auto|]. rewrite smul_pos_r. auto.
    + apply bind_ret in E as (c' & E & Ec). injection Ec as ->.
      pose proof (make_rule_lhs _ _ _ E) as (M1 & M2 & _ & _). rewrite M1, M2.
      split; [apply Wsb|]. split; [apply Wsa|]. split.
      { intros k Ta Tb. destruct (Rs k Ta Tb Z) as (R1 & R2 & R3); [lia|].
        eapply make_rule_tame; [| |exact E]; [apply Tmb; auto|apply Tma; auto].
        - apply real_sdiff; assumption.
        - intro K. destruct (R3 K) as [-> ->]. reflexivity. }
      exists (rule_sign b). right. rewrite Tva, Tvb. unfold term_of. cbn [set_sign hs_hash hs_sign hs_ops].
      destruct (N.eqb_spec ha 0); [contradiction|]. destruct (N.eqb_spec hb 0); [lia|].
      cbn [term_ph]. rewrite smul_pos_r. split; [reflexivity|]. f_equal. f_equal.
      destruct (rule_sign a), (rule_sign b); reflexivity.
  - destruct (N.eqb_spec hb 0) as [Z|Z].
    + apply bind_ret in E as (c' & E & Ec). injection Ec as ->.
      pose proof (make_rule_lhs _ _ _ E) as (M1 & M2 & _ & _). rewrite M1, M2.
      split; [apply Wsa|]. split; [apply wf_const|]. split.
      { intros k Ta Tb. eapply make_rule_tame; [| |exact E]; [apply Tma; auto|left; reflexivity]. }
      exists (rule_sign a). left. rewrite Tva, Tvb. unfold term_of. cbn. try rewrite Z. cbn.
      destruct (N.eqb ha 0); cbn; [auto|]. rewrite smul_pos_r. auto.
    + apply bind_ret in E as (c' & E & Ec). injection Ec as ->.
      pose proof (make_rule_lhs _ _ _ E) as (M1 & M2 & _ & _). rewrite M1, M2.
      split; [apply Wsa|]. split; [apply Wsb|]. split.
      { intros k Ta Tb. destruct (Rs k Ta Tb) as (R1 & R2 & R3); [lia|exact Z|].
        eapply make_rule_tame; [| |exact E]; [apply Tma; auto|apply Tmb; auto].
        - apply real_sdiff; assumption.
        - intro K. destruct (R3 K) as [-> ->]. reflexivity. }
      exists (rule_sign a). left. rewrite Tva, Tvb. unfold term_of. cbn [set_sign hs_hash hs_sign hs_ops].
      destruct (N.eqb_spec ha 0); [lia|]. destruct (N.eqb_spec hb 0); [contradiction|].
      cbn [term_ph]. rewrite smul_pos_r. split; [reflexivity|]. f_equal. f_equal.
      destruct (rule_sign a), (rule_sign b); reflexivity.
Qed.

Lemma combine_ok pc r L M a b : hash_safe r L -> M <= L -> wf_rule r M a -> wf_rule r M b ->
  exists oc, combine pc a b = Ret oc.
Proof.
  intros HL HM Wa Wb. unfold combine.
  destruct (suffix_prefix_overlap_spec (hs_ops (rl_lhs a)) (hs_ops (rl_lhs b))) as (O1 & O2 & O3 & O4).
  set (ov := suffix_prefix_overlap (hs_ops (rl_lhs a)) (hs_ops (rl_lhs b))) in *.
  destruct (Nat.leb_spec ov 0) as [|Hov]; [eexists; reflexivity|].
  set (x := firstn (length (hs_ops (rl_lhs a)) - ov) (hs_ops (rl_lhs a))) in *.
  set (y := firstn ov (hs_ops (rl_lhs b))) in *. set (z := skipn ov (hs_ops (rl_lhs b))).
  assert (Eb : hs_ops (rl_lhs b) = y ++ z) by (symmetry; apply firstn_skipn).
  assert (WaL : wf_rule r L a) by (apply (wf_rule_mono r M L); [lia|exact Wa]).
  assert (WbL : wf_rule r L b) by (apply (wf_rule_mono r M L); [lia|exact Wb]).
  assert (exists wa, apply_match a (x ++ hs_ops (rl_lhs b)) 0 = Ret wa) as (wa & ->).
  { destruct (rl_zero a) eqn:Z; [unfold apply_match; rewrite Z; eexists; reflexivity|].
    rewrite Eb, app_assoc, <- O3. rewrite <- (app_nil_l (hs_ops (rl_lhs a) ++ z)).
    change 0 with (length (@nil nat)). rewrite (apply_match_ok r L a [] z HL WaL); [eexists; reflexivity|].
    destruct Wa as (_ & _ & _ & _ & Za & _). rewrite Z in Za. apply N.eqb_neq. symmetry. exact Za. }
  assert (exists wb, apply_match b (x ++ hs_ops (rl_lhs b)) (length (x ++ hs_ops (rl_lhs b)) - length (hs_ops (rl_lhs b))) = Ret wb) as (wb & ->).
  { destruct (rl_zero b) eqn:Z; [unfold apply_match; rewrite Z; eexists; reflexivity|].
    rewrite app_length. replace (length x + length (hs_ops (rl_lhs b)) - length (hs_ops (rl_lhs b))) with (length x) by lia.
    assert (Zn : hs_hash (rl_rhs b) <> 0%N).
    { destruct Wb as (_ & _ & _ & _ & Zb & _). rewrite Z in Zb. apply N.eqb_neq. symmetry. exact Zb. }
    pose proof (apply_match_ok r L b x [] HL WbL Zn) as Q. rewrite app_nil_r in Q. eexists. exact Q. }
  cbn [bind].
  assert (G : forall q1 q2, (hs_hash q2 <= hs_hash q1)%N -> exists oc, bind (make_rule q1 q2) (fun rl => Ret (Some rl)) = Ret oc).
  { intros q1 q2 H. destruct (make_rule_ok q1 q2 H) as (rl & ->). eexists. reflexivity. }
  set (ha := if rl_zero a then 0%N else pc_hash pc wa). set (hb := if rl_zero b then 0%N else pc_hash pc wb).
  destruct (N.ltb_spec ha hb); [destruct (N.eqb ha 0)|destruct (N.eqb hb 0)]; apply G; cbn; lia.
Qed.

Lemma via_rewrites m k rl a b : In (k, rl) m -> rewrites m (Some (SPos, a ++ hs_ops (rl_lhs rl) ++ b)) (via rl a b).
Proof.
  intro H. unfold via. destruct (N.eqb_spec (hs_hash (rl_rhs rl)) 0) as [Z|Z].
  - eapply rw_zero; eassumption.
  - pose proof (rw_word m k rl SPos a b H Z) as R. unfold rule_sign. destruct (hs_sign (rl_rhs rl)); exact R.
Qed.

Lemma den_term_ph (A : algebra) v s t : aeq A (den_term A v (term_ph s t)) (aph A s (den_term A v t)).
Proof.
  destruct t as [[s' w]|]; cbn [term_ph den_term]; [|apply aeq_sym, aph_zero]. apply aeq_sym, aph_mul.
Qed.

Lemma combine_sound pc r L M m ka kb a b c : pc_num pc = r -> hash_safe r L -> 2 * M <= L -> wf_map r M m ->
  In (ka, a) m -> In (kb, b) m -> combine pc a b = Ret (Some c) ->
  forall A v, all_hold A v m -> holds A v c.
Proof.
  intros Hr HL HM Wm Ha Hb E A v H.
  destruct (combine_shape pc r L M a b c Hr HL HM (proj2 (proj2 Wm _ _ Ha)) (proj2 (proj2 Wm _ _ Hb)) E)
    as (x & y & z & E1 & E2 & _ & _ & _ & _ & _ & s & D).
  pose proof (via_rewrites m ka a [] z Ha) as Ra. pose proof (via_rewrites m kb b x [] Hb) as Rb.
  apply (rewrites_sound A v r L m _ _ HL (wf_map_mono r M L m ltac:(lia) Wm) H) in Ra.
  apply (rewrites_sound A v r L m _ _ HL (wf_map_mono r M L m ltac:(lia) Wm) H) in Rb.
  rewrite E1 in Ra. rewrite E2, app_nil_r in Rb. cbn [app] in Ra. rewrite <- app_assoc in Ra.
  assert (V : aeq A (den_term A v (via a [] z)) (den_term A v (via b x []))).
  { eapply aeq_trans; [apply aeq_sym, Ra|exact Rb]. }
  unfold holds. rewrite !(den_term_of A v). apply (aph_cancel A s).
  eapply aeq_trans; [apply aeq_sym, den_term_ph|]. apply aeq_sym. eapply aeq_trans; [apply aeq_sym, den_term_ph|].
  destruct D as [[-> ->]|[-> ->]]; [apply aeq_sym|]; exact V.
Qed.

(* ---------------------------------------------------------------- critical pairs *)
Definition pair_ok (m : rulemap) (c : rule) : Prop :=
  exists t, rewrites_star m (term_of (rl_lhs c)) t /\ rewrites_star m (term_of (rl_rhs c)) t.

Lemma combine_inner_sound r L M c fuel rb ka a : rb_ok r L rb -> 2 * M <= L -> wf_map r M (rb_rules rb) -> tame_map c (rb_rules rb) ->
  In (ka, a) (rb_rules rb) -> forall m, incl m (rb_rules rb) -> forall oc, combine_inner fuel rb ka a m = Ret oc ->
  match oc with
  | Some cr => tame_rule c cr /\ wf_rule r (2 * M) cr /\ irreducible (rb_rules rb) (hs_ops (rl_lhs cr)) /\
               rl_trivial cr = false /\ (forall A v, all_hold A v (rb_rules rb) -> holds A v cr)
  | None => forall kb b p, In (kb, b) m -> ka <> kb -> combine (rb_pc rb) a b = Ret (Some p) -> pair_ok (rb_rules rb) p
  end.
Proof.
  intros Hrb HM Wm Tm Ha. induction m as [|[kb b] m IH]; intros Hi oc E; cbn [combine_inner] in E.
  - injection E as <-. intros kb b p [].
  - assert (Hi' : incl m (rb_rules rb)) by (intros x Hx; apply Hi; right; exact Hx).
    assert (Hb : In (kb, b) (rb_rules rb)) by (apply Hi; left; reflexivity).
    destruct (N.eqb_spec ka kb) as [Ek|Ek].
    + specialize (IH Hi' oc E). destruct oc; [exact IH|]. intros kb' b' p [Hx|Hx] Hne Hc; [congruence|].
      apply (IH kb' b' p Hx Hne Hc).
    + apply bind_ret in E as (op & Ec & E). destruct op as [p|].
      2:{ specialize (IH Hi' oc E). destruct oc; [exact IH|]. intros kb' b' p [Hx|Hx] Hne Hc; [congruence|].
          apply (IH kb' b' p Hx Hne Hc). }
      apply bind_ret in E as (cr & Er & E).
      destruct (combine_shape (rb_pc rb) r L M a b p (proj1 Hrb) (proj1 (proj2 Hrb)) HM (proj2 (proj2 Wm _ _ Ha)) (proj2 (proj2 Wm _ _ Hb)) Ec)
        as (x & y & z & _ & _ & _ & _ & W1 & W2 & Tp & _).
      destruct (reduce_rule_post r L (2 * M) rb c p fuel cr Hrb HM Tm W1 W2 (Tp c (Tm _ _ Ha) (Tm _ _ Hb)) Er)
        as (P1 & P2 & P3 & P4).
      destruct (rl_trivial cr) eqn:Tv.
      * specialize (IH Hi' oc E). destruct oc; [exact IH|]. intros kb' b' p' [Hx|Hx] Hne Hc.
        -- injection Hx as -> ->. rewrite Ec in Hc. injection Hc as <-. apply P3. reflexivity.
        -- apply (IH kb' b' p' Hx Hne Hc).
      * injection E as <-. destruct (P4 eq_refl) as [P5 P6].
        split; [exact P1|]. split; [exact P5|]. split; [exact P6|]. split; [exact Tv|].
        intros A v H. apply (P2 A v H). apply (combine_sound (rb_pc rb) r L M (rb_rules rb) ka kb a b p (proj1 Hrb) (proj1 (proj2 Hrb)) HM Wm Ha Hb Ec A v H).
Qed.

Lemma combine_outer_sound r L M c fuel rb : rb_ok r L rb -> 2 * M <= L -> wf_map r M (rb_rules rb) -> tame_map c (rb_rules rb) ->
  forall m, incl m (rb_rules rb) -> forall oc, combine_outer fuel rb m = Ret oc ->
  match oc with
  | Some cr => tame_rule c cr /\ wf_rule r (2 * M) cr /\ irreducible (rb_rules rb) (hs_ops (rl_lhs cr)) /\
               rl_trivial cr = false /\ (forall A v, all_hold A v (rb_rules rb) -> holds A v cr)
  | None => forall ka a kb b p, In (ka, a) m -> In (kb, b) (rb_rules rb) -> ka <> kb ->
            combine (rb_pc rb) a b = Ret (Some p) -> pair_ok (rb_rules rb) p
  end.
Proof.
  intros Hrb HM Wm Tm. induction m as [|[ka a] m IH]; intros Hi oc E; cbn [combine_outer] in E.
  - injection E as <-. intros ? ? ? ? ? [].
  - assert (Hi' : incl m (rb_rules rb)) by (intros x Hx; apply Hi; right; exact Hx).
    assert (Ha : In (ka, a) (rb_rules rb)) by (apply Hi; left; reflexivity).
    apply bind_ret in E as (oi & Ei & E).
    pose proof (combine_inner_sound r L M c fuel rb ka a Hrb HM Wm Tm Ha _ (incl_refl _) _ Ei) as Hin.
    destruct oi as [cr|].
    + injection E as <-. exact Hin.
    + specialize (IH Hi' oc E). destruct oc; [exact IH|]. intros ka' a' kb b p [Hx|Hx] Hb Hne Hc.
      * injection Hx as -> ->. apply (Hin kb b p Hb Hne Hc).
      * apply (IH ka' a' kb b p Hx Hb Hne Hc).
Qed.

Lemma combine_outer_terminates r L M rb : rb_ok r L rb -> 2 * M <= L -> wf_map r M (rb_rules rb) ->
  exists n x, forall fuel, n <= fuel -> combine_outer fuel rb (rb_rules rb) = Ret x.
Proof.
  intros Hrb HM Wm.
  assert (In1 : forall ka a, In (ka, a) (rb_rules rb) -> forall m, incl m (rb_rules rb) ->
            exists n x, forall fuel, n <= fuel -> combine_inner fuel rb ka a m = Ret x).
  { intros ka a Ha. induction m as [|[kb b] m IH]; intro Hi; cbn [combine_inner]; [exists 0; eexists; reflexivity|].
    destruct IH as (n & x & Hx); [intros e He; apply Hi; right; exact He|].
    assert (Hb : In (kb, b) (rb_rules rb)) by (apply Hi; left; reflexivity).
    destruct (N.eqb ka kb); [exists n, x; exact Hx|].
    destruct (combine_ok (rb_pc rb) r L M a b (proj1 (proj2 Hrb)) ltac:(lia) (proj2 (proj2 Wm _ _ Ha)) (proj2 (proj2 Wm _ _ Hb))) as (oc & Ec).
    rewrite Ec. cbn [bind]. destruct oc as [p|]; [|exists n, x; exact Hx].
    destruct (combine_shape (rb_pc rb) r L M a b p (proj1 Hrb) (proj1 (proj2 Hrb)) HM (proj2 (proj2 Wm _ _ Ha)) (proj2 (proj2 Wm _ _ Hb)) Ec)
        as (? & ? & ? & _ & _ & _ & _ & W1 & W2 & _).
    destruct (reduce_rule_terminates r L rb p Hrb (wf_seq_mono r (2 * M) L _ HM W1) (wf_seq_mono r (2 * M) L _ HM W2)) as (n2 & cr & Hcr).
    destruct (rl_trivial cr) eqn:Tv.
    - exists (n + n2), x. intros fuel Hf. rewrite (Hcr fuel) by lia. cbn [bind]. rewrite Tv. apply Hx. lia.
    - exists n2. eexists. intros fuel Hf. rewrite (Hcr fuel) by lia. cbn [bind]. rewrite Tv. reflexivity. }
  assert (G : forall m, incl m (rb_rules rb) -> exists n x, forall fuel, n <= fuel -> combine_outer fuel rb m = Ret x).
  { induction m as [|[ka a] m IH]; intro Hi; cbn [combine_outer]; [exists 0; eexists; reflexivity|].
    destruct IH as (n & x & Hx); [intros e He; apply Hi; right; exact He|].
    destruct (In1 ka a (Hi _ (or_introl eq_refl)) _ (incl_refl _)) as (n2 & y & Hy).
    destruct y as [cr|].
    - exists n2. eexists. intros fuel Hf. rewrite (Hy fuel) by lia. cbn [bind]. reflexivity.
    - exists (n + n2), x. intros fuel Hf. rewrite (Hy fuel) by lia. cbn [bind]. apply Hx. lia. }
  apply G, incl_refl.
Qed.

(** insert a derived, irreducible rule and re-reduce *)
Lemma insert_reduce_sound r L M c rb cr fuel y : pc_num (rb_pc rb) = r -> hash_safe r L -> M <= L ->
  wf_map r M (rb_rules rb) -> tame_map c (rb_rules rb) -> tame_rule c cr -> wf_rule r M cr ->
  irreducible (rb_rules rb) (hs_ops (rl_lhs cr)) ->
  reduce_ruleset fuel (with_rules rb (map_insert (hs_hash (rl_lhs cr)) cr (rb_rules rb))) = Ret y ->
  rb_pc (fst y) = rb_pc rb /\ wf_map r M (rb_rules (fst y)) /\ tame_map c (rb_rules (fst y)) /\
  (forall A v, all_hold A v (rb_rules (fst y)) <-> all_hold A v (rb_rules rb) /\ holds A v cr).
Proof.
  intros Hr HL HM Wm Tm Tc Wc Irr E.
  destruct (reduce_ruleset_sound r L M (with_rules rb (map_insert (hs_hash (rl_lhs cr)) cr (rb_rules rb))) c fuel y Hr HL HM (wf_map_insert r M _ _ cr Wm Wc eq_refl) (tame_map_insert c _ _ _ Tm Tc) E)
    as (A1 & A2 & A3 & A4). cbn [with_rules rb_pc rb_rules] in *.
  split; [exact A1|]. split; [exact A2|]. split; [exact A3|]. intros A v. rewrite <- (A4 A v).
  apply (hold_insert_irreducible r L (rb_rules rb) cr HL (wf_map_mono r M L _ HM Wm) (wf_rule_mono r M L _ HM Wc) Irr A v).
Qed.

Lemma try_new_combination_sound r L M c rb fuel y : pc_num (rb_pc rb) = r -> hash_safe r L -> 2 * M <= L ->
  wf_map r M (rb_rules rb) -> tame_map c (rb_rules rb) -> try_new_combination fuel rb = Ret y ->
  rb_pc (fst y) = rb_pc rb /\ tame_map c (rb_rules (fst y)) /\ same_theory (rb_rules rb) (rb_rules (fst y)) /\
  wf_map r (if snd y then 2 * M else M) (rb_rules (fst y)).
Proof.
  intros Hr HL HM Wm Tm E. unfold try_new_combination in E. apply bind_ret in E as (x & E1 & E).
  destruct (reduce_ruleset_sound r L M rb c fuel x Hr HL ltac:(lia) Wm Tm E1) as (A1 & A2 & A3 & A4).
  apply bind_ret in E as (oc & E2 & E). cbn zeta in *.
  assert (Hrb : rb_ok r L (fst x)).
  { split; [rewrite A1; exact Hr|split; [exact HL|apply (wf_map_mono r M L); [lia|exact A2]]]. }
  pose proof (combine_outer_sound r L M c fuel (fst x) Hrb HM A2 A3 _ (incl_refl _) _ E2) as Hout.
  destruct oc as [cr|].
  - apply bind_ret in E as (z & E3 & E). injection E as <-. cbn [fst snd].
    destruct Hout as (B1 & B2 & B3 & B4 & B5).
    destruct (insert_reduce_sound r L (2 * M) c (fst x) cr fuel z (proj1 Hrb) HL HM
                (wf_map_mono r M (2 * M) _ ltac:(lia) A2) A3 B1 B2 B3 E3) as (C1 & C2 & C3 & C4).
    split; [congruence|]. split; [exact C3|]. split; [|exact C2].
    intros A v. rewrite (C4 A v), (A4 A v). split; [|tauto]. intro H. split; [exact H|]. apply B5, H.
  - injection E as <-. cbn [fst snd]. auto.
Qed.

Lemma try_new_combination_terminates r L M c rb : pc_num (rb_pc rb) = r -> hash_safe r L -> 2 * M <= L ->
  wf_map r M (rb_rules rb) -> tame_map c (rb_rules rb) ->
  exists n x, forall fuel, n <= fuel -> try_new_combination fuel rb = Ret x.
Proof.
  intros Hr HL HM Wm Tm.
  destruct (reduce_ruleset_terminates r L M c rb Hr HL ltac:(lia) Wm Tm) as (n1 & x & Hx).
  destruct (reduce_ruleset_sound r L M rb c n1 x Hr HL ltac:(lia) Wm Tm (Hx n1 (le_n _))) as (A1 & A2 & A3 & A4).
  assert (Hrb : rb_ok r L (fst x)).
  { split; [rewrite A1; exact Hr|split; [exact HL|apply (wf_map_mono r M L); [lia|exact A2]]]. }
  destruct (combine_outer_terminates r L M (fst x) Hrb HM A2) as (n2 & oc & Hoc).
  unfold try_new_combination. destruct oc as [cr|].
  - destruct (combine_outer_sound r L M c n2 (fst x) Hrb HM A2 A3 _ (incl_refl _) _ (Hoc n2 (le_n _))) as (B1 & B2 & B3 & B4 & B5).
    destruct (reduce_ruleset_terminates r L (2 * M) c (with_rules (fst x) (map_insert (hs_hash (rl_lhs cr)) cr (rb_rules (fst x)))))
      as (n3 & y & Hy).
    + apply Hrb. + exact HL. + exact HM.
    + apply wf_map_insert; [apply (wf_map_mono r M (2 * M)); [lia|exact A2]|exact B2|reflexivity].
    + apply tame_map_insert; assumption.
    + exists (n1 + n2 + n3). eexists. intros fuel Hf. rewrite (Hx fuel) by lia. cbn [bind]. rewrite (Hoc fuel) by lia.
      cbn [bind]. rewrite (Hy fuel) by lia. reflexivity.
  - exists (n1 + n2). eexists. intros fuel Hf. rewrite (Hx fuel) by lia. cbn [bind]. rewrite (Hoc fuel) by lia. reflexivity.
Qed.

(* ---------------------------------------------------------------- conjugation *)
Lemma conj_op_range pc o : o < pc_num pc -> conj_op pc o < pc_num pc.
Proof.
  unfold conj_op, pc_num, xor1. destruct (pc_mode pc).
  - auto.
  - intro H. apply Nat.mod_upper_bound. lia.
  - intro H. destruct (Nat.even o) eqn:E; [|lia]. apply Nat.even_spec in E as (k & ->). lia.
Qed.
Lemma conj_op_invol pc o : o < pc_num pc -> conj_op pc (conj_op pc o) = o.
Proof.
  unfold conj_op, pc_num, xor1. destruct (pc_mode pc).
  - auto.
  - intro H. destruct (Nat.lt_ge_cases o (pc_raw pc)) as [Hl|Hg].
    + rewrite (Nat.mod_small (o + pc_raw pc)) by lia.
      replace (o + pc_raw pc + pc_raw pc) with (o + 1 * (2 * pc_raw pc)) by lia. rewrite Nat.mod_add by lia. apply Nat.mod_small. lia.
    + replace (o + pc_raw pc) with (o - pc_raw pc + 1 * (2 * pc_raw pc)) by lia. rewrite Nat.mod_add by lia.
      rewrite (Nat.mod_small (o - pc_raw pc)) by lia. replace (o - pc_raw pc + pc_raw pc) with o by lia. apply Nat.mod_small. lia.
  - intro H. destruct (Nat.even o) eqn:E.
    + replace (Nat.even (o + 1)) with false; [lia|]. rewrite Nat.add_1_r, Nat.even_succ, <- Nat.negb_even, E. reflexivity.
    + assert (o <> 0) by (intro C; rewrite C in E; discriminate).
      replace (Nat.even (o - 1)) with true; [lia|].
      replace o with (S (o - 1)) in E by lia. rewrite Nat.even_succ, <- Nat.negb_even in E. destruct (Nat.even (o - 1)); [reflexivity|discriminate].
Qed.
Lemma conj_word_over pc w : over (pc_num pc) w -> over (pc_num pc) (conj_word pc w).
Proof.
  intros H o Hin. unfold conj_word in Hin. apply in_map_iff in Hin as (x & <- & Hx). apply conj_op_range, H, in_rev, Hx.
Qed.
Lemma conj_word_length pc w : length (conj_word pc w) = length w.
Proof. unfold conj_word. rewrite map_length, rev_length. reflexivity. Qed.

Lemma conj_hs_wf pc r M q : pc_num pc = r -> wf_seq r M q -> wf_seq r M (conj_hs pc q).
Proof.
  intros Hr W. unfold conj_hs, hs_zero. destruct (N.eqb_spec (hs_hash q) 0); [apply wf_const|].
  destruct W as [[C _]|(A1 & A2 & A3)]; [contradiction|]. right. cbn. unfold pc_radix. rewrite Hr. split; [reflexivity|].
  rewrite conj_word_length. subst r. split; [apply conj_word_over, A2|exact A3].
Qed.
Lemma conj_hs_tame pc c r M q : pc_num pc = r -> wf_seq r M q -> tame_seq c q -> tame_seq c (conj_hs pc q).
Proof.
  intros Hr W T. unfold conj_hs, hs_zero. destruct (N.eqb_spec (hs_hash q) 0); [left; reflexivity|].
  destruct T as [C|T]; [contradiction|]. right. cbn [hseq_make hs_sign hs_ops]. destruct c.
  - rewrite T. reflexivity.
  - destruct T as [T1 T2]. split; [destruct T1 as [-> | ->]; [left|right]; reflexivity|].
    intro C. apply T2. apply (f_equal (@length nat)) in C. rewrite conj_word_length in C.
    destruct (hs_ops q); [reflexivity|discriminate].
Qed.

Lemma den_conj_word (A : star_algebra) pc v w : star_model A pc v -> over (pc_num pc) w ->
  aeq A (den_word A v (conj_word pc w)) (astar A (den_word A v w)).
Proof.
  intros HS. induction w as [|o w IH]; intro Hw; cbn.
  - apply aeq_sym, astar_one.
  - unfold conj_word. cbn [rev]. rewrite map_app. cbn [map].
    eapply aeq_trans; [apply den_app|]. cbn [den_word].
    eapply aeq_trans; [|apply aeq_sym, astar_mul]. apply amul_cong.
    + apply IH. intros x Hx. apply Hw. right. exact Hx.
    + eapply aeq_trans; [apply amul_one_r|]. apply HS, Hw. left. reflexivity.
Qed.
Lemma den_conj_hs (A : star_algebra) pc v r L M q : pc_num pc = r -> hash_safe r L -> M <= L -> star_model A pc v -> wf_seq r M q ->
  aeq A (den A v (conj_hs pc q)) (astar A (den A v q)).
Proof.
  intros Hr HL HM HS W. unfold conj_hs, hs_zero, den at 2.
  destruct (N.eqb_spec (hs_hash q) 0) as [Z|Z]; [apply aeq_sym, astar_zero|].
  destruct W as [[C _]|(A1 & A2 & A3)]; [contradiction|].
  unfold den. cbn [hseq_make hs_hash hs_sign hs_ops]. unfold pc_radix. rewrite Hr.
  destruct (N.eqb_spec (hash (N.of_nat r) (conj_word pc (hs_ops q))) 0) as [C|_].
  - exfalso. apply (hash_nonzero r L (conj_word pc (hs_ops q)) HL); [subst r; apply conj_word_over, A2|rewrite conj_word_length; lia|exact C].
  - unfold den_signed. eapply aeq_trans; [|apply aeq_sym, astar_ph]. apply aph_cong. apply den_conj_word; [exact HS|subst r; exact A2].
Qed.

Lemma conj_rule_sound pc r L M c rl cr : pc_num pc = r -> hash_safe r L -> M <= L -> wf_rule r M rl -> tame_rule c rl ->
  conj_rule pc rl = Ret cr ->
  wf_seq r M (rl_lhs cr) /\ wf_seq r M (rl_rhs cr) /\ tame_rule c cr /\
  (forall (A : star_algebra) v, star_model A pc v -> (holds A v rl <-> holds A v cr)).
Proof.
  intros Hr HL HM W T E. unfold conj_rule in E.
  pose proof (conj_hs_wf pc r M _ Hr (proj1 W)) as W1. pose proof (conj_hs_wf pc r M _ Hr (proj1 (proj2 W))) as W2.
  pose proof (conj_hs_tame pc c r M _ Hr (proj1 W) (proj1 T)) as T1.
  pose proof (conj_hs_tame pc c r M _ Hr (proj1 (proj2 W)) (proj2 T)) as T2.
  assert (Hs : forall (A : star_algebra) v, star_model A pc v ->
            (holds A v rl <-> aeq A (den A v (conj_hs pc (rl_lhs rl))) (den A v (conj_hs pc (rl_rhs rl))))).
  { intros A v HS. unfold holds.
    pose proof (den_conj_hs A pc v r L M _ Hr HL HM HS (proj1 W)) as D1.
    pose proof (den_conj_hs A pc v r L M _ Hr HL HM HS (proj1 (proj2 W))) as D2. split; intro H.
    - eapply aeq_trans; [exact D1|]. eapply aeq_trans; [apply astar_cong, H|apply aeq_sym, D2].
    - eapply aeq_trans; [apply aeq_sym, astar_invol|]. eapply aeq_trans; [|apply astar_invol]. apply astar_cong.
      eapply aeq_trans; [apply aeq_sym, D1|]. eapply aeq_trans; [exact H|exact D2]. }
  assert (Wset : forall q s, wf_seq r M q -> wf_seq r M (set_sign q s)) by (intros q s Wq; exact Wq).
  destruct (hs_ltb (conj_hs pc (rl_lhs rl)) (conj_hs pc (rl_rhs rl))).
  - pose proof (make_rule_lhs _ _ _ E) as (M1 & M2 & _). rewrite M1, M2.
    split; [apply Wset, W2|]. split; [apply Wset, W1|]. split; [eapply make_rule_tame; [| |exact E]; assumption|].
    intros A v HS. rewrite (Hs A v HS), (make_rule_holds A v _ _ _ E). split; apply aeq_sym.
  - pose proof (make_rule_lhs _ _ _ E) as (M1 & M2 & _). rewrite M1, M2.
    split; [apply Wset, W1|]. split; [apply Wset, W2|]. split; [eapply make_rule_tame; [| |exact E]; assumption|].
    intros A v HS. rewrite (Hs A v HS), (make_rule_holds A v _ _ _ E). tauto.
Qed.

Definition same_star_theory (pc : precontext) (m m' : rulemap) : Prop :=
  forall (A : star_algebra) v, star_model A pc v -> (all_hold A v m <-> all_hold A v m').

Lemma try_conjugation_sound r L M c rb k rl fuel y : pc_num (rb_pc rb) = r -> hash_safe r L -> M <= L ->
  wf_map r M (rb_rules rb) -> tame_map c (rb_rules rb) -> In (k, rl) (rb_rules rb) -> try_conjugation fuel rb rl = Ret y ->
  rb_pc (fst y) = rb_pc rb /\ wf_map r M (rb_rules (fst y)) /\ tame_map c (rb_rules (fst y)) /\
  same_star_theory (rb_pc rb) (rb_rules rb) (rb_rules (fst y)).
Proof.
  intros Hr HL HM Wm Tm Hin E. unfold try_conjugation in E.
  apply bind_ret in E as (cj & E1 & E). apply bind_ret in E as (cr & E2 & E).
  destruct (conj_rule_sound (rb_pc rb) r L M c rl cj Hr HL HM (proj2 (proj2 Wm _ _ Hin)) (Tm _ _ Hin) E1) as (A1 & A2 & A3 & A4).
  assert (Hrb : rb_ok r L rb).
  { split; [exact Hr|split; [exact HL|apply (wf_map_mono r M L); assumption]]. }
  destruct (reduce_rule_post r L M rb c cj fuel cr Hrb HM Tm A1 A2 A3 E2) as (P1 & P2 & P3 & P4).
  destruct (rl_trivial cr) eqn:Tv.
  - injection E as <-. cbn [fst]. split; [reflexivity|]. split; [exact Wm|]. split; [exact Tm|]. intros A v _. tauto.
  - apply bind_ret in E as (z & E3 & E). injection E as <-. cbn [fst]. destruct (P4 eq_refl) as [P5 P6].
    destruct (insert_reduce_sound r L M c rb cr fuel z Hr HL HM Wm Tm P1 P5 P6 E3) as (C1 & C2 & C3 & C4).
    split; [exact C1|]. split; [exact C2|]. split; [exact C3|]. intros A v HS. rewrite (C4 A v). split; [|tauto].
    intro H. split; [exact H|]. apply (P2 A v H), (A4 A v HS), (H _ _ Hin).
Qed.

Lemma conjugate_ruleset_sound r L M c : hash_safe r L -> M <= L -> forall turns fuel rb i added y,
  pc_num (rb_pc rb) = r -> wf_map r M (rb_rules rb) -> tame_map c (rb_rules rb) ->
  conjugate_ruleset_loop turns fuel rb i added = Ret y ->
  rb_pc (fst y) = rb_pc rb /\ wf_map r M (rb_rules (fst y)) /\ tame_map c (rb_rules (fst y)) /\
  same_star_theory (rb_pc rb) (rb_rules rb) (rb_rules (fst y)).
Proof.
  intros HL HM. induction turns as [|t IH]; intros fuel rb i added y Hr Wm Tm E; cbn [conjugate_ruleset_loop] in E;
    destruct (nth_error (rb_rules rb) i) as [[k rl]|] eqn:En; try discriminate;
    try (injection E as <-; cbn [fst]; split; [reflexivity|]; split; [exact Wm|]; split; [exact Tm|]; intros A v _; tauto).
  apply nth_error_In in En. apply bind_ret in E as (x & E1 & E).
  destruct (try_conjugation_sound r L M c rb k rl fuel x Hr HL HM Wm Tm En E1) as (A1 & A2 & A3 & A4).
  assert (G : forall i' added', conjugate_ruleset_loop t fuel (fst x) i' added' = Ret y ->
    rb_pc (fst y) = rb_pc rb /\ wf_map r M (rb_rules (fst y)) /\ tame_map c (rb_rules (fst y)) /\
    same_star_theory (rb_pc rb) (rb_rules rb) (rb_rules (fst y))).
  { intros i' added' E'. destruct (IH fuel (fst x) i' added' y ltac:(congruence) A2 A3 E') as (B1 & B2 & B3 & B4).
    split; [congruence|]. split; [exact B2|]. split; [exact B3|]. intros A v HS. rewrite (A4 A v HS). apply B4. rewrite A1. exact HS. }
  destruct (snd x).
  - destruct (rb_rules (fst x)); [discriminate|]. apply (G _ _ E).
  - apply (G _ _ E).
Qed.

(* ---------------------------------------------------------------- completion *)
(** every state the completion loop passes through within [n] iterations has left sides of length at most [M] *)
Definition kb_bounded (M n fuel : nat) (rb : rulebook) : Prop :=
  forall j rb' b, j <= n -> kb_loop j fuel rb = Ret (rb', b) -> max_lhs M (rb_rules rb').

Lemma wf_map_max_lhs r L M m : hash_safe r L -> wf_map r L m -> max_lhs M m -> wf_map r M m.
Proof.
  intros HL [Hs Hm] Hx. split; [exact Hs|]. intros k rl Hin. destruct (Hm _ _ Hin) as [E W]. split; [exact E|].
  specialize (Hx _ _ Hin). pose proof (wf_rhs_shortlex r L rl HL W) as Hsl. destruct W as (W1 & W2 & W3 & W4 & W5).
  split; [|split; [|split; [exact W3|split; [exact W4|exact W5]]]].
  - destruct W1 as [W1|(A1 & A2 & A3)]; [left; exact W1|right]. auto.
  - destruct W2 as [W2|(A1 & A2 & A3)]; [left; exact W2|].
    destruct (N.eq_dec (hs_hash (rl_rhs rl)) 0) as [Z|Z].
    + exfalso. apply (hash_nonzero r L _ HL A2 A3). congruence.
    + right. split; [exact A1|]. split; [exact A2|]. specialize (Hsl Z). apply shortlex_length in Hsl. lia.
Qed.

Lemma kb_loop_sound r L M c : hash_safe r L -> 2 * M <= L -> forall n fuel rb y,
  pc_num (rb_pc rb) = r -> wf_map r M (rb_rules rb) -> tame_map c (rb_rules rb) -> kb_bounded M n fuel rb ->
  kb_loop n fuel rb = Ret y ->
  rb_pc (fst y) = rb_pc rb /\ wf_map r M (rb_rules (fst y)) /\ tame_map c (rb_rules (fst y)) /\
  same_theory (rb_rules rb) (rb_rules (fst y)).
Proof.
  intros HL HM. induction n as [|n IH]; intros fuel rb y Hr Wm Tm HB E; cbn [kb_loop] in E.
  - injection E as <-. cbn [fst]. split; [reflexivity|]. split; [exact Wm|]. split; [exact Tm|]. intros A v; tauto.
  - apply bind_ret in E as (x & E1 & E).
    destruct (try_new_combination_sound r L M c rb fuel x Hr HL HM Wm Tm E1) as (A1 & A2 & A3 & A4).
    assert (W' : wf_map r M (rb_rules (fst x))).
    { destruct (snd x) eqn:Es; [|exact A4]. apply (wf_map_max_lhs r L); [exact HL| |].
      - apply (wf_map_mono r (2 * M) L); assumption.
      - apply (HB 1 (fst x) false); [lia|]. cbn [kb_loop]. rewrite E1. cbn [bind]. rewrite Es. reflexivity. }
    destruct (snd x) eqn:Es.
    + destruct (IH fuel (fst x) y ltac:(congruence) W' A2) as (B1 & B2 & B3 & B4).
      * intros j rb' b Hj Ej. apply (HB (S j) rb' b); [lia|]. cbn [kb_loop]. rewrite E1. cbn [bind]. rewrite Es. exact Ej.
      * exact E.
      * split; [congruence|]. split; [exact B2|]. split; [exact B3|]. intros A v. rewrite (A3 A v). apply B4.
    + injection E as <-. cbn [fst]. auto.
Qed.

Lemma complete_sound r L M c turns fuel rb max_it y : hash_safe r L -> 2 * M <= L ->
  pc_num (rb_pc rb) = r -> wf_map r M (rb_rules rb) -> tame_map c (rb_rules rb) ->
  (forall rb1 k, conjugate_ruleset_loop turns fuel rb 0 0 = Ret (rb1, k) -> kb_bounded M max_it fuel rb1) ->
  complete turns fuel rb max_it = Ret y ->
  rb_pc (fst y) = rb_pc rb /\ wf_map r M (rb_rules (fst y)) /\ tame_map c (rb_rules (fst y)) /\
  same_star_theory (rb_pc rb) (rb_rules rb) (rb_rules (fst y)).
Proof.
  intros HL HM Hr Wm Tm HB E. unfold complete in E.
  assert (R0 : rb_pc rb = rb_pc rb /\ wf_map r M (rb_rules rb) /\ tame_map c (rb_rules rb) /\
               same_star_theory (rb_pc rb) (rb_rules rb) (rb_rules rb)).
  { split; [reflexivity|]. split; [exact Wm|]. split; [exact Tm|]. intros A v _. tauto. }
  apply bind_ret in E as (x & E1 & E).
  assert (Hx : rb_pc (fst x) = rb_pc rb /\ wf_map r M (rb_rules (fst x)) /\ tame_map c (rb_rules (fst x)) /\
               same_star_theory (rb_pc rb) (rb_rules rb) (rb_rules (fst x)) /\
               (snd x = None \/ kb_bounded M max_it fuel (fst x))).
  { destruct max_it as [|mi].
    - apply bind_ret in E1 as (b & _ & E1). injection E1 as <-. cbn [fst snd]. destruct R0 as (? & ? & ? & ?).
      do 4 (split; [assumption|]). right. intros j rb' b' Hj Ej. assert (j = 0) by lia. subst j. cbn in Ej.
      injection Ej as <- _. intros k rl Hin. apply (wf_lhs r M rl), (proj2 Wm _ _ Hin).
    - apply bind_ret in E1 as ([rb1 k] & E1 & E1'). injection E1' as <-. cbn [fst snd].
      destruct (conjugate_ruleset_sound r L M c HL ltac:(lia) turns fuel rb 0 0 _ Hr Wm Tm E1) as (A1 & A2 & A3 & A4). cbn [fst] in *.
      do 4 (split; [assumption|]). right. apply (HB _ _ E1). }
  destruct Hx as (A1 & A2 & A3 & A4 & A5). destruct (snd x) as [it|] eqn:Es.
  2:{ injection E as <-. cbn [fst]. exact R0. }
  destruct A5 as [A5|A5]; [discriminate|].
  apply bind_ret in E as (z & E2 & E).
  destruct (kb_loop_sound r L M c HL HM (max_it - it) fuel (fst x) z ltac:(congruence) A2 A3) as (B1 & B2 & B3 & B4).
  { intros j rb' b Hj Ej. apply (A5 j rb' b); [lia|exact Ej]. }
  { exact E2. }
  assert (Hf : rb_pc (recalculate (fst z)) = rb_pc rb /\ wf_map r M (rb_rules (recalculate (fst z))) /\
               tame_map c (rb_rules (recalculate (fst z))) /\ same_star_theory (rb_pc rb) (rb_rules rb) (rb_rules (recalculate (fst z)))).
  { cbn [recalculate rb_pc rb_rules]. split; [congruence|]. split; [exact B2|]. split; [exact B3|].
    intros A v HS. rewrite (A4 A v HS). apply B4. }
  destruct (snd z).
  - injection E as <-. exact Hf.
  - apply bind_ret in E as (b & _ & E). injection E as <-. exact Hf.
Qed.
