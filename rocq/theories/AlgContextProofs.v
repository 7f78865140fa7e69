(** Contexts: canonical forms, products, conjugates, construction. *)
From Coq Require Import List ZArith NArith Arith Bool Sorted Permutation Lia.
From Coq Require Import ZifyBool ZifyNat ZifyN.
From Verif Require Import CoreModel CoreSpec CoreProofs AlgModel AlgSpec AlgProofs AlgTheoryProofs AlgCompleteProofs AlgConfluenceProofs AlgNormalProofs.
Import ListNotations.

(* ---------------------------------------------------------------- reduce_in_place *)
Lemma irreducible_nil m : irreducible m [].
Proof.
  intros k rl _ Hne (a & b & C). destruct a; [|discriminate]. destruct (hs_ops (rl_lhs rl)); [contradiction|discriminate].
Qed.

Lemma reduce_in_place_post r L rb fuel w s x : rb_ok r L rb -> over r w -> length w <= L ->
  reduce_in_place fuel rb w s = Ret x -> red_post (rb_rules rb) w s x.
Proof.
  intros (Hr & HL & Hm) Hw Lw E. unfold reduce_in_place in E. destruct w as [|o w].
  { injection E as <-. cbn. auto using irreducible_nil. }
  destruct (rb_rules rb) as [|e m0] eqn:Em.
  { injection E as <-. cbn. repeat split. intros k rl []. }
  rewrite <- Em in *. clear e m0 Em. destruct (use_iteration rb (length (o :: w))).
  - pose proof (reduce_loop_post r L _ _ true HL Hm (iterate_match_ok r L _) _ _ _ _ _ Hw Lw E) as P.
    destruct x as [[[| |] w'] s']; cbn [red_post]; tauto.
  - unfold reduce_via_search, pc_radix in E. rewrite Hr in E.
    pose proof (reduce_loop_post r L _ _ false HL Hm (search_match_ok r L _ HL Hm) _ _ _ _ _ Hw Lw E) as P.
    destruct x as [[[| |] w'] s']; cbn [red_post]; tauto.
Qed.

Lemma reduce_in_place_terminates r L rb w s : rb_ok r L rb -> over r w -> length w <= L ->
  exists n x, forall fuel, n <= fuel -> reduce_in_place fuel rb w s = Ret x.
Proof.
  intros (Hr & HL & Hm) Hw Lw. unfold reduce_in_place. destruct w as [|o w]; [exists 0; eexists; reflexivity|].
  destruct (rb_rules rb) as [|e m0] eqn:Em; [exists 0; eexists; reflexivity|].
  rewrite <- Em in *. clear e m0 Em. destruct (use_iteration rb (length (o :: w))).
  - destruct (reduce_loop_terminates r L _ _ true HL Hm (iterate_match_ok r L _) _ Hw Lw) as (n & Hn).
    destruct (Hn n (le_n n) s false) as (x & Hx). exists n, x. intros fuel Hf. eapply reduce_loop_mono; eassumption.
  - unfold reduce_via_search, pc_radix. rewrite Hr.
    destruct (reduce_loop_terminates r L _ _ false HL Hm (search_match_ok r L _ HL Hm) _ Hw Lw) as (n & Hn).
    destruct (Hn n (le_n n) s false) as (x & Hx). exists n, x. intros fuel Hf. eapply reduce_loop_mono; eassumption.
Qed.

Lemma reduce_in_place_irreducible r L rb fuel w s : rb_ok r L rb -> over r w -> length w <= L ->
  irreducible (rb_rules rb) w -> (forall k rl, In (k, rl) (rb_rules rb) -> hs_ops (rl_lhs rl) <> []) ->
  reduce_in_place fuel rb w s = Ret (NoMatch, w, s).
Proof.
  intros (Hr & HL & Hm) Hw Lw Hirr Hne. unfold reduce_in_place. destruct w as [|o w]; [reflexivity|].
  destruct (rb_rules rb) as [|e m0] eqn:Em; [reflexivity|]. rewrite <- Em in *. clear e m0 Em.
  assert (G : forall find reset, step_ok r L (rb_rules rb) find -> reduce_loop fuel find reset (o :: w) s false = Ret (NoMatch, o :: w, s)).
  { intros find reset Hf. pose proof (Hf _ Hw Lw) as S. destruct fuel; cbn [reduce_loop];
      destruct (find (o :: w)) as [[rl pos]|]; try reflexivity; destruct S as (k & a & b & Hin & E & _);
      exfalso; apply (Hirr k rl Hin (Hne k rl Hin)); exists a, b; exact E. }
  destruct (use_iteration rb (length (o :: w))); apply G.
  - apply iterate_match_ok.
  - unfold pc_radix. rewrite Hr. apply search_match_ok; assumption.
Qed.

(* ---------------------------------------------------------------- sorting *)
Lemma insert_sorted_perm x l : Permutation (x :: l) (insert_sorted x l).
Proof.
  induction l as [|y l IH]; cbn [insert_sorted]; [reflexivity|]. destruct (Nat.leb x y); [reflexivity|].
  transitivity (y :: x :: l); [constructor|]. constructor. exact IH.
Qed.
Lemma sort_word_perm w : Permutation w (sort_word w).
Proof.
  unfold sort_word. induction w as [|x w IH]; cbn [fold_right]; [reflexivity|].
  transitivity (x :: fold_right insert_sorted [] w); [constructor; exact IH|apply insert_sorted_perm].
Qed.
Lemma insert_sorted_sorted x l : Sorted le l -> Sorted le (insert_sorted x l).
Proof.
  intro H. induction H as [|y l H IH Hd]; cbn [insert_sorted]; [repeat constructor|].
  destruct (Nat.leb_spec x y) as [Hle|Hlt]; [repeat constructor; assumption|].
  constructor; [exact IH|]. destruct l as [|z l]; cbn [insert_sorted]; [constructor; lia|].
  destruct (Nat.leb_spec x z); constructor; [lia|]. inversion Hd; assumption.
Qed.
Lemma sort_word_sorted w : Sorted le (sort_word w).
Proof. unfold sort_word. induction w as [|x w IH]; cbn [fold_right]; [constructor|apply insert_sorted_sorted, IH]. Qed.
Lemma sort_word_id w : Sorted le w -> sort_word w = w.
Proof.
  unfold sort_word. intro H. induction H as [|x l H IH Hd]; cbn [fold_right]; [reflexivity|]. rewrite IH.
  destruct l as [|y l]; cbn [insert_sorted]; [reflexivity|]. inversion Hd as [|? ? Hxy]; subst.
  destruct (Nat.leb_spec x y); [reflexivity|lia].
Qed.
Lemma den_perm (A : algebra) v r u w : letters_commute A v r -> Permutation u w -> over r u ->
  aeq A (den_word A v u) (den_word A v w).
Proof.
  intros HC P. induction P as [|x u w P IH|x y u|u w z P1 IH1 P2 IH2]; intro Ho; cbn [den_word].
  - apply aeq_refl.
  - apply amul_cong; [apply aeq_refl|]. apply IH. intros o H. apply Ho. right. exact H.
  - eapply aeq_trans; [apply amul_assoc|]. eapply aeq_trans; [|apply aeq_sym, amul_assoc].
    apply amul_cong; [|apply aeq_refl]. apply HC; apply Ho; [left; reflexivity|right; left; reflexivity].
  - eapply aeq_trans; [apply IH1, Ho|]. apply IH2. intros o H. apply Ho. apply (Permutation_in _ (Permutation_sym P1) H).
Qed.

(* ---------------------------------------------------------------- canonical_form *)
Definition pre_sort (ctx : acontext) (w : word) : word := if ac_commutative ctx then sort_word w else w.

Lemma pre_sort_bound ctx r w : over r w -> over r (pre_sort ctx w) /\ length (pre_sort ctx w) = length w.
Proof.
  intro H. unfold pre_sort. destruct (ac_commutative ctx); [|auto]. split.
  - intros o Ho. apply H. apply (Permutation_in _ (Permutation_sym (sort_word_perm w)) Ho).
  - symmetry. apply Permutation_length, sort_word_perm.
Qed.

Lemma context_rb_ok L ctx : context_ok L ctx -> rb_ok (pc_num (rb_pc (ac_rules ctx))) L (ac_rules ctx).
Proof. intros [H1 H2]. split; [reflexivity|split; assumption]. Qed.

Lemma canonical_form_post L ctx fuel w s q : context_ok L ctx -> over (pc_num (rb_pc (ac_rules ctx))) w -> length w <= L ->
  canonical_form fuel ctx w s = Ret q ->
  wf_seq (pc_num (rb_pc (ac_rules ctx))) L q /\
  length (hs_ops q) <= length w /\
  rewrites_star (rb_rules (ac_rules ctx)) (Some (s, pre_sort ctx w)) (term_of q) /\
  irreducible (rb_rules (ac_rules ctx)) (hs_ops q) /\
  (hs_hash q = 0%N -> q = hseq_const true).
Proof.
  intros Hc Hw Lw E. pose proof (context_rb_ok L ctx Hc) as Hrb. set (r := pc_num (rb_pc (ac_rules ctx))) in *.
  destruct (pre_sort_bound ctx r w Hw) as [Hw' Lw'].
  unfold canonical_form in E. fold (pre_sort ctx w) in E. apply bind_ret in E as (x & E1 & E).
  pose proof (reduce_in_place_post r L (ac_rules ctx) fuel _ s x Hrb Hw' ltac:(lia) E1) as P.
  assert (G : forall s' w', over r w' -> length w' <= length w -> irreducible (rb_rules (ac_rules ctx)) w' ->
            rewrites_star (rb_rules (ac_rules ctx)) (Some (s, pre_sort ctx w)) (Some (s', w')) ->
            hseq_make (pc_radix (rb_pc (ac_rules ctx))) w' s' = q -> 
            wf_seq r L q /\ length (hs_ops q) <= length w /\
            rewrites_star (rb_rules (ac_rules ctx)) (Some (s, pre_sort ctx w)) (term_of q) /\
            irreducible (rb_rules (ac_rules ctx)) (hs_ops q) /\ (hs_hash q = 0%N -> q = hseq_const true)).
  { intros s' w' A1 A2 A3 A4 <-. unfold pc_radix. fold r. rewrite (term_of_make r L) by (try apply Hrb; auto; lia).
    cbn [hseq_make hs_ops hs_hash]. split; [right; cbn; repeat split; [exact A1|lia]|].
    split; [exact A2|]. split; [exact A4|]. split; [exact A3|]. intro C. exfalso.
    refine (hash_nonzero r L w' _ A1 _ C); [apply Hrb|lia]. }
  destruct x as [[[| |] w'] s']; cbn [red_post] in P; injection E as E.
  - destruct P as (-> & -> & P). apply (G s (pre_sort ctx w)); auto; [lia|constructor].
  - destruct P as [P1 P2].
    pose proof (rws_bound r L _ _ _ ltac:(apply Hrb) ltac:(apply Hrb) P1 (length w) (conj Hw' (eq_ind_r (fun n => n <= length w) (le_n _) Lw'))) as [B1 B2].
    apply (G s' w'); auto.
  - subst q. split; [apply wf_const|]. split; [cbn; lia|]. split; [exact P|]. split; [apply irreducible_nil|reflexivity].
Qed.

Lemma canonical_form_terminates L ctx w s : context_ok L ctx -> over (pc_num (rb_pc (ac_rules ctx))) w -> length w <= L ->
  exists n q, forall fuel, n <= fuel -> canonical_form fuel ctx w s = Ret q.
Proof.
  intros Hc Hw Lw. pose proof (context_rb_ok L ctx Hc) as Hrb.
  destruct (pre_sort_bound ctx _ w Hw) as [Hw' Lw'].
  destruct (reduce_in_place_terminates _ L (ac_rules ctx) _ s Hrb Hw' ltac:(lia)) as (n & x & Hx).
  exists n, (match x with (SetToZero, _, _) => hseq_const true | (_, w', s') => hseq_make (pc_radix (rb_pc (ac_rules ctx))) w' s' end).
  intros fuel Hf. unfold canonical_form. fold (pre_sort ctx w). rewrite (Hx fuel Hf). cbn [bind].
  destruct x as [[[| |] w'] s']; reflexivity.
Qed.

Lemma canonical_form_sound L ctx fuel w s q : context_ok L ctx -> over (pc_num (rb_pc (ac_rules ctx))) w -> length w <= L ->
  canonical_form fuel ctx w s = Ret q -> forall A v, context_model A v ctx -> aeq A (den A v q) (den_signed A v s w).
Proof.
  intros Hc Hw Lw E A v [HA HC]. destruct (canonical_form_post L ctx fuel w s q Hc Hw Lw E) as (_ & _ & R & _).
  pose proof (rws_sound A v _ L _ _ _ (proj1 Hc) (proj2 Hc) HA R) as S. cbn [den_term] in S.
  rewrite (den_term_of A v). eapply aeq_trans; [apply aeq_sym, S|]. unfold den_signed. apply aph_cong.
  unfold pre_sort. destruct (ac_commutative ctx) eqn:Ec; [|apply aeq_refl].
  apply aeq_sym, (den_perm A v (pc_num (rb_pc (ac_rules ctx)))); [apply HC; reflexivity|apply sort_word_perm|exact Hw].
Qed.

Lemma irreducible_sorted r m w : (forall a b, a < b -> b < r ->
    exists k rl, In (k, rl) m /\ hs_ops (rl_lhs rl) <> [] /\ occurs (hs_ops (rl_lhs rl)) [b; a]) ->
  over r w -> irreducible m w -> Sorted le w.
Proof.
  intros HS. induction w as [|b w IH]; intros Hw Hirr; [constructor|].
  assert (Hirr' : irreducible m w).
  { intros k rl Hin Hne (p & q & E). apply (Hirr k rl Hin Hne). exists (b :: p), q. rewrite E. reflexivity. }
  constructor; [apply IH; [intros o H; apply Hw; right; exact H|exact Hirr']|].
  destruct w as [|a w]; [constructor|]. constructor.
  destruct (Nat.le_gt_cases b a) as [H|H]; [exact H|]. exfalso.
  destruct (HS a b H (Hw b (or_introl eq_refl))) as (k & rl & Hin & Hne & (p & q & E)).
  apply (Hirr k rl Hin Hne). exists p, (q ++ w). change (b :: a :: w) with ([b; a] ++ w). rewrite E, <- !app_assoc. reflexivity.
Qed.

Lemma canonical_form_idempotent L ctx fuel fuel' w s q : context_ok L ctx -> over (pc_num (rb_pc (ac_rules ctx))) w -> length w <= L ->
  (forall k rl, In (k, rl) (rb_rules (ac_rules ctx)) -> hs_ops (rl_lhs rl) <> []) -> sorts_pairs ctx ->
  canonical_form fuel ctx w s = Ret q -> hs_hash q <> 0%N ->
  canonical_form fuel' ctx (hs_ops q) (hs_sign q) = Ret q.
Proof.
  intros Hc Hw Lw Hne HS E Hz. destruct (canonical_form_post L ctx fuel w s q Hc Hw Lw E) as (W & Lq & _ & Hirr & _).
  destruct W as [[C _]|(W1 & W2 & W3)]; [contradiction|].
  assert (Es : pre_sort ctx (hs_ops q) = hs_ops q).
  { unfold pre_sort. destruct (ac_commutative ctx) eqn:Ec; [|reflexivity]. apply sort_word_id.
    apply (irreducible_sorted (pc_num (rb_pc (ac_rules ctx))) (rb_rules (ac_rules ctx))); [apply HS, Ec|exact W2|exact Hirr]. }
  unfold canonical_form. fold (pre_sort ctx (hs_ops q)). rewrite Es.
  rewrite (reduce_in_place_irreducible _ L _ fuel' _ _ (context_rb_ok L ctx Hc) W2 W3 Hirr Hne). cbn [bind].
  unfold pc_radix. unfold hseq_make. rewrite <- W1. destruct q; reflexivity.
Qed.

(* ---------------------------------------------------------------- products *)
Lemma multiply_sound L ctx fuel a b q : context_ok L ctx ->
  wf_seq (pc_num (rb_pc (ac_rules ctx))) L a -> wf_seq (pc_num (rb_pc (ac_rules ctx))) L b -> length (hs_ops a ++ hs_ops b) <= L ->
  multiply fuel ctx a b = Ret q ->
  forall A v, context_model A v ctx -> aeq A (den A v q) (amul A (den A v a) (den A v b)).
Proof.
  intros Hc Wa Wb Hl E A v HM. unfold multiply, hs_zero in E. unfold den at 2 3.
  destruct (N.eqb_spec (hs_hash a) 0) as [Za|Za].
  { injection E as <-. cbn [orb]. unfold den. cbn. apply aeq_sym, amul_zero_l. }
  destruct (N.eqb_spec (hs_hash b) 0) as [Zb|Zb].
  { injection E as <-. cbn [orb]. unfold den. cbn. apply aeq_sym, amul_zero_r. }
  cbn [orb] in E. destruct Wa as [[C _]|(A1 & A2 & A3)]; [contradiction|]. destruct Wb as [[C _]|(B1 & B2 & B3)]; [contradiction|].
  pose proof (canonical_form_sound L ctx fuel _ _ q Hc (proj2 (over_app _ _ _) (conj A2 B2)) Hl E A v HM) as S.
  eapply aeq_trans; [exact S|]. clear S. unfold den_signed. eapply aeq_trans; [apply aph_cong, den_app|].
  eapply aeq_trans; [|apply aeq_sym, aph_mul_l]. eapply aeq_trans; [|apply aph_cong, aeq_sym, aph_mul_r].
  apply aeq_sym, aph_mul.
Qed.

(* ---------------------------------------------------------------- conjugation *)
Lemma conj_word_selfadjoint pc w : pc_mode pc = SelfAdjoint -> conj_word pc w = rev w.
Proof. intro H. unfold conj_word, conj_op. rewrite H. apply map_id. Qed.

Definition conj_keeps_phase (ctx : acontext) (q : hseq) : Prop :=
  pc_mode (rb_pc (ac_rules ctx)) = SelfAdjoint \/ hs_sign q = SPos.

Lemma conjugate_as_form ctx fuel q : hs_hash q <> 0%N -> conj_keeps_phase ctx q ->
  conjugate fuel ctx q = canonical_form fuel ctx (conj_word (rb_pc (ac_rules ctx)) (hs_ops q)) (sconj (hs_sign q)).
Proof.
  intros Hz Hk. unfold conjugate, hs_zero. destruct (N.eqb_spec (hs_hash q) 0); [contradiction|].
  destruct (pc_mode (rb_pc (ac_rules ctx))) eqn:Em.
  - rewrite conj_word_selfadjoint by exact Em. reflexivity.
  - destruct Hk as [C|Hk]; [congruence|]. rewrite Hk. reflexivity.
  - destruct Hk as [C|Hk]; [congruence|]. rewrite Hk. reflexivity.
Qed.

Lemma conjugate_sound L ctx fuel q c : context_ok L ctx -> wf_seq (pc_num (rb_pc (ac_rules ctx))) L q -> conj_keeps_phase ctx q ->
  conjugate fuel ctx q = Ret c ->
  forall (A : star_algebra) v, star_model A (rb_pc (ac_rules ctx)) v -> context_model A v ctx ->
  aeq A (den A v c) (astar A (den A v q)).
Proof.
  intros Hc W Hk E A v HS HM. unfold den at 2. destruct (N.eqb_spec (hs_hash q) 0) as [Z|Z].
  { unfold conjugate, hs_zero in E. rewrite Z in E. injection E as <-. unfold den. cbn. apply aeq_sym, astar_zero. }
  rewrite (conjugate_as_form ctx fuel q Z Hk) in E. destruct W as [[C _]|(W1 & W2 & W3)]; [contradiction|].
  assert (W3' : length (conj_word (rb_pc (ac_rules ctx)) (hs_ops q)) <= L) by (rewrite conj_word_length; exact W3).
  pose proof (canonical_form_sound L ctx fuel _ _ c Hc (conj_word_over _ _ W2) W3' E A v HM) as S.
  eapply aeq_trans; [exact S|]. clear S.
  unfold den_signed. eapply aeq_trans; [|apply aeq_sym, astar_ph]. apply aph_cong, den_conj_word; assumption.
Qed.

(** without the restriction, the phase is lost but the operators are still those of the conjugate *)
Lemma conjugate_up_to_phase L ctx fuel q c : context_ok L ctx -> wf_seq (pc_num (rb_pc (ac_rules ctx))) L q -> 
  conjugate fuel ctx q = Ret c ->
  forall (A : star_algebra) v, star_model A (rb_pc (ac_rules ctx)) v -> context_model A v ctx ->
  exists s, aeq A (aph A s (den A v c)) (astar A (den A v q)).
Proof.
  intros Hc W E A v HS HM. destruct (N.eq_dec (hs_hash q) 0) as [Z|Z].
  { exists SPos. eapply aeq_trans; [apply aph_pos|]. unfold conjugate, hs_zero in E. rewrite Z in E. injection E as <-.
    unfold den. rewrite Z. cbn. apply aeq_sym, astar_zero. }
  destruct W as [[C _]|(W1 & W2 & W3)]; [contradiction|].
  assert (G : exists s, canonical_form fuel ctx (conj_word (rb_pc (ac_rules ctx)) (hs_ops q)) s = Ret c).
  { unfold conjugate, hs_zero in E. destruct (N.eqb_spec (hs_hash q) 0); [contradiction|].
    destruct (pc_mode (rb_pc (ac_rules ctx))) eqn:Em; [|eexists; exact E|eexists; exact E].
    rewrite conj_word_selfadjoint by exact Em. eexists; exact E. }
  destruct G as (s & G). exists (smul (sconj (hs_sign q)) (sconj s)).
  assert (W3' : length (conj_word (rb_pc (ac_rules ctx)) (hs_ops q)) <= L) by (rewrite conj_word_length; exact W3).
  pose proof (canonical_form_sound L ctx fuel _ _ c Hc (conj_word_over _ _ W2) W3' G A v HM) as S.
  eapply aeq_trans; [apply aph_cong, S|]. clear S.
  unfold den. destruct (N.eqb_spec (hs_hash q) 0); [contradiction|]. unfold den_signed.
  eapply aeq_trans; [apply aph_mul|]. eapply aeq_trans; [|apply aeq_sym, astar_ph].
  replace (smul (smul (sconj (hs_sign q)) (sconj s)) s) with (sconj (hs_sign q)) by (destruct s, (hs_sign q); reflexivity).
  apply aph_cong, den_conj_word; assumption.
Qed.

(* ---------------------------------------------------------------- can_reduce / get_if_canonical *)
Lemma can_reduce_spec r L rb w : rb_ok r L rb -> over r w -> length w <= L ->
  (forall k rl, In (k, rl) (rb_rules rb) -> hs_ops (rl_lhs rl) <> []) ->
  (can_reduce rb w = false <-> irreducible (rb_rules rb) w).
Proof.
  intros (Hr & HL & Hm) Hw Lw Hne. unfold can_reduce. destruct w as [|o w]; [split; [intros _; apply irreducible_nil|reflexivity]|].
  destruct (rb_rules rb) as [|e m0] eqn:Em; [split; [intros _ k rl []|reflexivity]|]. rewrite <- Em in *.
  destruct (use_iteration rb (length (o :: w))).
  - split.
    + intros H k rl Hin Hn Ho. destruct (matches_anywhere (hs_ops (rl_lhs rl)) (o :: w)) as [i|] eqn:E.
      * rewrite Em in Hin. assert (T : existsb (fun kr => match matches_anywhere (hs_ops (rl_lhs (snd kr))) (o :: w) with Some _ => true | None => false end) (e :: m0) = true).
        { apply existsb_exists. exists (k, rl). split; [exact Hin|]. cbn [snd]. rewrite E. reflexivity. }
        rewrite Em in H. congruence.
      * apply (matches_anywhere_none _ Hn _ E Ho).
    + intro H. rewrite Em. destruct (existsb _ (e :: m0)) eqn:E; [|reflexivity]. exfalso. apply existsb_exists in E as ([k rl] & Hin & E).
      cbn [snd] in E. destruct (matches_anywhere (hs_ops (rl_lhs rl)) (o :: w)) as [i|] eqn:E2; [|discriminate].
      apply matches_anywhere_some in E2 as (_ & a & b & E2 & _). rewrite <- Em in Hin. apply (H k rl Hin (Hne k rl Hin)). exists a, b. exact E2.
  - unfold pc_radix. rewrite Hr. pose proof (search_match_ok r L _ HL Hm _ Hw Lw) as S. rewrite Em in *.
    destruct (search_match (N.of_nat r) (e :: m0) (o :: w)) as [[rl i]|].
    + split; [discriminate|]. intro H. exfalso. destruct S as (k & a & b & Hin & E & _).
      apply (H k rl Hin (Hne k rl Hin)). exists a, b. exact E.
    + split; auto.
Qed.

(* ---------------------------------------------------------------- construction *)
Lemma do_add_rule_usable r L fuel m rl x : hash_safe r L -> wf_map r L m -> usable_rule r L rl -> do_add_rule fuel m rl = Ret x ->
  wf_map r L (fst x) /\ (forall A v, all_hold A v (fst x) <-> all_hold A v m /\ holds A v rl).
Proof.
  intros HL Wm [W|[T H]] E; [apply (do_add_rule_sound r L HL fuel m rl x Wm W E)|].
  destruct fuel; cbn [do_add_rule] in E; [discriminate|]. rewrite T in E. injection E as <-. cbn [fst].
  split; [exact Wm|]. intros A v. split; [intro G; split; [exact G|apply H]|tauto].
Qed.

Lemma add_rules_loop_sound r L : hash_safe r L -> forall rules fuel m n x, wf_map r L m -> Forall (usable_rule r L) rules ->
  add_rules_loop fuel m rules n = Ret x ->
  wf_map r L (fst x) /\ (forall A v, all_hold A v (fst x) <-> all_hold A v m /\ Forall (holds A v) rules).
Proof.
  intro HL. induction rules as [|rl rules IH]; intros fuel m n x Wm Hr E; cbn [add_rules_loop] in E.
  - injection E as <-. cbn [fst]. split; [exact Wm|]. intros A v. split; [intro H; split; [exact H|constructor]|tauto].
  - apply bind_ret in E as (y & E1 & E). inversion Hr as [|? ? H1 H2]; subst.
    destruct (do_add_rule_usable r L fuel m rl y HL Wm H1 E1) as [A1 A2].
    destruct (IH fuel (fst y) _ x A1 H2 E) as [B1 B2]. split; [exact B1|]. intros A v. rewrite B2, A2.
    split; [intros [[P Q] R]; split; [exact P|constructor; assumption]|intros [P Q]; inversion Q; subst; tauto].
Qed.

Lemma add_rules_sound r L rules fuel rb rb' : hash_safe r L -> wf_map r L (rb_rules rb) -> Forall (usable_rule r L) rules ->
  add_rules fuel rb rules = Ret rb' ->
  rb_pc rb' = rb_pc rb /\ wf_map r L (rb_rules rb') /\
  (forall A v, all_hold A v (rb_rules rb') <-> all_hold A v (rb_rules rb) /\ Forall (holds A v) rules).
Proof.
  intros HL Wm Hr E. unfold add_rules in E. apply bind_ret in E as (x & E1 & E).
  destruct (add_rules_loop_sound r L HL rules fuel _ _ x Wm Hr E1) as [A1 A2].
  injection E as <-. destruct (Nat.eqb (snd x) 0); cbn; auto.
Qed.

Lemma do_add_rule_mono : forall fuel m rl x, do_add_rule fuel m rl = Ret x -> forall fuel', fuel <= fuel' -> do_add_rule fuel' m rl = Ret x.
Proof.
  induction fuel as [|f IH]; intros m rl x E fuel' Hf; cbn [do_add_rule] in E; [discriminate|].
  destruct fuel' as [|f']; [lia|]. assert (Hf' : f <= f') by lia. cbn [do_add_rule].
  destruct (rl_trivial rl); [exact E|]. destruct (map_find (hs_hash (rl_lhs rl)) m) as [pre|]; [|exact E].
  destruct (N.eqb (hs_hash (rl_rhs pre)) (hs_hash (rl_rhs rl))).
  - destruct (sign_eqb (rule_sign rl) (rule_sign pre)); [exact E|].
    destruct (make_rule (mk_hseq (hs_hash (rl_lhs rl)) (hs_ops (rl_lhs rl)) SPos) (hseq_const true)) as [l0| |]; [|discriminate|discriminate].
    cbn [bind] in *. destruct (make_rule (mk_hseq (hs_hash (rl_rhs rl)) (hs_ops (rl_rhs rl)) SPos) (hseq_const true)) as [r0| |]; [|discriminate|discriminate].
    cbn [bind] in *. apply (IH _ _ _ E _ Hf').
  - destruct (N.ltb (hs_hash (rl_rhs pre)) (hs_hash (rl_rhs rl))).
    + destruct (make_rule (rl_rhs rl) (rl_rhs pre)) as [b| |]; [|discriminate|discriminate]. cbn [bind] in *. apply (IH _ _ _ E _ Hf').
    + destruct (make_rule (rl_rhs pre) (rl_rhs rl)) as [b| |]; [|discriminate|discriminate]. cbn [bind] in *. apply (IH _ _ _ E _ Hf').
Qed.

Lemma add_rules_terminates r L rb rules : hash_safe r L -> wf_map r L (rb_rules rb) -> Forall (usable_rule r L) rules ->
  exists n rb', forall fuel, n <= fuel -> add_rules fuel rb rules = Ret rb'.
Proof.
  intros HL Wm Hr.
  assert (G : forall rules m j, wf_map r L m -> Forall (usable_rule r L) rules ->
            exists n x, forall fuel, n <= fuel -> add_rules_loop fuel m rules j = Ret x).
  { clear rb rules Wm Hr. induction rules as [|rl rules IH]; intros m j Wm Hr; cbn [add_rules_loop]; [exists 0; eexists; reflexivity|].
    inversion Hr as [|? ? H1 H2]; subst.
    assert (exists n y, forall fuel, n <= fuel -> do_add_rule fuel m rl = Ret y) as (n & y & Hy).
    { destruct H1 as [W|[T _]].
      - destruct (do_add_rule_terminates r L HL rl m Wm W) as (n & Hn). destruct (Hn n (le_n n)) as (y & Hy).
        exists n, y. intros fuel Hf. eapply do_add_rule_mono; eassumption.
      - exists 1. eexists. intros fuel Hf. destruct fuel; [lia|]. cbn [do_add_rule]. rewrite T. reflexivity. }
    destruct (do_add_rule_usable r L n m rl y HL Wm H1 (Hy n (le_n n))) as [A1 _].
    destruct (IH (fst y) (j + snd y) A1 H2) as (n2 & x & Hx).
    exists (n + n2), x. intros fuel Hf. rewrite (Hy fuel) by lia. cbn [bind]. apply Hx. lia. }
  destruct (G rules (rb_rules rb) 0 Wm Hr) as (n & x & Hx). exists n. eexists. intros fuel Hf. unfold add_rules.
  rewrite (Hx fuel Hf). reflexivity.
Qed.

(** the extra rules of commutative and normal contexts *)
Lemma swap_rule r L a b rl : hash_safe r L -> 2 <= L -> a < b -> b < r ->
  make_rule (hseq_make (N.of_nat r) [b; a] SPos) (hseq_make (N.of_nat r) [a; b] SPos) = Ret rl ->
  wf_rule r L rl /\ hs_ops (rl_lhs rl) = [b; a] /\
  (forall A v, holds A v rl <-> aeq A (amul A (v b) (v a)) (amul A (v a) (v b))).
Proof.
  intros HL HL2 Hab Hb E. 
  assert (W1 : over r [b; a]) by (intros o [<-|[<-|[]]]; lia). assert (W2 : over r [a; b]) by (intros o [<-|[<-|[]]]; lia).
  split.
  { apply (make_rule_wf r L (hseq_make (N.of_nat r) [b; a] SPos) (hseq_make (N.of_nat r) [a; b] SPos)); [right; cbn; auto..| |exact E].
    intro C. apply (hash_inj r L) in C; auto. injection C as C _. lia. }
  pose proof (make_rule_lhs _ _ _ E) as (M1 & _). split; [rewrite M1; reflexivity|].
  intros A v. rewrite (make_rule_holds A v _ _ _ E). rewrite !(den_term_of A v), !(term_of_make r L) by auto.
  cbn [den_term]. unfold den_signed. cbn [den_word].
  assert (G : forall x y, aeq A (aph A SPos (amul A x (amul A y (aone A)))) (amul A x y)).
  { intros x y. eapply aeq_trans; [apply aph_pos|]. apply amul_cong; [apply aeq_refl|apply amul_one_r]. }
  split; intro H.
  - eapply aeq_trans; [apply aeq_sym, G|]. eapply aeq_trans; [exact H|apply G].
  - eapply aeq_trans; [apply G|]. eapply aeq_trans; [exact H|apply aeq_sym, G].
Qed.

Lemma all_ret_forall {A B} (f : B -> res A) : forall l rs, all_ret (map f l) = Ret rs ->
  (forall x, In x rs -> exists y, In y l /\ f y = Ret x) /\ (forall y, In y l -> exists x, In x rs /\ f y = Ret x).
Proof.
  induction l as [|y l IH]; intros rs E; cbn [map all_ret] in E.
  - injection E as <-. split; intros ? [].
  - apply bind_ret in E as (a & E1 & E). apply bind_ret in E as (rs' & E2 & E). injection E as <-.
    destruct (IH rs' E2) as [I1 I2]. split.
    + intros x [<-|Hx]; [exists y; split; [left; reflexivity|exact E1]|]. destruct (I1 x Hx) as (z & Z1 & Z2). exists z. split; [right; exact Z1|exact Z2].
    + intros z [<-|Hz]; [exists a; split; [left; reflexivity|exact E1]|]. destruct (I2 z Hz) as (x & X1 & X2). exists x. split; [right; exact X1|exact X2].
Qed.

Lemma in_commutator_pairs n b a : In (b, a) (commutator_pairs n) <-> a < b /\ b < n.
Proof.
  unfold commutator_pairs. rewrite in_flat_map. split.
  - intros (b' & Hb & H). apply in_map_iff in H as (a' & E & Ha). injection E as <- <-.
    apply in_rev in Hb. apply in_rev in Ha. apply in_seq in Hb. apply in_seq in Ha. lia.
  - intros [H1 H2]. exists b. split; [apply -> in_rev; apply in_seq; lia|]. apply in_map_iff. exists a. split; [reflexivity|].
    apply -> in_rev. apply in_seq. lia.
Qed.

Lemma commutator_rules_spec pc L rs : hash_safe (pc_num pc) L -> 2 <= L -> all_ret (commutator_rules pc) = Ret rs ->
  Forall (usable_rule (pc_num pc) L) rs /\ (forall A v, Forall (holds A v) rs <-> letters_commute A v (pc_num pc)).
Proof.
  intros HL HL2 E. unfold commutator_rules in E. destruct (Nat.ltb_spec (pc_num pc) 2) as [Hn|Hn].
  { injection E as <-. split; [constructor|]. intros A v. split; [|constructor]. intros _ a b Ha Hb. replace b with a by lia. apply aeq_refl. }
  apply all_ret_forall in E as [E1 E2]. split.
  - apply Forall_forall. intros rl Hrl. destruct (E1 rl Hrl) as ([b a] & Hin & Er). apply in_commutator_pairs in Hin as [H1 H2].
    left. cbn [fst snd] in Er. apply (swap_rule _ L a b rl HL HL2 H1 H2 Er).
  - intros A v. rewrite Forall_forall. split.
    + intros H a b Ha Hb.
      assert (G : forall a b, a < b -> b < pc_num pc -> aeq A (amul A (v b) (v a)) (amul A (v a) (v b))).
      { clear a b Ha Hb. intros a b H1 H2. destruct (E2 (b, a)) as (rl & Hrl & Er); [apply in_commutator_pairs; auto|].
        cbn [fst snd] in Er. apply (swap_rule _ L a b rl HL HL2 H1 H2 Er), H, Hrl. }
      destruct (Nat.lt_trichotomy a b) as [H1|[->|H1]]; [apply aeq_sym, G; auto|apply aeq_refl|apply G; auto].
    + intros H rl Hrl. destruct (E1 rl Hrl) as ([b a] & Hin & Er). apply in_commutator_pairs in Hin as [H1 H2].
      cbn [fst snd] in Er. apply (swap_rule _ L a b rl HL HL2 H1 H2 Er). apply H; lia.
Qed.

Lemma normal_rules_spec pc L rs : hash_safe (pc_num pc) L -> 2 <= L -> all_ret (normal_rules pc) = Ret rs ->
  Forall (usable_rule (pc_num pc) L) rs /\ (forall A v, Forall (holds A v) rs <-> letters_normal A v pc).
Proof.
  intros HL HL2 E. unfold normal_rules in E. unfold letters_normal, conj_op. unfold pc_radix, pc_num in *. destruct (pc_mode pc).
  - injection E as <-. split; [constructor|]. intros A v. split; [|constructor]. intros _ a _. apply aeq_refl.
  - apply all_ret_forall in E as [E1 E2]. split.
    + apply Forall_forall. intros rl Hrl. destruct (E1 rl Hrl) as (a & Hin & Er). apply in_seq in Hin.
      left. apply (swap_rule _ L a (a + pc_raw pc) rl HL HL2); [lia|lia|exact Er].
    + intros A v. rewrite Forall_forall. split.
      * intros H a Ha. assert (G : forall a, a < pc_raw pc -> aeq A (amul A (v (a + pc_raw pc)) (v a)) (amul A (v a) (v (a + pc_raw pc)))).
        { clear a Ha. intros a Ha. destruct (E2 a) as (rl & Hrl & Er); [apply in_seq; lia|].
          apply (swap_rule _ L a (a + pc_raw pc) rl HL HL2); [lia|lia|exact Er|apply H, Hrl]. }
        destruct (Nat.lt_ge_cases a (pc_raw pc)) as [Hl|Hg].
        -- rewrite Nat.mod_small by lia. apply aeq_sym, G, Hl.
        -- replace (a + pc_raw pc) with (a - pc_raw pc + 1 * (2 * pc_raw pc)) by lia. rewrite Nat.mod_add by lia.
           rewrite Nat.mod_small by lia. replace a with (a - pc_raw pc + pc_raw pc) at 1 4 by lia. apply G. lia.
      * intros H rl Hrl. destruct (E1 rl Hrl) as (a & Hin & Er). apply in_seq in Hin.
        apply (swap_rule _ L a (a + pc_raw pc) rl HL HL2); [lia|lia|exact Er|]. apply aeq_sym.
        specialize (H a ltac:(lia)). rewrite Nat.mod_small in H by lia. exact H.
  - apply all_ret_forall in E as [E1 E2]. split.
    + apply Forall_forall. intros rl Hrl. destruct (E1 rl Hrl) as (a & Hin & Er). apply in_seq in Hin.
      left. apply (swap_rule _ L (2 * a) (2 * a + 1) rl HL HL2); [lia|lia|exact Er].
    + intros A v. rewrite Forall_forall. unfold xor1. split.
      * intros H a Ha. assert (G : forall a, a < pc_raw pc -> aeq A (amul A (v (2 * a + 1)) (v (2 * a))) (amul A (v (2 * a)) (v (2 * a + 1)))).
        { clear a Ha. intros a Ha. destruct (E2 a) as (rl & Hrl & Er); [apply in_seq; lia|].
          apply (swap_rule _ L (2 * a) (2 * a + 1) rl HL HL2); [lia|lia|exact Er|apply H, Hrl]. }
        destruct (Nat.Even_or_Odd a) as [[k ->]|[k ->]].
        -- replace (Nat.even (2 * k)) with true by (symmetry; apply Nat.even_spec; exists k; reflexivity). apply aeq_sym, G. lia.
        -- replace (Nat.even (2 * k + 1)) with false.
           ++ replace (2 * k + 1 - 1) with (2 * k) by lia. apply G. lia.
           ++ symmetry. rewrite <- Nat.negb_odd. apply negb_false_iff, Nat.odd_spec. exists k. reflexivity.
      * intros H rl Hrl. destruct (E1 rl Hrl) as (a & Hin & Er). apply in_seq in Hin.
        apply (swap_rule _ L (2 * a) (2 * a + 1) rl HL HL2); [lia|lia|exact Er|]. apply aeq_sym.
        specialize (H (2 * a) ltac:(lia)). replace (Nat.even (2 * a)) with true in H by (symmetry; apply Nat.even_spec; exists a; reflexivity).
        exact H.
Qed.

Lemma make_acontext_sound fuel pc L commute normal rules ctx : hash_safe (pc_num pc) L -> 2 <= L ->
  Forall (usable_rule (pc_num pc) L) rules -> make_acontext fuel pc commute normal rules = Ret ctx ->
  rb_pc (ac_rules ctx) = pc /\ context_ok L ctx /\
  (forall A v, context_model A v ctx <->
     Forall (holds A v) rules /\ (commute = true -> letters_commute A v (pc_num pc)) /\ (normal = true -> letters_normal A v pc)) /\
  (forall A v, all_hold A v (rb_rules (ac_rules ctx)) -> context_model A v ctx).
Proof.
  intros HL HL2 Hr E. unfold make_acontext in E. apply bind_ret in E as (rb0 & E0 & E).
  unfold make_rulebook in E0. apply bind_ret in E0 as (rb00 & E00 & E0). injection E0 as <-.
  destruct (add_rules_sound (pc_num pc) L rules fuel (mk_rb pc [] 0) rb00 HL) as (P1 & P2 & P3); [|exact Hr|exact E00|].
  { split; [constructor|intros k rl []]. }
  cbn [rb_pc rb_rules] in P1, P3.
  apply bind_ret in E as (rb1 & E1 & E). apply bind_ret in E as (rb2 & E2 & E). injection E as <-.
  assert (Q : rb_pc rb1 = pc /\ wf_map (pc_num pc) L (rb_rules rb1) /\
              (forall A v, all_hold A v (rb_rules rb1) <-> Forall (holds A v) rules /\ (commute = true -> letters_commute A v (pc_num pc)))).
  { destruct commute.
    - apply bind_ret in E1 as (rs & Ers & E1). destruct (commutator_rules_spec pc L rs HL HL2 Ers) as [C1 C2].
      destruct (add_rules_sound (pc_num pc) L rs fuel (recalculate rb00) rb1 HL P2 C1 E1) as (Q1 & Q2 & Q3).
      split; [rewrite Q1; exact P1|]. split; [exact Q2|]. intros A v. rewrite Q3. cbn [recalculate rb_rules]. rewrite P3, C2.
      split; [intros [[_ A1] A2]; auto|intros [A1 A2]; split; [split; [intros k rl []|exact A1]|auto]].
    - injection E1 as <-. cbn [recalculate rb_rules rb_pc]. split; [exact P1|]. split; [exact P2|]. intros A v. rewrite P3.
      split; [intros [_ A1]; split; [exact A1|discriminate]|intros [A1 _]; split; [intros k rl []|exact A1]]. }
  destruct Q as (Q1 & Q2 & Q3).
  assert (R : rb_pc rb2 = pc /\ wf_map (pc_num pc) L (rb_rules rb2) /\
              (forall A v, all_hold A v (rb_rules rb2) <-> all_hold A v (rb_rules rb1) /\ (normal = true -> letters_normal A v pc))).
  { destruct normal.
    - apply bind_ret in E2 as (rs & Ers & E2). destruct (normal_rules_spec pc L rs HL HL2 Ers) as [C1 C2].
      destruct (add_rules_sound (pc_num pc) L rs fuel rb1 rb2 HL Q2 C1 E2) as (R1 & R2 & R3).
      split; [congruence|]. split; [exact R2|]. intros A v. rewrite R3, C2. tauto.
    - injection E2 as <-. split; [exact Q1|]. split; [exact Q2|]. intros A v. split; [intro H; split; [exact H|discriminate]|tauto]. }
  destruct R as (R1 & R2 & R3). cbn [ac_rules]. split; [exact R1|]. split.
  { unfold context_ok. cbn [ac_rules]. rewrite R1. split; assumption. }
  split; intros A v; unfold context_model; cbn [ac_rules ac_commutative]; rewrite R3, Q3, R1; tauto.
Qed.
