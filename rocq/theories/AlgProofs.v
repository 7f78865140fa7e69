(** Lemmas about rewriting. *)
From Coq Require Import List ZArith NArith Arith Bool Sorted Lia.
From Coq Require Import ZifyBool ZifyNat ZifyN.
From Verif Require Import CoreModel CoreSpec CoreProofs AlgModel AlgSpec.
Import ListNotations.

(* ---------------------------------------------------------------- lists *)
Lemma is_prefix_spec p : forall w, is_prefix p w = true <-> exists q, w = p ++ q.
Proof.
  induction p as [|a p IH]; intro w; cbn [is_prefix].
  - split; [intros _; exists w; reflexivity|reflexivity].
  - destruct w as [|b w].
    + split; [discriminate|intros [q E]; discriminate].
    + destruct (Nat.eqb_spec a b) as [->|Hne].
      * rewrite IH. split; intros [q E]; exists q; [rewrite E; reflexivity|injection E as E; exact E].
      * split; [discriminate|intros [q E]; injection E as E _; congruence].
Qed.

Lemma occurs_cons u a w : occurs u w -> occurs u (a :: w).
Proof. intros (p & q & ->). exists (a :: p), q. reflexivity. Qed.

Lemma matches_anywhere_some p : forall w n, matches_anywhere p w = Some n ->
  n < length w /\ exists a b, w = a ++ p ++ b /\ length a = n.
Proof.
  induction w as [|x w IH]; intros n H; cbn [matches_anywhere] in H; [discriminate|].
  destruct (is_prefix p (x :: w)) eqn:E.
  - injection H as <-. apply is_prefix_spec in E as [q E]. split; [cbn; lia|].
    exists [], q. split; [exact E|reflexivity].
  - destruct (matches_anywhere p w) as [k|]; [|discriminate]. injection H as <-.
    destruct (IH k eq_refl) as (Hk & a & b & -> & La). split; [cbn [length]; lia|].
    exists (x :: a), b. split; [reflexivity|cbn; lia].
Qed.

Lemma matches_anywhere_none p : p <> [] -> forall w, matches_anywhere p w = None -> ~ occurs p w.
Proof.
  intro Hp. induction w as [|x w IH]; intros H (a & b & E); cbn [matches_anywhere] in H.
  - destruct a; [|discriminate]. destruct p; [contradiction|discriminate].
  - destruct (is_prefix p (x :: w)) eqn:E2; [discriminate|].
    destruct (matches_anywhere p w) eqn:E3; [discriminate|].
    destruct a as [|y a].
    + assert (is_prefix p (x :: w) = true) by (apply is_prefix_spec; exists b; exact E). congruence.
    + injection E as -> ->. apply (IH eq_refl). exists a, b. reflexivity.
Qed.

(** leftmost match *)
Lemma matches_anywhere_first p : forall w n, matches_anywhere p w = Some n ->
  forall a b, w = a ++ p ++ b -> n <= length a.
Proof.
  induction w as [|x w IH]; intros n H a b E; cbn [matches_anywhere] in H; [discriminate|].
  destruct (is_prefix p (x :: w)) eqn:E2; [injection H as <-; lia|].
  destruct (matches_anywhere p w) as [k|] eqn:E3; [|discriminate]. injection H as <-.
  destruct a as [|y a].
  - assert (is_prefix p (x :: w) = true) by (apply is_prefix_spec; exists b; exact E). congruence.
  - injection E as -> ->. cbn [length]. apply le_n_S, (IH k eq_refl a b eq_refl).
Qed.

(* ---------------------------------------------------------------- maps *)
Lemma map_find_in k m rl : map_find k m = Some rl -> In (k, rl) m.
Proof.
  induction m as [|[k' rl'] m IH]; cbn [map_find]; [discriminate|].
  destruct (N.eqb_spec k k') as [->|Hne]; intro H; [injection H as ->; left; reflexivity|right; apply IH, H].
Qed.
Lemma map_find_none k m : map_find k m = None -> forall rl, ~ In (k, rl) m.
Proof.
  induction m as [|[k' rl'] m IH]; cbn [map_find]; intros H rl Hin; [contradiction|].
  destruct (N.eqb_spec k k') as [->|Hne]; [discriminate|].
  destruct Hin as [E|Hin]; [injection E as -> _; contradiction|exact (IH H rl Hin)].
Qed.
Lemma sorted_map_find k rl m : StronglySorted N.lt (map fst m) -> In (k, rl) m -> map_find k m = Some rl.
Proof.
  induction m as [|[k' rl'] m IH]; intros Hs Hin; [contradiction|]. cbn [map_find].
  cbn [map] in Hs. apply StronglySorted_inv in Hs as [Hs Hall].
  destruct Hin as [E|Hin].
  - injection E as -> ->. rewrite N.eqb_refl. reflexivity.
  - assert (Hk : (k' < k)%N) by (rewrite Forall_forall in Hall; apply Hall, in_map_iff; exists (k, rl); auto).
    destruct (N.eqb_spec k k') as [->|Hne]; [lia|apply IH; assumption].
Qed.
Lemma in_map_insert k rl m k' rl' : In (k', rl') (map_insert k rl m) ->
  (k' = k /\ rl' = rl) \/ In (k', rl') m.
Proof.
  induction m as [|[k0 rl0] m IH]; cbn [map_insert].
  - intros [E|[]]; injection E as <- <-; left; auto.
  - destruct (N.ltb k k0).
    + intros [E|H]; [injection E as <- <-; left; auto|right; exact H].
    + destruct (N.eqb k k0); [intro H; right; exact H|].
      intros [E|H]; [right; left; exact E|]. destruct (IH H) as [H'|H']; [left; exact H'|right; right; exact H'].
Qed.
Lemma in_map_insert_old k rl m k' rl' : In (k', rl') m -> In (k', rl') (map_insert k rl m).
Proof.
  induction m as [|[k0 rl0] m IH]; cbn [map_insert]; [contradiction|]. intro H.
  destruct (N.ltb k k0); [right; exact H|]. destruct (N.eqb k k0); [exact H|].
  destruct H as [H|H]; [left; exact H|right; apply IH, H].
Qed.
Lemma in_map_insert_new k rl m : StronglySorted N.lt (map fst m) -> map_find k m = None -> In (k, rl) (map_insert k rl m).
Proof.
  induction m as [|[k0 rl0] m IH]; cbn [map_insert map_find map]; intros Hs Hf; [left; reflexivity|].
  destruct (N.ltb_spec k k0); [left; reflexivity|].
  destruct (N.eqb_spec k k0); [discriminate|]. right. apply IH; [|exact Hf].
  apply StronglySorted_inv in Hs as [Hs _]. exact Hs.
Qed.
Lemma sorted_map_insert k rl m : StronglySorted N.lt (map fst m) -> StronglySorted N.lt (map fst (map_insert k rl m)).
Proof.
  induction m as [|[k0 rl0] m IH]; cbn [map_insert map fst]; intro Hs.
  - repeat constructor.
  - destruct (N.ltb_spec k k0) as [H|H].
    + cbn [map fst]. constructor; [exact Hs|]. apply StronglySorted_inv in Hs as [_ Hall].
      constructor; [exact H|]. eapply Forall_impl; [|exact Hall]. cbn. intros; lia.
    + destruct (N.eqb_spec k k0) as [->|Hne]; [exact Hs|].
      apply StronglySorted_inv in Hs as [Hs Hall]. cbn [map fst]. constructor; [apply IH, Hs|].
      apply Forall_forall. intros x Hx. apply in_map_iff in Hx as ([k1 rl1] & <- & Hx).
      apply in_map_insert in Hx as [[-> _]|Hx]; cbn [fst]; [lia|].
      rewrite Forall_forall in Hall. apply Hall, in_map_iff. exists (k1, rl1). auto.
Qed.
Lemma in_map_erase k m k' rl' : In (k', rl') (map_erase k m) -> In (k', rl') m.
Proof.
  induction m as [|[k0 rl0] m IH]; cbn [map_erase]; [contradiction|].
  destruct (N.eqb k k0); [intro H; right; exact H|]. intros [H|H]; [left; exact H|right; apply IH, H].
Qed.
Lemma in_map_erase_other k m k' rl' : k' <> k -> In (k', rl') m -> In (k', rl') (map_erase k m).
Proof.
  intro Hne. induction m as [|[k0 rl0] m IH]; cbn [map_erase]; [contradiction|]. intro H.
  destruct (N.eqb_spec k k0) as [->|Hk].
  - destruct H as [E|H]; [injection E as -> _; contradiction|exact H].
  - destruct H as [H|H]; [left; exact H|right; apply IH, H].
Qed.
Lemma sorted_map_erase k m : StronglySorted N.lt (map fst m) -> StronglySorted N.lt (map fst (map_erase k m)).
Proof.
  induction m as [|[k0 rl0] m IH]; cbn [map_erase map fst]; intro Hs; [exact Hs|].
  apply StronglySorted_inv in Hs as [Hs Hall].
  destruct (N.eqb k k0); [exact Hs|]. cbn [map fst]. constructor; [apply IH, Hs|].
  apply Forall_forall. intros x Hx. apply in_map_iff in Hx as ([k1 rl1] & <- & Hx).
  apply in_map_erase in Hx. rewrite Forall_forall in Hall. apply Hall, in_map_iff. exists (k1, rl1). auto.
Qed.
Lemma map_erase_gone k m : StronglySorted N.lt (map fst m) -> map_find k (map_erase k m) = None.
Proof.
  induction m as [|[k0 rl0] m IH]; cbn [map_erase map fst]; intro Hs; [reflexivity|].
  apply StronglySorted_inv in Hs as [Hs Hall].
  destruct (N.eqb_spec k k0) as [->|Hne].
  - destruct (map_find k0 m) as [rl|] eqn:E; [|reflexivity]. apply map_find_in in E.
    rewrite Forall_forall in Hall. assert (k0 < k0)%N by (apply Hall, in_map_iff; exists (k0, rl); auto). lia.
  - cbn [map_find]. destruct (N.eqb_spec k k0); [contradiction|apply IH, Hs].
Qed.

(* ---------------------------------------------------------------- well-formedness *)
Lemma wf_lhs r L rl : wf_rule r L rl ->
  hs_hash (rl_lhs rl) = hash (N.of_nat r) (hs_ops (rl_lhs rl)) /\ over r (hs_ops (rl_lhs rl)) /\ length (hs_ops (rl_lhs rl)) <= L.
Proof. intros (H1 & H2 & H3 & H4 & _). destruct H1 as [[E _]|H1]; [lia|exact H1]. Qed.
Lemma wf_rhs r L rl : wf_rule r L rl -> hs_hash (rl_rhs rl) <> 0%N ->
  hs_hash (rl_rhs rl) = hash (N.of_nat r) (hs_ops (rl_rhs rl)) /\ over r (hs_ops (rl_rhs rl)) /\ length (hs_ops (rl_rhs rl)) <= L.
Proof. intros (H1 & H2 & H3 & H4 & _) Hne. destruct H2 as [[E _]|H2]; [contradiction|exact H2]. Qed.

Lemma wf_rhs_shortlex r L rl : hash_safe r L -> wf_rule r L rl -> hs_hash (rl_rhs rl) <> 0%N ->
  shortlex_lt (hs_ops (rl_rhs rl)) (hs_ops (rl_lhs rl)).
Proof.
  intros HL W Hne. destruct (wf_lhs r L rl W) as (A1 & A2 & A3). destruct (wf_rhs r L rl W Hne) as (B1 & B2 & B3).
  apply (hash_order r L); try assumption. rewrite <- A1, <- B1. apply W.
Qed.
Lemma shortlex_length u w : shortlex_lt u w -> length u <= length w.
Proof. intros [H|[H _]]; lia. Qed.

Lemma wf_lhs_nonempty r L rl : hash_safe r L -> wf_rule r L rl -> hs_hash (rl_rhs rl) <> 0%N -> hs_ops (rl_lhs rl) <> [].
Proof.
  intros HL W Hne E. pose proof (wf_rhs_shortlex r L rl HL W Hne) as S. rewrite E in S.
  destruct S as [S|[_ S]]; [cbn in S; lia|inversion S].
Qed.

(** replacing a factor by a shortlex-smaller one gives a shortlex-smaller word *)
Lemma lex_lt_app_l a u v : lex_lt u v -> lex_lt (a ++ u) (a ++ v).
Proof. intro H. induction a as [|x a IH]; cbn; [exact H|apply lex_tail, IH]. Qed.
Lemma lex_lt_app_r u v b c : lex_lt u v -> lex_lt (u ++ b) (v ++ c).
Proof. induction 1; cbn; [apply lex_head; assumption|apply lex_tail; assumption]. Qed.
Lemma shortlex_context a b u v : shortlex_lt u v -> shortlex_lt (a ++ u ++ b) (a ++ v ++ b).
Proof.
  intros [H|[H1 H2]].
  - left. rewrite !app_length. lia.
  - right. split; [rewrite !app_length; lia|]. apply lex_lt_app_l, lex_lt_app_r, H2.
Qed.

(* ---------------------------------------------------------------- one application *)
Lemma apply_match_ok r L rl a b : hash_safe r L -> wf_rule r L rl -> hs_hash (rl_rhs rl) <> 0%N ->
  apply_match rl (a ++ hs_ops (rl_lhs rl) ++ b) (length a) = Ret (a ++ hs_ops (rl_rhs rl) ++ b).
Proof.
  intros HL W Hne. unfold apply_match.
  assert (Hz : rl_zero rl = false).
  { destruct W as (_ & _ & _ & _ & E & _). rewrite E. unfold hs_zero. apply N.eqb_neq, Hne. }
  rewrite Hz.
  set (l := hs_ops (rl_lhs rl)). set (q := hs_ops (rl_rhs rl)).
  rewrite !app_length.
  destruct (Z.leb_spec (Z.of_nat (length a + (length l + length b)) + (Z.of_nat (length q) - Z.of_nat (length l))) 0) as [H|H].
  - destruct (Z.ltb_spec (Z.of_nat (length a + (length l + length b)) + (Z.of_nat (length q) - Z.of_nat (length l))) 0) as [H2|H2]; [lia|].
    assert (length a = 0 /\ length b = 0 /\ length q = 0) as (Ea & Eb & Eq) by lia.
    destruct a, b, q; try discriminate. reflexivity.
  - destruct (Nat.ltb_spec (length a + (length l + length b)) (length a + length l)) as [H2|H2]; [lia|].
    rewrite firstn_app, firstn_all, Nat.sub_diag, firstn_O, app_nil_r.
    replace (skipn (length a + length l) (a ++ l ++ b)) with b.
    2:{ rewrite app_assoc, <- app_length, skipn_app, skipn_all, Nat.sub_diag. reflexivity. }
    destruct (Z.eqb_spec (Z.of_nat (length a + (length q + length b)))
      (Z.of_nat (length a + (length l + length b)) + (Z.of_nat (length q) - Z.of_nat (length l)))) as [_|E]; [reflexivity|lia].
Qed.

(* ---------------------------------------------------------------- finding a match *)
Definition step_ok (r L : nat) (m : rulemap) (find : word -> option (rule * nat)) : Prop :=
  forall w, over r w -> length w <= L ->
  match find w with
  | Some (rl, pos) => exists k a b, In (k, rl) m /\ w = a ++ hs_ops (rl_lhs rl) ++ b /\ length a = pos
  | None => irreducible m w
  end.

Lemma iterate_match_ok r L m : step_ok r L m (iterate_match m).
Proof.
  intros w _ _. induction m as [|[k rl] m IH]; cbn [iterate_match].
  - intros k rl [].
  - destruct (matches_anywhere (hs_ops (rl_lhs rl)) w) as [pos|] eqn:E.
    + apply matches_anywhere_some in E as (_ & a & b & -> & La). exists k, a, b. split; [left; reflexivity|auto].
    + destruct (iterate_match m w) as [[rl' pos]|].
      * destruct IH as (k' & a & b & Hin & H). exists k', a, b. split; [right; exact Hin|exact H].
      * intros k' rl' [E'|Hin] Hne; [injection E' as <- <-; apply matches_anywhere_none; assumption|].
        apply (IH k' rl' Hin Hne).
Qed.

Lemma sub_split w i n : i + n <= length w -> w = firstn i w ++ sub w i n ++ skipn (i + n) w.
Proof.
  intro H. unfold sub. rewrite <- (firstn_skipn i w) at 1. f_equal.
  rewrite <- (firstn_skipn n (skipn i w)) at 1. f_equal.
  revert w H. induction i as [|i IH]; intros w H; [reflexivity|].
  destruct w as [|x w]; [cbn in H; rewrite !skipn_nil; reflexivity|]. cbn [skipn Nat.add]. apply IH. cbn in H. lia.
Qed.
Lemma sub_app a u b : sub (a ++ u ++ b) (length a) (length u) = u.
Proof.
  unfold sub. rewrite skipn_app, skipn_all, Nat.sub_diag. cbn [app skipn].
  rewrite firstn_app, firstn_all, Nat.sub_diag, firstn_O, app_nil_r. reflexivity.
Qed.
Lemma over_sub r w i n : i + n <= length w -> over r w -> over r (sub w i n).
Proof.
  intros H Hw. rewrite (sub_split w i n H) in Hw. apply over_app in Hw as [_ Hw]. apply over_app in Hw as [Hw _]. exact Hw.
Qed.

Lemma search_list_spec m l :
  match search_list m l with
  | Some (rl, i) => exists n h, In (i, n, h) l /\ map_find h m = Some rl
  | None => forall i n h, In (i, n, h) l -> map_find h m = None
  end.
Proof.
  induction l as [|[[i n] h] l IH]; cbn [search_list]; [intros i n h []|].
  destruct (map_find h m) as [rl|] eqn:E.
  - exists n, h. split; [left; reflexivity|exact E].
  - destruct (search_list m l) as [[rl i']|].
    + destruct IH as (n' & h' & Hin & F). exists n', h'. split; [right; exact Hin|exact F].
    + intros i' n' h' [E'|Hin]; [injection E' as <- <- <-; exact E|apply (IH i' n' h' Hin)].
Qed.

Lemma search_match_ok r L m : hash_safe r L -> wf_map r L m -> step_ok r L m (search_match (N.of_nat r) m).
Proof.
  intros HL [Hs Hm] w Hw Lw. unfold search_match.
  destruct (substring_hashes_spec (N.of_nat r) w (length w * (length w + 1))) as (l & -> & _ & Hl); [lia|].
  pose proof (search_list_spec m l) as S. destruct (search_list m l) as [[rl i]|].
  - destruct S as (n & h & Hin & F). apply Hl in Hin as (Hn & Hi & ->).
    apply map_find_in in F. destruct (Hm _ _ F) as (Ek & W). destruct (wf_lhs r L rl W) as (A1 & A2 & A3).
    assert (Eq : sub w i n = hs_ops (rl_lhs rl)).
    { apply (hash_inj r L); try assumption.
      - apply over_sub; assumption.
      - rewrite sub_length by exact Hi. lia.
      - rewrite Ek. exact A1. }
    exists (hash (N.of_nat r) (sub w i n)), (firstn i w), (skipn (i + n) w). split; [exact F|].
    split; [|rewrite firstn_length; lia]. rewrite <- Eq. apply sub_split, Hi.
  - intros k rl Hin Hne (a & b & ->).
    destruct (Hm _ _ Hin) as (Ek & W). destruct (wf_lhs r L rl W) as (A1 & A2 & A3).
    assert (F : map_find k m = None).
    { apply (S (length a) (length (hs_ops (rl_lhs rl))) k). apply Hl. rewrite sub_app, !app_length.
      split; [destruct (hs_ops (rl_lhs rl)); [contradiction|cbn; lia]|]. split; [lia|congruence]. }
    rewrite (sorted_map_find k rl m Hs Hin) in F. discriminate.
Qed.

(* ---------------------------------------------------------------- the reduction loop *)
Definition term_bound (r L : nat) (t : term) : Prop :=
  match t with None => True | Some (_, w) => over r w /\ length w <= L end.

Lemma rewrites_bound r L m t u : hash_safe r L -> wf_map r L m -> rewrites m t u ->
  forall M, term_bound r M t -> term_bound r M u.
Proof.
  intros HL [_ Hm] H M. destruct H as [k rl s a b Hin Hz|k rl s a b Hin Hz]; cbn [term_bound]; [auto|].
  destruct (Hm _ _ Hin) as (_ & W). pose proof (wf_rhs_shortlex r L rl HL W Hz) as S. apply shortlex_length in S.
  destruct (wf_rhs r L rl W Hz) as (_ & B & _).
  rewrite !over_app, !app_length. intros [(Ha & _ & Hb) Hl]. repeat split; try assumption. lia.
Qed.

Lemma rws_trans m t u x : rewrites_star m t u -> rewrites_star m u x -> rewrites_star m t x.
Proof. induction 1; intro H'; [exact H'|econstructor; [eassumption|auto]]. Qed.
Lemma rws_one m t u : rewrites m t u -> rewrites_star m t u.
Proof. intro H. econstructor; [exact H|constructor]. Qed.

Lemma rws_bound r L m t u : hash_safe r L -> wf_map r L m -> rewrites_star m t u ->
  forall M, term_bound r M t -> term_bound r M u.
Proof.
  intros HL Hm H. induction H as [|t u x H1 H2 IH]; intros M HM; [exact HM|].
  apply IH. eapply rewrites_bound; eassumption.
Qed.

(** what a finished reduction guarantees *)
Definition red_post (m : rulemap) (w : word) (s : sign) (x : red * word * sign) : Prop :=
  match x with
  | (SetToZero, _, _) => rewrites_star m (Some (s, w)) None
  | (Match, w', s') => rewrites_star m (Some (s, w)) (Some (s', w')) /\ irreducible m w'
  | (NoMatch, w', s') => w' = w /\ s' = s /\ irreducible m w
  end.

Lemma reduce_loop_post r L m find reset : hash_safe r L -> wf_map r L m -> step_ok r L m find ->
  forall fuel w s matched x, over r w -> length w <= L ->
  reduce_loop fuel find reset w s matched = Ret x ->
  match x with
  | (SetToZero, _, _) => rewrites_star m (Some (s, w)) None
  | (Match, w', s') => rewrites_star m (Some (s, w)) (Some (s', w')) /\ irreducible m w'
  | (NoMatch, w', s') => matched = false /\ w' = w /\ s' = s /\ irreducible m w
  end.
Proof.
  intros HL Hm Hf. induction fuel as [|f IH]; intros w s matched x Hw Lw E;
    cbn [reduce_loop] in E; pose proof (Hf w Hw Lw) as S; destruct (find w) as [[rl pos]|].
  - destruct S as (k & a & b & Hin & -> & <-). unfold hs_zero in E.
    destruct (N.eqb_spec (hs_hash (rl_rhs rl)) 0) as [Ez|Ez]; [|discriminate].
    injection E as <-. apply rws_one. eapply rw_zero; eassumption.
  - injection E as <-. destruct matched; [split; [constructor|exact S]|auto].
  - destruct S as (k & a & b & Hin & -> & <-). unfold hs_zero in E.
    destruct (N.eqb_spec (hs_hash (rl_rhs rl)) 0) as [Ez|Ez].
    + injection E as <-. apply rws_one. eapply rw_zero; eassumption.
    + destruct (proj2 Hm _ _ Hin) as (_ & W). rewrite (apply_match_ok r L rl a b HL W Ez) in E. cbn [bind] in E.
      assert (R : rewrites m (Some (s, a ++ hs_ops (rl_lhs rl) ++ b))
                             (Some (smul s (hs_sign (rl_rhs rl)), a ++ hs_ops (rl_rhs rl) ++ b))) by (eapply rw_word; eassumption).
      pose proof (rewrites_bound r L m _ _ HL Hm R L (conj Hw Lw)) as [Hw' Lw'].
      specialize (IH _ _ _ _ Hw' Lw' E). unfold rule_sign in IH. destruct x as [[[| |] w'] s'].
      * destruct IH as [C _]. discriminate.
      * destruct IH as [I1 I2]. split; [econstructor; eassumption|exact I2].
      * econstructor; eassumption.
  - injection E as <-. destruct matched; [split; [constructor|exact S]|auto].
Qed.

Lemma reduce_loop_terminates r L m find reset : hash_safe r L -> wf_map r L m -> step_ok r L m find ->
  forall w, over r w -> length w <= L ->
  exists n, forall fuel, n <= fuel -> forall s matched, exists x, reduce_loop fuel find reset w s matched = Ret x.
Proof.
  intros HL Hm Hf w.
  remember (hash (N.of_nat r) w) as h eqn:Eh. revert w Eh.
  induction h as [h IH] using (well_founded_induction N.lt_wf_0). intros w Eh Hw Lw.
  pose proof (Hf w Hw Lw) as S. destruct (find w) as [[rl pos]|] eqn:F.
  - destruct S as (k & a & b & Hin & Ew & Epos).
    destruct (N.eqb_spec (hs_hash (rl_rhs rl)) 0) as [Ez|Ez].
    + exists 0. intros fuel _ s matched. destruct fuel; cbn [reduce_loop]; rewrite F; unfold hs_zero;
        rewrite Ez; cbn; eexists; reflexivity.
    + destruct (proj2 Hm _ _ Hin) as (_ & W).
      pose proof (wf_rhs_shortlex r L rl HL W Ez) as SL.
      assert (R : rewrites m (Some (SPos, a ++ hs_ops (rl_lhs rl) ++ b))
                             (Some (smul SPos (hs_sign (rl_rhs rl)), a ++ hs_ops (rl_rhs rl) ++ b))) by (eapply rw_word; eassumption).
      subst w. pose proof (rewrites_bound r L m _ _ HL Hm R L (conj Hw Lw)) as [Hw' Lw'].
      destruct (IH (hash (N.of_nat r) (a ++ hs_ops (rl_rhs rl) ++ b))) with (w := a ++ hs_ops (rl_rhs rl) ++ b) as (n & Hn);
        [|reflexivity|exact Hw'|exact Lw'|].
      * subst h. apply (hash_order r L); try assumption. apply shortlex_context, SL.
      * exists (S n). intros fuel Hfu s matched. destruct fuel as [|fuel]; [lia|]. cbn [reduce_loop]. rewrite F.
        unfold hs_zero. destruct (N.eqb_spec (hs_hash (rl_rhs rl)) 0); [contradiction|].
        rewrite <- Epos, (apply_match_ok r L rl a b HL W Ez). cbn [bind]. apply Hn. lia.
  - exists 0. intros fuel _ s matched. destruct fuel; cbn [reduce_loop]; rewrite F; eexists; reflexivity.
Qed.

(* ---------------------------------------------------------------- rewriting is sound in every algebra *)
Section Sound.
  Variable A : algebra.
  Variable v : nat -> A.
  Notation "x == y" := (aeq A x y) (at level 70).

  Lemma den_app u w : den_word A v (u ++ w) == amul A (den_word A v u) (den_word A v w).
  Proof.
    induction u as [|o u IH]; cbn [app den_word].
    - apply aeq_sym, amul_one_l.
    - eapply aeq_trans; [apply amul_cong; [apply aeq_refl|exact IH]|apply amul_assoc].
  Qed.

  Lemma den_lhs r L rl : wf_rule r L rl -> hash_safe r L -> den A v (rl_lhs rl) == den_word A v (hs_ops (rl_lhs rl)).
  Proof.
    intros W HL. destruct (wf_lhs r L rl W) as (E1 & E2 & E3). unfold den.
    rewrite E1. destruct (N.eqb_spec (hash (N.of_nat r) (hs_ops (rl_lhs rl))) 0) as [E|_].
    - exfalso. exact (hash_nonzero r L _ HL E2 E3 E).
    - unfold den_signed. destruct W as (_ & _ & -> & _). apply aph_pos.
  Qed.

  Lemma den_factor a l b x : den_word A v l == x ->
    den_word A v (a ++ l ++ b) == amul A (den_word A v a) (amul A x (den_word A v b)).
  Proof.
    intro H. eapply aeq_trans; [apply den_app|]. apply amul_cong; [apply aeq_refl|].
    eapply aeq_trans; [apply den_app|]. apply amul_cong; [exact H|apply aeq_refl].
  Qed.

  Lemma rewrites_sound r L m t u : hash_safe r L -> wf_map r L m -> all_hold A v m -> rewrites m t u ->
    den_term A v t == den_term A v u.
  Proof.
    intros HL [_ Hm] HA H. destruct H as [k rl s a b Hin Hz|k rl s a b Hin Hz]; cbn [den_term];
      destruct (Hm _ _ Hin) as (_ & W); pose proof (HA _ _ Hin) as Hh; unfold holds in Hh;
      pose proof (den_lhs r L rl W HL) as Hl.
    - assert (Hx : den_word A v (hs_ops (rl_lhs rl)) == azero A).
      { eapply aeq_trans; [apply aeq_sym, Hl|]. eapply aeq_trans; [exact Hh|]. unfold den. rewrite Hz. apply aeq_refl. }
      unfold den_signed. eapply aeq_trans; [apply aph_cong, (den_factor a _ b _ Hx)|].
      eapply aeq_trans; [apply aph_cong|apply aph_zero].
      eapply aeq_trans; [apply amul_cong; [apply aeq_refl|apply amul_zero_l]|apply amul_zero_r].
    - assert (Hx : den_word A v (hs_ops (rl_lhs rl)) == aph A (hs_sign (rl_rhs rl)) (den_word A v (hs_ops (rl_rhs rl)))).
      { eapply aeq_trans; [apply aeq_sym, Hl|]. eapply aeq_trans; [exact Hh|]. unfold den.
        destruct (N.eqb_spec (hs_hash (rl_rhs rl)) 0); [contradiction|apply aeq_refl]. }
      unfold den_signed. eapply aeq_trans; [apply aph_cong, (den_factor a _ b _ Hx)|].
      eapply aeq_trans; [apply aph_cong|apply aph_mul].
      eapply aeq_trans; [apply amul_cong; [apply aeq_refl|apply aph_mul_l]|].
      eapply aeq_trans; [apply aph_mul_r|]. apply aph_cong, aeq_sym, den_factor, aeq_refl.
  Qed.

  Lemma rws_sound r L m t u : hash_safe r L -> wf_map r L m -> all_hold A v m -> rewrites_star m t u ->
    den_term A v t == den_term A v u.
  Proof.
    intros HL Hm HA H. induction H as [|t u x H1 H2 IH]; [apply aeq_refl|].
    eapply aeq_trans; [eapply rewrites_sound; eassumption|exact IH].
  Qed.
End Sound.
