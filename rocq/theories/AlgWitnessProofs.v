(** Remaining lemmas for C04-C09: shortlex decrease, completion reports, concrete contexts and counterexamples. *)
From Coq Require Import List ZArith NArith Arith Bool Sorted Lia.
From Coq Require Import ZifyBool ZifyNat ZifyN.
From Verif Require Import CoreModel CoreSpec CoreProofs AlgModel AlgSpec AlgProofs AlgTheoryProofs AlgCompleteProofs
  AlgConfluenceProofs AlgNormalProofs AlgContextProofs AlgFinalProofs.
Import ListNotations.

(* ---------------------------------------------------------------- C04 *)
Lemma lex_lt_app_r u v : length u = length v -> lex_lt u v -> forall b, lex_lt (u ++ b) (v ++ b).
Proof.
  intros E H. induction H as [a c u v H|a u v H IH]; intro b; cbn; [constructor; exact H|]. apply lex_tail, IH. cbn in E. lia.
Qed.
Lemma lex_lt_app_l a u v : lex_lt u v -> lex_lt (a ++ u) (a ++ v).
Proof. intro H. induction a as [|x a IH]; cbn; [exact H|apply lex_tail, IH]. Qed.
Lemma shortlex_ctx a b u v : shortlex_lt u v -> shortlex_lt (a ++ u ++ b) (a ++ v ++ b).
Proof.
  unfold shortlex_lt. rewrite !app_length. intros [H|[H1 H2]]; [left; lia|right]. split; [lia|].
  apply lex_lt_app_l, lex_lt_app_r; assumption.
Qed.
Lemma wf_rule_shortlex r L rl : hash_safe r L -> wf_rule r L rl -> hs_hash (rl_rhs rl) <> 0%N ->
  shortlex_lt (hs_ops (rl_rhs rl)) (hs_ops (rl_lhs rl)).
Proof.
  intros HL (W1 & W2 & _ & Hlt & _) Hz. destruct W1 as [[C _]|(A1 & A2 & A3)]; [rewrite C in Hlt; lia|].
  destruct W2 as [[C _]|(B1 & B2 & B3)]; [contradiction|].
  apply (hash_order r L); auto. rewrite <- A1, <- B1. exact Hlt.
Qed.
Lemma application_exact r L rl a b : hash_safe r L -> wf_rule r L rl ->
  (hs_hash (rl_rhs rl) <> 0%N ->
     apply_match rl (a ++ hs_ops (rl_lhs rl) ++ b) (length a) = Ret (a ++ hs_ops (rl_rhs rl) ++ b) /\
     shortlex_lt (a ++ hs_ops (rl_rhs rl) ++ b) (a ++ hs_ops (rl_lhs rl) ++ b)) /\
  (hs_hash (rl_rhs rl) = 0%N -> rl_zero rl = true).
Proof.
  intros HL W. split; intro Hz.
  - split; [apply (apply_match_ok r L); assumption|]. apply shortlex_ctx, (wf_rule_shortlex r L); assumption.
  - destruct W as (_ & _ & _ & _ & -> & _). unfold hs_zero. rewrite Hz. reflexivity.
Qed.
Lemma make_rule_oriented r L q1 q2 : hash_safe r L -> wf_seq r L q1 -> wf_seq r L q2 -> hs_hash q1 <> hs_hash q2 ->
  match make_rule q1 q2 with
  | Ret rl => wf_rule r L rl /\ forall A v, holds A v rl <-> aeq A (den A v q1) (den A v q2)
  | Err => (hs_hash q1 < hs_hash q2)%N
  | NoFuel => False
  end.
Proof.
  intros HL W1 W2 Hne. destruct (make_rule q1 q2) as [rl| |] eqn:E.
  - split; [apply (make_rule_wf r L q1 q2); assumption|]. intros A v. apply (make_rule_holds A v _ _ _ E).
  - unfold make_rule in E. cbn in E. destruct (N.ltb_spec (hs_hash q1) (hs_hash q2)); [assumption|discriminate].
  - unfold make_rule in E. cbn in E. destruct (N.ltb_spec (hs_hash q1) (hs_hash q2)); discriminate.
Qed.

(** the five-element algebra {0, 1, i, -1, -i} *)
Definition phase_algebra : algebra.
Proof.
  refine {| carrier := option sign; aeq := eq; aone := Some SPos; azero := None;
            amul := fun x y => match x, y with Some a, Some b => Some (smul a b) | _, _ => None end;
            aph := fun s x => option_map (smul s) x |}; intros; subst; try reflexivity; try congruence;
    repeat match goal with x : option sign |- _ => destruct x end; cbn in *; try reflexivity; try congruence;
    try (f_equal; repeat match goal with s : sign |- _ => destruct s end; reflexivity).
  exfalso. injection H0 as E. destruct s0, s; try discriminate; apply H; reflexivity.
Defined.

Definition pcX : precontext := mk_pc 1 SelfAdjoint.
Definition hX (s : sign) : hseq := hseq_make 1 [0] s.

Lemma minus_rule_accepted : exists rl ctx, make_rule (hX SPos) (hX SNeg) = Ret rl /\ rl_trivial rl = false /\
  make_acontext 5 pcX false false [rl] = Ret ctx /\ (forall fuel, canonical_form fuel ctx [0] SPos = NoFuel).
Proof.
  eexists. eexists. split; [vm_compute; reflexivity|]. split; [reflexivity|]. split; [vm_compute; reflexivity|].
  assert (G : forall fuel s b, reduce_loop fuel (iterate_match [(2%N, mk_rule0 (hX SPos) (hX SNeg) false false)]) true [0] s b = NoFuel).
  { induction fuel as [|f IH]; intros s b; [reflexivity|]. cbn. apply IH. }
  intro fuel. unfold canonical_form. cbn [ac_commutative ac_rules]. unfold reduce_in_place. cbn [rb_rules].
  replace (use_iteration _ _) with true by reflexivity. unfold reduce_via_iteration. cbn [rb_rules].
  unfold hX, hseq_make in G. change (hash 1 [0]) with 2%N in G. rewrite G. reflexivity.
Qed.
Lemma imaginary_rule_dropped : exists rl, make_rule (hX SPos) (hX SIm) = Ret rl /\ rl_trivial rl = true /\
  (exists A v, ~ holds A v rl) /\
  make_acontext 5 pcX false false [rl] = Ret (mk_actx false (mk_rb pcX [] 0)).
Proof.
  eexists. split; [vm_compute; reflexivity|]. split; [reflexivity|]. split; [|vm_compute; reflexivity].
  exists phase_algebra, (fun _ => Some SPos). unfold holds. cbn. discriminate.
Qed.

(* ---------------------------------------------------------------- C05, C06 *)
(** both strategies *)
Definition strategy_ok (f : nat -> rulebook -> word -> sign -> res (red * word * sign)) : Prop :=
  forall r L rb fuel w s x, rb_ok r L rb -> over r w -> length w <= L -> f fuel rb w s = Ret x -> red_post (rb_rules rb) w s x.
Lemma iteration_ok : strategy_ok reduce_via_iteration.
Proof.
  intros r L rb fuel w s x (Hr & HL & Hm) Hw Lw E. unfold reduce_via_iteration in E.
  pose proof (reduce_loop_post r L _ _ true HL Hm (iterate_match_ok r L (rb_rules rb)) fuel w s false x Hw Lw E) as P.
  destruct x as [[[] w'] s']; cbn in *; tauto.
Qed.
Lemma search_ok : strategy_ok reduce_via_search.
Proof.
  intros r L rb fuel w s x (Hr & HL & Hm) Hw Lw E. unfold reduce_via_search, pc_radix in E. rewrite Hr in E.
  pose proof (reduce_loop_post r L _ _ false HL Hm (search_match_ok r L (rb_rules rb) HL Hm) fuel w s false x Hw Lw E) as P.
  destruct x as [[[] w'] s']; cbn in *; tauto.
Qed.
Lemma red_post_sound r L m w s x A v : hash_safe r L -> wf_map r L m -> red_post m w s x -> all_hold A v m ->
  aeq A (den_term A v (red_term x)) (den_signed A v s w).
Proof.
  intros HL Hm P HA. destruct x as [[[] w'] s']; cbn in P |- *.
  - destruct P as (-> & -> & _). apply aeq_refl.
  - apply aeq_sym. exact (rws_sound A v r L m _ _ HL Hm HA (proj1 P)).
  - apply aeq_sym. exact (rws_sound A v r L m _ _ HL Hm HA P).
Qed.
Lemma strategies_sound f r L rb fuel w s x : strategy_ok f -> pc_num (rb_pc rb) = r -> hash_safe r L -> wf_map r L (rb_rules rb) ->
  over r w -> length w <= L -> f fuel rb w s = Ret x ->
  forall A v, all_hold A v (rb_rules rb) -> aeq A (den_term A v (red_term x)) (den_signed A v s w).
Proof.
  intros Hf Hr HL Hm Hw Lw E A v HA. apply (red_post_sound r L (rb_rules rb)); try assumption.
  apply (Hf r L rb fuel); try assumption. split; [exact Hr|split; assumption].
Qed.
Lemma strategies_irreducible f r L rb fuel w s x : strategy_ok f -> pc_num (rb_pc rb) = r -> hash_safe r L -> wf_map r L (rb_rules rb) ->
  over r w -> length w <= L -> f fuel rb w s = Ret x ->
  match x with (SetToZero, _, _) => True | (_, w', _) => irreducible (rb_rules rb) w' end.
Proof.
  intros Hf Hr HL Hm Hw Lw E.
  assert (P : red_post (rb_rules rb) w s x) by (apply (Hf r L rb fuel); try assumption; split; [exact Hr|split; assumption]).
  destruct x as [[[] w'] s']; cbn in P; [destruct P as (-> & _ & P)|destruct P|exact I]; assumption.
Qed.
Lemma iteration_terminates r L rb w : rb_ok r L rb -> over r w -> length w <= L ->
  exists n, forall fuel, n <= fuel -> forall s, exists x, reduce_via_iteration fuel rb w s = Ret x.
Proof.
  intros (Hr & HL & Hm) Hw Lw.
  destruct (reduce_loop_terminates r L _ _ true HL Hm (iterate_match_ok r L (rb_rules rb)) w Hw Lw) as (n & H).
  exists n. intros fuel Hf s. exact (H fuel Hf s false).
Qed.
Lemma search_terminates r L rb w : rb_ok r L rb -> over r w -> length w <= L ->
  exists n, forall fuel, n <= fuel -> forall s, exists x, reduce_via_search fuel rb w s = Ret x.
Proof.
  intros (Hr & HL & Hm) Hw Lw.
  destruct (reduce_loop_terminates r L _ _ false HL Hm (search_match_ok r L (rb_rules rb) HL Hm) w Hw Lw) as (n & H).
  exists n. intros fuel Hf s. unfold reduce_via_search, pc_radix. rewrite Hr. exact (H fuel Hf s false).
Qed.
Lemma reduce_hs_sound r L rb q fuel q' : pc_num (rb_pc rb) = r -> hash_safe r L -> wf_map r L (rb_rules rb) -> wf_seq r L q ->
  (hs_hash q <> 0%N -> hs_ops q = [] -> hs_sign q = SPos) -> reduce_hs fuel rb q = Ret q' ->
  forall A v, all_hold A v (rb_rules rb) -> aeq A (den A v q') (den A v q).
Proof.
  intros Hr HL Hm W Hk E A v HA.
  destruct (reduce_hs_post r L L rb q fuel q' (conj Hr (conj HL Hm)) (le_n _) W Hk E) as (_ & R & _).
  rewrite !den_term_of. apply aeq_sym. exact (rws_sound A v r L _ _ _ HL Hm HA R).
Qed.

(** -1 times the identity is reduced to +1 times the identity by the (empty!) rulebook *)
Lemma minus_identity_lost : exists rb q q', wf_map 1 1 (rb_rules rb) /\ reduce_hs 0 rb q = Ret q' /\
  exists A v, all_hold A v (rb_rules rb) /\ ~ aeq A (den A v q') (den A v q).
Proof.
  exists (mk_rb pcX [] 0), (hseq_make 1 [] SNeg), (hseq_const false). split; [|split].
  - split; [constructor|intros k rl []].
  - reflexivity.
  - exists phase_algebra, (fun _ => Some SPos). split; [intros k rl []|]. cbn. discriminate.
Qed.
(** a negative sequence reduced to zero in place keeps its sign and then differs from zero *)
Lemma minus_zero_kept : exists rb q q', wf_map 1 1 (rb_rules rb) /\ reduce_in_place_hs 0 rb q = Ret (SetToZero, q') /\
  hs_eqb q' (hseq_const true) = false.
Proof.
  exists (mk_rb pcX [(2%N, mk_rule0 (hX SPos) (hseq_const true) false true)] 1), (hX SNeg), (mk_hseq 0 [] SNeg).
  split; [|split; reflexivity].
  split; [repeat constructor|]. intros k rl [H|[]]. injection H as <- <-. split; [reflexivity|].
  assert (W : wf_seq 1 1 (hX SPos)).
  { right. split; [reflexivity|]. split; [intros o [<-|[]]; lia|cbn; lia]. }
  split; [exact W|]. split; [left; split; reflexivity|]. repeat split; reflexivity.
Qed.

(* ---------------------------------------------------------------- C06 for contexts *)
Lemma get_if_canonical_spec L ctx w : context_ok L ctx -> over (pc_num (rb_pc (ac_rules ctx))) w -> length w <= L ->
  (forall k rl, In (k, rl) (rb_rules (ac_rules ctx)) -> hs_ops (rl_lhs rl) <> []) ->
  (irreducible (rb_rules (ac_rules ctx)) w -> get_if_canonical ctx w = Some (hseq_make (pc_radix (rb_pc (ac_rules ctx))) w SPos)) /\
  (~ irreducible (rb_rules (ac_rules ctx)) w -> get_if_canonical ctx w = None).
Proof.
  intros Hc Hw Lw Hne. unfold get_if_canonical.
  pose proof (can_reduce_spec _ L _ w (context_rb_ok L ctx Hc) Hw Lw Hne) as S.
  destruct (can_reduce (ac_rules ctx) w); split; intro H; try reflexivity.
  - apply S in H. discriminate.
  - exfalso. apply H. apply S. reflexivity.
Qed.

(* ---------------------------------------------------------------- C08: what complete() reports *)
Lemma kb_loop_reports n : forall fuel rb rb' , kb_loop n fuel rb = Ret (rb', true) -> is_complete fuel rb' false = Ret true.
Proof.
  induction n as [|n IH]; intros fuel rb rb' E; cbn [kb_loop] in E; [discriminate|].
  apply bind_ret in E as ([rb1 b] & E1 & E2). cbn [fst snd] in E2. destruct b; [apply (IH _ _ _ E2)|].
  injection E2 as <-. unfold try_new_combination in E1. apply bind_ret in E1 as (x & E3 & E4).
  apply bind_ret in E4 as (oc & E5 & E6). destruct oc; [apply bind_ret in E6 as (y & _ & E6); discriminate|].
  injection E6 as <-. unfold is_complete. cbn [bind]. rewrite E5. reflexivity.
Qed.
Lemma complete_reports turns fuel rb n rb' : complete turns fuel rb n = Ret (rb', true) ->
  exists rb1, rb_pc rb1 = rb_pc rb' /\ rb_rules rb1 = rb_rules rb' /\ is_complete fuel rb1 false = Ret true.
Proof.
  unfold complete. intro E. apply bind_ret in E as ([rb0 o] & E1 & E2). cbn [fst snd] in E2. destruct o as [it|]; [|discriminate].
  apply bind_ret in E2 as ([rb1 b] & E3 & E4). cbn [fst snd] in E4. exists rb1. destruct b.
  - injection E4 as <-. split; [reflexivity|split; [reflexivity|]]. apply (kb_loop_reports _ _ _ _ E3).
  - apply bind_ret in E4 as (c & E5 & E6). injection E6 as <- ->. auto.
Qed.
Lemma completion_decides L M c comm turns n fuel rb0 rb fu fw u s w s' p q :
  let ctx := mk_actx comm rb in
  decidable_context L M c ctx -> complete turns fuel rb0 n = Ret (rb, true) ->
  over (pc_num (rb_pc rb)) u -> length u <= L -> over (pc_num (rb_pc rb)) w -> length w <= L ->
  canonical_form fu ctx u s = Ret p -> canonical_form fw ctx w s' = Ret q ->
  (provably_equal (rb_rules rb) (Some (s, u)) (Some (s', w)) <-> p = q).
Proof.
  intros ctx Hd E Hu Lu Hw Lw Eu Ew. destruct (complete_reports _ _ _ _ _ E) as (rb1 & P1 & P2 & P3).
  assert (HC : confluent (rb_rules rb)).
  { pose proof (proj2 (decidable_ok L M c ctx Hd)) as (R1 & R2 & R3).
    destruct Hd as (H1 & H2 & H3 & H4 & H5 & H6 & _). cbn [ctx ac_rules] in *. rewrite <- P2 in *. rewrite <- P1 in *.
    apply (complete_confluent (pc_num (rb_pc rb1)) L M c fuel rb1 false); try assumption.
    split; [reflexivity|split; assumption]. }
  pose proof (decidable_ok L M c ctx Hd) as [Hc Hrb].
  change (rb_rules rb) with (rb_rules (ac_rules ctx)) in *. rewrite (provable_joinable _ L _ (proj1 Hc) (proj2 Hc) HC).
  pose proof (canonical_form_joinable L M c ctx fu u s p Hd HC Hu Lu Eu) as Ju.
  pose proof (canonical_form_joinable L M c ctx fw w s' q Hd HC Hw Lw Ew) as Jw.
  split.
  - intro J. apply (joinable_canonical_eq L M c ctx p q Hd HC).
    + apply (canonical_form_canonical L ctx fu u s p Hc Hu Lu Eu).
    + apply (canonical_form_canonical L ctx fw w s' q Hc Hw Lw Ew).
    + apply (joinable_trans _ _ _ _ HC (joinable_sym _ _ _ Ju)). apply (joinable_trans _ _ _ _ HC J Jw).
  - intros ->. apply (joinable_trans _ _ _ _ HC Ju). apply joinable_sym, Jw.
Qed.

(* ---------------------------------------------------------------- concrete books *)
Definition mk3 (r : N) (l : word) (rhs : option (sign * word)) : N * rule :=
  let lh := hseq_make r l SPos in
  let rh := match rhs with None => hseq_const true | Some (s, w) => hseq_make r w s end in
  (hs_hash lh, mk_rule0 lh rh false (hs_zero rh)).

(** wf_map as a computable test *)
Definition over_b (r : nat) (w : word) : bool := forallb (fun o => Nat.ltb o r) w.
Definition wf_seqb (r L : nat) (q : hseq) : bool :=
  (N.eqb (hs_hash q) 0 && match hs_ops q with [] => true | _ => false end) ||
  (N.eqb (hs_hash q) (hash (N.of_nat r) (hs_ops q)) && over_b r (hs_ops q) && Nat.leb (length (hs_ops q)) L).
Definition wf_ruleb (r L : nat) (rl : rule) : bool :=
  wf_seqb r L (rl_lhs rl) && wf_seqb r L (rl_rhs rl) && sign_eqb (hs_sign (rl_lhs rl)) SPos &&
  N.ltb (hs_hash (rl_rhs rl)) (hs_hash (rl_lhs rl)) && Bool.eqb (rl_zero rl) (hs_zero (rl_rhs rl)) && negb (rl_trivial rl).
Fixpoint sortedb (l : list N) : bool :=
  match l with [] => true | x :: l' => forallb (N.ltb x) l' && sortedb l' end.
Definition wf_mapb (r L : nat) (m : rulemap) : bool :=
  sortedb (map fst m) && forallb (fun kr => N.eqb (fst kr) (hs_hash (rl_lhs (snd kr))) && wf_ruleb r L (snd kr)) m.
Lemma over_b_ok r w : over_b r w = true -> over r w.
Proof. unfold over_b. rewrite forallb_forall. intros H o Ho. specialize (H o Ho). apply Nat.ltb_lt. exact H. Qed.
Lemma wf_seqb_ok r L q : wf_seqb r L q = true -> wf_seq r L q.
Proof.
  unfold wf_seqb. rewrite orb_true_iff, !andb_true_iff. intros [[H1 H2]|[[H1 H2] H3]].
  - left. split; [apply N.eqb_eq, H1|]. destruct (hs_ops q); [reflexivity|discriminate].
  - right. split; [apply N.eqb_eq, H1|]. split; [apply over_b_ok, H2|apply Nat.leb_le, H3].
Qed.
Lemma wf_ruleb_ok r L rl : wf_ruleb r L rl = true -> wf_rule r L rl.
Proof.
  unfold wf_ruleb. rewrite !andb_true_iff. intros [[[[[H1 H2] H3] H4] H5] H6].
  split; [apply wf_seqb_ok, H1|]. split; [apply wf_seqb_ok, H2|]. split; [apply sign_eqb_spec, H3|].
  split; [apply N.ltb_lt, H4|]. split; [apply eqb_prop, H5|]. destruct (rl_trivial rl); [discriminate|reflexivity].
Qed.
Lemma sortedb_ok l : sortedb l = true -> StronglySorted N.lt l.
Proof.
  induction l as [|x l IH]; cbn; [constructor|]. rewrite andb_true_iff, forallb_forall. intros [H1 H2].
  constructor; [apply IH, H2|]. apply Forall_forall. intros y Hy. apply N.ltb_lt, H1, Hy.
Qed.
Lemma wf_mapb_ok r L m : wf_mapb r L m = true -> wf_map r L m.
Proof.
  unfold wf_mapb. rewrite andb_true_iff, forallb_forall. intros [H1 H2]. split; [apply sortedb_ok, H1|].
  intros k rl Hin. specialize (H2 _ Hin). cbn [fst snd] in H2. apply andb_true_iff in H2 as [H2 H3].
  split; [apply N.eqb_eq, H2|apply wf_ruleb_ok, H3].
Qed.

(** interreduced, tame and overlap conditions as computable tests *)
Definition occursb (u w : word) : bool := existsb (fun i => is_prefix u (skipn i w)) (seq 0 (S (length w))).
Lemma is_prefix_app u b : is_prefix u (u ++ b) = true.
Proof. induction u as [|x u IH]; cbn; [reflexivity|]. rewrite Nat.eqb_refl. exact IH. Qed.
Lemma occursb_false u w : occursb u w = false -> ~ occurs u w.
Proof.
  intros H (p & q & ->). unfold occursb in H.
  assert (E : existsb (fun i => is_prefix u (skipn i (p ++ u ++ q))) (seq 0 (S (length (p ++ u ++ q)))) = true).
  { apply existsb_exists. exists (length p). split; [apply in_seq; rewrite app_length; lia|].
    rewrite skipn_app, skipn_all, Nat.sub_diag. cbn. apply is_prefix_app. }
  rewrite E in H. discriminate.
Qed.
Definition interreducedb (m : rulemap) : bool :=
  forallb (fun kr => match hs_ops (rl_lhs (snd kr)) with [] => false | _ => true end) m &&
  forallb (fun ka => forallb (fun kb => N.eqb (fst ka) (fst kb) || negb (occursb (hs_ops (rl_lhs (snd ka))) (hs_ops (rl_lhs (snd kb))))) m) m.
Lemma interreducedb_ok m : interreducedb m = true -> interreduced m.
Proof.
  unfold interreducedb. rewrite andb_true_iff, !forallb_forall. intros [H1 H2]. split.
  - intros k rl Hin E. specialize (H1 _ Hin). cbn in H1. rewrite E in H1. discriminate.
  - intros k1 a k2 b Ha Hb Hne. specialize (H2 _ Ha). rewrite forallb_forall in H2. specialize (H2 _ Hb). cbn [fst snd] in H2.
    apply orb_true_iff in H2 as [H2|H2]; [apply N.eqb_eq in H2; contradiction|]. apply occursb_false.
    apply negb_true_iff, H2.
Qed.
Definition tame_seqb (c : bool) (q : hseq) : bool :=
  N.eqb (hs_hash q) 0 || (if c then sign_eqb (hs_sign q) SPos
    else (sign_eqb (hs_sign q) SPos || sign_eqb (hs_sign q) SNeg) && match hs_ops q with [] => false | _ => true end).
Definition tame_mapb (c : bool) (m : rulemap) : bool := forallb (fun kr => tame_seqb c (rl_lhs (snd kr)) && tame_seqb c (rl_rhs (snd kr))) m.
Lemma tame_seqb_ok c q : tame_seqb c q = true -> tame_seq c q.
Proof.
  unfold tame_seqb, tame_seq, real_sign. rewrite orb_true_iff. intros [H|H]; [left; apply N.eqb_eq, H|right].
  destruct c; [apply sign_eqb_spec, H|]. apply andb_true_iff in H as [H1 H2]. split.
  - apply orb_true_iff in H1 as [H1|H1]; [left|right]; apply sign_eqb_spec, H1.
  - intro E. rewrite E in H2. discriminate.
Qed.
Lemma tame_mapb_ok c m : tame_mapb c m = true -> tame_map c m.
Proof.
  unfold tame_mapb. rewrite forallb_forall. intros H k rl Hin. specialize (H _ Hin). cbn in H. apply andb_true_iff in H as [H1 H2].
  split; apply tame_seqb_ok; assumption.
Qed.

(** every proper overlap of every two rules: the terms obtained in the two ways are rewritten (by [steps] of
    leftmost-first-rule reduction) to the same term *)
Fixpoint norm (steps : nat) (m : rulemap) (t : term) : term :=
  match steps, t with
  | S n, Some (s, w) => match iterate_match m w with
                        | Some (rl, pos) => norm n m (match via rl (firstn pos w) (skipn (pos + length (hs_ops (rl_lhs rl))) w) with
                                                      | None => None | Some (s', w') => Some (smul s s', w') end)
                        | None => t end
  | _, _ => t
  end.
Lemma norm_rws m : forall steps t, rewrites_star m t (norm steps m t).
Proof.
  induction steps as [|n IH]; intros [[s w]|]; cbn [norm]; try constructor.
  destruct (iterate_match m w) as [[rl pos]|] eqn:E; [|constructor].
  assert (E' : exists k a b, In (k, rl) m /\ w = a ++ hs_ops (rl_lhs rl) ++ b /\ length a = pos).
  { assert (Ov : over (S (fold_right Nat.max 0 w)) w).
    { clear. intros o Ho. induction w as [|x w IH]; [destruct Ho|]. destruct Ho as [->|Ho]; cbn; [lia|]. specialize (IH Ho). lia. }
    pose proof (iterate_match_ok (S (fold_right Nat.max 0 w)) (length w) m w Ov (le_n _)) as P.
    rewrite E in P. exact P. }
  destruct E' as (k & a & b & Hin & Hw & Hl). eapply rws_step; [|apply IH].
  subst w pos. rewrite firstn_app, Nat.sub_diag, firstn_all, firstn_O, app_nil_r.
  replace (skipn (length a + length (hs_ops (rl_lhs rl))) (a ++ hs_ops (rl_lhs rl) ++ b)) with b.
  2:{ rewrite app_assoc, skipn_app, app_length, Nat.sub_diag, skipn_all2 by (rewrite app_length; lia). reflexivity. }
  unfold via. destruct (N.eqb_spec (hs_hash (rl_rhs rl)) 0) as [Z|Z].
  - apply (rw_zero m k rl s a b Hin Z).
  - apply (rw_word m k rl s a b Hin Z).
Qed.
Definition term_eqb (t u : term) : bool :=
  match t, u with
  | None, None => true
  | Some (s, w), Some (s', w') => sign_eqb s s' && if list_eq_dec Nat.eq_dec w w' then true else false
  | _, _ => false
  end.
Lemma term_eqb_ok t u : term_eqb t u = true -> t = u.
Proof.
  destruct t as [[s w]|], u as [[s' w']|]; cbn; try discriminate; [|reflexivity]. rewrite andb_true_iff. intros [H1 H2].
  apply sign_eqb_spec in H1. destruct (list_eq_dec Nat.eq_dec w w'); [congruence|discriminate].
Qed.
Definition overlaps_joinb (steps : nat) (m : rulemap) : bool :=
  forallb (fun ka => forallb (fun kb => forallb (fun n =>
    let la := hs_ops (rl_lhs (snd ka)) in let lb := hs_ops (rl_lhs (snd kb)) in
    let x := firstn n la in let z := skipn (length la - n) lb in
    if list_eq_dec Nat.eq_dec (skipn n la) (firstn (length la - n) lb)
    then term_eqb (norm steps m (via (snd ka) [] z)) (norm steps m (via (snd kb) x [])) else true)
    (seq 1 (length (hs_ops (rl_lhs (snd ka)))))) m) m.
Lemma overlaps_joinb_ok steps m : overlaps_joinb steps m = true -> unexamined_overlaps_join m.
Proof.
  unfold overlaps_joinb. rewrite forallb_forall. intros H k1 a k2 b x y z Ha Hb (O1 & O2 & O3 & O4 & O5) _.
  specialize (H _ Ha). rewrite forallb_forall in H. specialize (H _ Hb). rewrite forallb_forall in H.
  specialize (H (length x)). cbn [snd] in H. rewrite O1, O2 in H.
  assert (Hlen : length x <> 0) by (destruct x; [congruence|discriminate]).
  rewrite in_seq, !app_length in H. specialize (H ltac:(lia)).
  rewrite (firstn_app (length x)), firstn_all, Nat.sub_diag, firstn_O, app_nil_r in H.
  rewrite (skipn_app (length x)), skipn_all, Nat.sub_diag in H. cbn [skipn app] in H.
  replace (length x + length y - length x) with (length y) in H by lia.
  rewrite (firstn_app (length y)), firstn_all, Nat.sub_diag, firstn_O, app_nil_r in H.
  rewrite (skipn_app (length y)), skipn_all, Nat.sub_diag in H. cbn [skipn app] in H.
  destruct (list_eq_dec Nat.eq_dec y y) as [_|C]; [|contradiction]. apply term_eqb_ok in H.
  eexists. split; [apply norm_rws|]. rewrite <- O1 at 1 || idtac. rewrite H. apply norm_rws.
Qed.
Lemma decidable_by_test L M c steps rb :
  N.ltb (count_words (N.of_nat (pc_num (rb_pc rb))) L) (2 ^ 64) && Nat.leb (2 * M) L && wf_mapb (pc_num (rb_pc rb)) M (rb_rules rb) &&
  tame_mapb c (rb_rules rb) && interreducedb (rb_rules rb) && overlaps_joinb steps (rb_rules rb) = true ->
  decidable_context L M c (mk_actx false rb).
Proof.
  rewrite !andb_true_iff. intros [[[[[H1 H2] H3] H4] H5] H6]. cbn.
  split; [apply N.ltb_lt, H1|]. split; [apply Nat.leb_le in H2; cbn in H2; exact H2|].
  split; [apply wf_mapb_ok, H3|]. split; [apply tame_mapb_ok, H4|]. split; [apply interreducedb_ok, H5|].
  split; [apply (overlaps_joinb_ok steps), H6|discriminate].
Qed.

(** two projectors X, Y with X Y X -> X and Y X Y -> Y; operators 0 = X and 1 = Y, self-adjoint *)
Definition projectors : rulebook :=
  recalculate (mk_rb (mk_pc 2 SelfAdjoint) [mk3 2 [0;0] (Some (SPos, [0])); mk3 2 [1;1] (Some (SPos, [1]));
     mk3 2 [0;1;0] (Some (SPos, [0])); mk3 2 [1;0;1] (Some (SPos, [1]))] 0).
Lemma projectors_decidable : decidable_context 8 3 true (mk_actx false projectors).
Proof. apply (decidable_by_test 8 3 true 20). vm_compute. reflexivity. Qed.
Lemma projectors_complete : is_complete 20 projectors true = Ret true.
Proof. vm_compute. reflexivity. Qed.
Lemma projectors_ok : context_ok 8 (mk_actx false projectors).
Proof. exact (proj1 (decidable_ok _ _ _ _ projectors_decidable)). Qed.
(** two anticommuting operators: Y X -> - X Y *)
Definition anticommuting : rulebook :=
  recalculate (mk_rb (mk_pc 2 SelfAdjoint) [mk3 2 [1;0] (Some (SNeg, [0;1]))] 0).
Lemma anticommuting_decidable : decidable_context 8 2 false (mk_actx false anticommuting).
Proof. apply (decidable_by_test 8 2 false 20). vm_compute. reflexivity. Qed.
Lemma anticommuting_complete : is_complete 20 anticommuting true = Ret true.
Proof. vm_compute. reflexivity. Qed.

(** C08 counterexamples.  X Y X -> Z is reported complete, although X Y X Y X = Z Y X = X Y Z are different normal forms *)
Definition self_overlap : rulebook := recalculate (mk_rb (mk_pc 3 SelfAdjoint) [mk3 3 [0;1;0] (Some (SPos, [2]))] 0).
Lemma self_overlap_refuted : is_complete 20 self_overlap true = Ret true /\ wf_map 3 3 (rb_rules self_overlap) /\
  exists p q, canonical_form 20 (mk_actx false self_overlap) [2;1;0] SPos = Ret p /\
              canonical_form 20 (mk_actx false self_overlap) [0;1;2] SPos = Ret q /\ p <> q /\
              provably_equal (rb_rules self_overlap) (Some (SPos, [2;1;0])) (Some (SPos, [0;1;2])).
Proof.
  split; [vm_compute; reflexivity|]. split; [apply wf_mapb_ok; vm_compute; reflexivity|].
  exists (hseq_make 3 [2;1;0] SPos), (hseq_make 3 [0;1;2] SPos).
  split; [vm_compute; reflexivity|]. split; [vm_compute; reflexivity|]. split; [discriminate|].
  intros A v HA.
  assert (HL : hash_safe 3 6) by reflexivity.
  assert (W : wf_map 3 6 (rb_rules self_overlap)) by (apply wf_mapb_ok; vm_compute; reflexivity).
  apply aeq_trans with (den_term A v (Some (SPos, [0;1;0;1;0]))).
  - apply aeq_sym. refine (rewrites_sound A v 3 6 _ _ _ HL W HA _).
    apply (rw_word (rb_rules self_overlap) (fst (mk3 3 [0;1;0] (Some (SPos, [2])))) (snd (mk3 3 [0;1;0] (Some (SPos, [2])))) SPos [] [1;0]);
      [left; reflexivity|vm_compute; discriminate].
  - refine (rewrites_sound A v 3 6 _ _ _ HL W HA _).
    apply (rw_word (rb_rules self_overlap) (fst (mk3 3 [0;1;0] (Some (SPos, [2])))) (snd (mk3 3 [0;1;0] (Some (SPos, [2])))) SPos [0;1] []);
      [left; reflexivity|vm_compute; discriminate].
Qed.
(** containment: Y -> X and X Y X -> Z; reported complete before the rule set has been reduced *)
Definition contained : rulebook :=
  recalculate (mk_rb (mk_pc 3 SelfAdjoint) [mk3 3 [1] (Some (SPos, [0])); mk3 3 [0;1;0] (Some (SPos, [2]))] 0).
Lemma contained_refuted : is_complete 20 contained false = Ret true /\ wf_map 3 3 (rb_rules contained) /\
  exists p q, canonical_form 20 (mk_actx false contained) [0;0;0] SPos = Ret p /\
              canonical_form 20 (mk_actx false contained) [2] SPos = Ret q /\ p <> q /\
              provably_equal (rb_rules contained) (Some (SPos, [0;0;0])) (Some (SPos, [2])).
Proof.
  split; [vm_compute; reflexivity|]. split; [apply wf_mapb_ok; vm_compute; reflexivity|].
  exists (hseq_make 3 [0;0;0] SPos), (hseq_make 3 [2] SPos).
  split; [vm_compute; reflexivity|]. split; [vm_compute; reflexivity|]. split; [discriminate|].
  intros A v HA.
  assert (HL : hash_safe 3 6) by reflexivity.
  assert (W : wf_map 3 6 (rb_rules contained)) by (apply wf_mapb_ok; vm_compute; reflexivity).
  apply aeq_trans with (den_term A v (Some (SPos, [0;1;0]))).
  - apply aeq_sym. refine (rewrites_sound A v 3 6 _ _ _ HL W HA _).
    apply (rw_word (rb_rules contained) (fst (mk3 3 [1] (Some (SPos, [0])))) (snd (mk3 3 [1] (Some (SPos, [0])))) SPos [0] [0]);
      [left; reflexivity|vm_compute; discriminate].
  - refine (rewrites_sound A v 3 6 _ _ _ HL W HA _).
    apply (rw_word (rb_rules contained) (fst (mk3 3 [0;1;0] (Some (SPos, [2])))) (snd (mk3 3 [0;1;0] (Some (SPos, [2])))) SPos [] []);
      [right; left; reflexivity|vm_compute; discriminate].
Qed.

(* ---------------------------------------------------------------- C07 counterexample *)
(** X X -> -1 becomes X X -> +1 *)
Definition minus_one_book : rulebook := recalculate (mk_rb (mk_pc 1 SelfAdjoint) [mk3 1 [0;0] (Some (SNeg, []))] 0).
Lemma minus_one_refuted : exists rb' n, reduce_ruleset 20 minus_one_book = Ret (rb', n) /\ wf_map 1 2 (rb_rules minus_one_book) /\
  exists A v, all_hold A v (rb_rules minus_one_book) /\ ~ all_hold A v (rb_rules rb').
Proof.
  eexists. eexists. split; [vm_compute; reflexivity|]. split; [apply wf_mapb_ok; vm_compute; reflexivity|].
  exists phase_algebra, (fun _ => Some SIm). split.
  - intros k rl [H|[]]. injection H as <- <-. reflexivity.
  - intro H. specialize (H _ _ (or_introl eq_refl)). vm_compute in H. discriminate.
Qed.

(* ---------------------------------------------------------------- C09 counterexample *)
Definition free_bunched : acontext := mk_actx false (mk_rb (mk_pc 1 Bunched) [] 0).
Lemma phase_dropped : exists q c cc, canonical 4 free_bunched q /\ conjugate 5 free_bunched q = Ret c /\ conjugate 5 free_bunched c = Ret cc /\
  is_complete 5 (ac_rules free_bunched) true = Ret true /\ cc <> q /\ hs_sign c <> sconj (hs_sign q).
Proof.
  exists (hseq_make 2 [0] SNeg), (hseq_make 2 [1] SPos), (hseq_make 2 [0] SPos).
  split; [|repeat split; try reflexivity; discriminate].
  split; [apply wf_seqb_ok; reflexivity|]. split; [intros k rl []|discriminate].
Qed.
(* ---------------------------------------------------------------- phases pass through conjugation *)
Lemma conjugate_phase_commutes L ctx fuel q k c ck : context_ok L ctx -> wf_seq (pc_num (rb_pc (ac_rules ctx))) L q ->
  pc_mode (rb_pc (ac_rules ctx)) = SelfAdjoint ->
  conjugate fuel ctx q = Ret c -> conjugate fuel ctx (set_sign q (smul k (hs_sign q))) = Ret ck ->
  forall (A : star_algebra) v, star_model A (rb_pc (ac_rules ctx)) v -> context_model A v ctx ->
  aeq A (den A v ck) (aph A (sconj k) (den A v c)).
Proof.
  intros Hc W Hm E1 E2 A v HS HM.
  assert (W' : wf_seq (pc_num (rb_pc (ac_rules ctx))) L (set_sign q (smul k (hs_sign q)))).
  { destruct W as [[H1 H2]|(H1 & H2 & H3)]; [left; split; assumption|right; split; [assumption|split; assumption]]. }
  pose proof (conjugate_sound L ctx fuel _ _ Hc W (or_introl Hm) E1 A v HS HM) as S1.
  pose proof (conjugate_sound L ctx fuel _ _ Hc W' (or_introl Hm) E2 A v HS HM) as S2.
  eapply aeq_trans; [exact S2|]. eapply aeq_trans; [|apply aph_cong, aeq_sym, S1].
  assert (D : aeq A (den A v (set_sign q (smul k (hs_sign q)))) (aph A k (den A v q))).
  { unfold den. cbn [set_sign hs_hash hs_sign hs_ops]. destruct (N.eqb (hs_hash q) 0); [apply aeq_sym, aph_zero|].
    unfold den_signed. apply aeq_sym, aph_mul. }
  eapply aeq_trans; [apply astar_cong, D|]. apply astar_ph.
Qed.
