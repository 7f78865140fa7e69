(** Proofs about direct implication between rules. *)
From Coq Require Import List NArith Arith Bool Lia.
From Verif Require Import CoreModel CoreSpec CoreProofs AlgModel AlgSpec AlgProofs LocProofs RimModel RimSpec.
Import ListNotations.

Lemma same_word_eq : forall u w, same_word u w = true <-> u = w.
Proof.
  induction u as [|a u IH]; intros [|b w]; cbn [same_word]; try (split; [discriminate|discriminate]); [split; reflexivity|].
  rewrite andb_true_iff, Nat.eqb_eq, IH. split; [intros [-> ->]; reflexivity|intro E; injection E as -> ->; split; reflexivity].
Qed.
Lemma firstn_app_exact {A} (p u : list A) : firstn (length p) (p ++ u) = p.
Proof. rewrite firstn_app, Nat.sub_diag, firstn_all. cbn. apply app_nil_r. Qed.
Lemma skipn_app_exact {A} (p u q : list A) : skipn (length p + length u) (p ++ u ++ q) = q.
Proof. rewrite app_assoc, <- app_length, skipn_app, Nat.sub_diag, skipn_all. reflexivity. Qed.
Lemma found_first u w p q : w <> [] -> first_found p u q w -> matches_anywhere u w = Some (length p).
Proof.
  intros Hw [E F]. destruct (matches_anywhere u w) as [n|] eqn:M.
  - f_equal. apply Nat.le_antisymm; [apply (matches_anywhere_first u w n M p q E)|].
    destruct (matches_anywhere_some u w n M) as (_ & x & y & Ex & <-). apply (F x y Ex).
  - exfalso. destruct u as [|o u].
    + destruct w; [contradiction|]. cbn in M. discriminate.
    + apply (matches_anywhere_none (o :: u) ltac:(discriminate) w M). exists p, q. exact E.
Qed.

Lemma implies_exact a b : hs_ops (rl_lhs b) <> [] -> hs_ops (rl_rhs b) <> [] ->
  (implies a b = true <-> exists p q, first_found p (hs_ops (rl_lhs a)) q (hs_ops (rl_lhs b)) /\ first_found p (hs_ops (rl_rhs a)) q (hs_ops (rl_rhs b))).
Proof.
  unfold implies. generalize (hs_ops (rl_lhs a)) as al, (hs_ops (rl_rhs a)) as ar, (hs_ops (rl_lhs b)) as bl, (hs_ops (rl_rhs b)) as br.
  intros al ar bl br Hl Hr. split.
  - destruct (matches_anywhere al bl) as [i|] eqn:M; [|discriminate]. destruct (matches_anywhere ar br) as [j|] eqn:K; [|discriminate].
    pose proof (matches_anywhere_first _ _ _ M) as FM. pose proof (matches_anywhere_first _ _ _ K) as FK.
    apply matches_anywhere_some in M as (_ & x & y & -> & <-). apply matches_anywhere_some in K as (_ & z & t & -> & <-).
    rewrite !firstn_app_exact, !skipn_app_exact.
    destruct (same_word x z) eqn:S; [|discriminate]. apply same_word_eq in S as ->. intro S. apply same_word_eq in S as ->.
    exists z, t. split; split; try reflexivity; assumption.
  - intros (p & q & F & G).
    pose proof (found_first al bl p q Hl F) as E1. pose proof (found_first ar br p q Hr G) as E2.
    rewrite E1, E2. destruct F as [-> _], G as [-> _]. rewrite !firstn_app_exact, !skipn_app_exact.
    assert (S : same_word p p = true) by (apply same_word_eq; reflexivity). rewrite S. apply same_word_eq. reflexivity.
Qed.
Lemma implies_sides a b : implies a b = true -> hs_ops (rl_lhs b) <> [] /\ hs_ops (rl_rhs b) <> [].
Proof.
  unfold implies. intro H. split; intro E; rewrite E in H; cbn in H; [discriminate|].
  destruct (matches_anywhere (hs_ops (rl_lhs a)) (hs_ops (rl_lhs b))); discriminate.
Qed.
Lemma implies_extends a b : implies a b = true -> extends a b.
Proof.
  intro H. destruct (implies_sides a b H) as [Hl Hr]. apply (implies_exact a b Hl Hr) in H as (p & q & [E _] & [F _]).
  exists p, q. split; assumption.
Qed.
Lemma implies_self a : hs_ops (rl_lhs a) <> [] -> hs_ops (rl_rhs a) <> [] -> implies a a = true.
Proof.
  intros Hl Hr. apply (implies_exact a a Hl Hr). exists [], [].
  split; (split; [symmetry; apply app_nil_r|intros; cbn; lia]).
Qed.
Lemma empty_never a b : hs_ops (rl_rhs b) = [] -> implies a b = false.
Proof. intro E. destruct (implies a b) eqn:H; [|reflexivity]. apply implies_sides in H as [_ H]. contradiction. Qed.

Lemma extends_consequence r L a b : hash_safe r L -> wf_rule r L a -> wf_rule r L b -> rl_zero a = false -> hs_ops (rl_rhs b) <> [] -> rule_sign a = rule_sign b ->
  extends a b -> consequence a b.
Proof.
  intros HL Wa Wb Za Hr S (p & q & E & F) A v H. unfold holds in *.
  destruct Wa as (La & Ra & Sa & Ga & Zra & _), Wb as (Lb & Rb & Sb & Gb & _ & _).
  assert (N1 : (hs_hash (rl_rhs a) =? 0)%N = false) by (rewrite Zra in Za; exact Za).
  assert (N0 : (hs_hash (rl_lhs a) =? 0)%N = false) by (apply N.eqb_neq; lia).
  assert (N3 : (hs_hash (rl_rhs b) =? 0)%N = false).
  { destruct Rb as [[_ C]|(C & O & Le)]; [contradiction|]. rewrite C. apply N.eqb_neq. apply (hash_nonzero r L _ HL O Le). }
  assert (N2 : (hs_hash (rl_lhs b) =? 0)%N = false) by (apply N.eqb_neq; lia).
  unfold den in *. rewrite N0, N1 in H. rewrite N2, N3. unfold den_signed in *. unfold rule_sign in S. rewrite Sa in H. rewrite Sb, <- S, E, F.
  assert (H' : aeq A (den_word A v (hs_ops (rl_lhs a))) (aph A (hs_sign (rl_rhs a)) (den_word A v (hs_ops (rl_rhs a))))).
  { eapply aeq_trans; [apply aeq_sym, aph_pos|exact H]. }
  eapply aeq_trans; [apply aph_pos|].
  eapply aeq_trans; [apply den_word_app|].
  eapply aeq_trans; [apply amul_cong; [apply aeq_refl|apply den_word_app]|].
  eapply aeq_trans; [apply amul_cong; [apply aeq_refl|apply amul_cong; [exact H'|apply aeq_refl]]|].
  eapply aeq_trans; [apply amul_cong; [apply aeq_refl|apply aph_mul_l]|].
  eapply aeq_trans; [apply aph_mul_r|]. apply aph_cong.
  apply aeq_sym. eapply aeq_trans; [apply den_word_app|]. apply amul_cong; [apply aeq_refl|apply den_word_app].
Qed.
Lemma implies_sound r L a b : hash_safe r L -> wf_rule r L a -> wf_rule r L b -> rl_zero a = false -> rule_sign a = rule_sign b -> implies a b = true -> consequence a b.
Proof.
  intros HL Wa Wb Z S H. apply (extends_consequence r L); try assumption; [apply (implies_sides a b H)|apply implies_extends, H].
Qed.

(** Phases and zero: the algebra of the witnesses. *)
Definition pz_mul (x y : option sign) : option sign := match x, y with Some s, Some t => Some (smul s t) | _, _ => None end.
Definition pz_ph (s : sign) (x : option sign) : option sign := option_map (smul s) x.
Definition phases_and_zero : algebra.
Proof.
  refine (Build_algebra (option sign) eq (Some SPos) None pz_mul pz_ph _ _ _ _ _ _ _ _ _ _ _ _ _ _ _ _).
  - reflexivity.
  - intros; symmetry; assumption.
  - intros; etransitivity; eassumption.
  - intros; subst; reflexivity.
  - intros; subst; reflexivity.
  - intros [[]|] [[]|] [[]|]; reflexivity.
  - intros [[]|]; reflexivity.
  - intros [[]|]; reflexivity.
  - intros [[]|]; reflexivity.
  - intros [[]|]; reflexivity.
  - intros [[]|]; reflexivity.
  - intros [] [] [[]|]; reflexivity.
  - intros [] [[]|] [[]|]; reflexivity.
  - intros [] [[]|] [[]|]; reflexivity.
  - intros []; reflexivity.
  - intros [] [[]|]; cbn; intros; try reflexivity; try discriminate; contradiction.
Defined.

Lemma sign_witness : exists a b, make_rule (hseq_make 2 [1] SPos) (hseq_make 2 [0] SPos) = Ret a /\ make_rule (hseq_make 2 [1] SPos) (hseq_make 2 [0] SNeg) = Ret b /\
  implies a b = true /\ ~ consequence a b.
Proof.
  eexists; eexists. split; [vm_compute; reflexivity|]. split; [vm_compute; reflexivity|]. split; [vm_compute; reflexivity|].
  intro C. specialize (C phases_and_zero (fun _ => Some SPos)). assert (X : Some SPos = Some SNeg) by (apply C; vm_compute; reflexivity). discriminate.
Qed.
Lemma zero_witness : exists a b, make_rule (hseq_make 2 [0; 0] SPos) (hseq_const true) = Ret a /\ make_rule (hseq_make 2 [0; 0; 1] SPos) (hseq_make 2 [1] SPos) = Ret b /\
  implies a b = true /\ ~ consequence a b.
Proof.
  eexists; eexists. split; [vm_compute; reflexivity|]. split; [vm_compute; reflexivity|]. split; [vm_compute; reflexivity|].
  intro C. specialize (C phases_and_zero (fun o => match o with 0 => None | _ => Some SPos end)). assert (X : None = Some SPos) by (apply C; vm_compute; reflexivity). discriminate.
Qed.
Lemma self_witness : exists a, make_rule (hseq_make 2 [0; 0] SPos) (hseq_make 2 [] SPos) = Ret a /\ extends a a /\ implies a a = false.
Proof. eexists. split; [vm_compute; reflexivity|]. split; [exists [], []; split; reflexivity|vm_compute; reflexivity]. Qed.
Lemma later_witness : exists a b, make_rule (hseq_make 2 [1] SPos) (hseq_make 2 [0] SPos) = Ret a /\ make_rule (hseq_make 2 [0; 1] SPos) (hseq_make 2 [0; 0] SPos) = Ret b /\
  extends a b /\ implies a b = false.
Proof. eexists; eexists. split; [vm_compute; reflexivity|]. split; [vm_compute; reflexivity|]. split; [exists [0], []; split; reflexivity|vm_compute; reflexivity]. Qed.

Lemma imp_example : exists a b, make_rule (hseq_make 4 [1; 1; 0] SPos) (hseq_make 4 [0] SNeg) = Ret a /\ make_rule (hseq_make 4 [2; 1; 1; 0; 3] SPos) (hseq_make 4 [2; 0; 3] SNeg) = Ret b /\
  hash_safe 4 5 /\ wf_rule 4 5 a /\ wf_rule 4 5 b /\ rl_zero a = false /\ rule_sign a = rule_sign b /\ implies a b = true /\ implies b a = false.
Proof.
  eexists; eexists. split; [vm_compute; reflexivity|]. split; [vm_compute; reflexivity|]. split; [vm_compute; reflexivity|].
  assert (O : forall w, forallb (fun o => o <? 4) w = true -> over 4 w).
  { intros w H o I. apply Nat.ltb_lt. rewrite forallb_forall in H. apply (H o I). }
  split; [|split; [|repeat split; vm_compute; reflexivity]];
  (split; [right; split; [vm_compute; reflexivity|split; [apply O; reflexivity|cbn; lia]]|
   split; [right; split; [vm_compute; reflexivity|split; [apply O; reflexivity|cbn; lia]]|repeat split; vm_compute; reflexivity]]).
Qed.
Lemma sides_example : exists a b, make_rule (hseq_make 4 [1; 1; 0] SPos) (hseq_make 4 [0] SNeg) = Ret a /\ make_rule (hseq_make 4 [2; 0] SPos) (hseq_make 4 [] SPos) = Ret b /\
  hs_ops (rl_lhs a) <> [] /\ hs_ops (rl_rhs a) <> [] /\ hs_ops (rl_rhs b) = [].
Proof. eexists; eexists. split; [vm_compute; reflexivity|]. split; [vm_compute; reflexivity|]. repeat split; discriminate. Qed.

Lemma nearly_found u w p q : w = p ++ u ++ q -> (forall p' q', w = p' ++ u ++ q' -> p' = p) -> first_found p u q w.
Proof. intros E U. split; [exact E|]. intros p' q' E'. rewrite (U p' q' E'). lia. Qed.
Lemma implies_complete a b p q : hs_ops (rl_lhs b) <> [] -> hs_ops (rl_rhs b) <> [] ->
  hs_ops (rl_lhs b) = p ++ hs_ops (rl_lhs a) ++ q -> hs_ops (rl_rhs b) = p ++ hs_ops (rl_rhs a) ++ q ->
  (forall p' q', hs_ops (rl_lhs b) = p' ++ hs_ops (rl_lhs a) ++ q' -> p' = p) ->
  (forall p' q', hs_ops (rl_rhs b) = p' ++ hs_ops (rl_rhs a) ++ q' -> p' = p) -> implies a b = true.
Proof. intros Hl Hr E F U V. apply (implies_exact a b Hl Hr). exists p, q. split; apply nearly_found; assumption. Qed.
Lemma complete_example : exists a b, make_rule (hseq_make 4 [1] SPos) (hseq_make 4 [0] SPos) = Ret a /\ make_rule (hseq_make 4 [2; 1; 3] SPos) (hseq_make 4 [2; 0; 3] SPos) = Ret b /\
  hs_ops (rl_lhs b) <> [] /\ hs_ops (rl_rhs b) <> [] /\ hs_ops (rl_lhs b) = [2] ++ hs_ops (rl_lhs a) ++ [3] /\ hs_ops (rl_rhs b) = [2] ++ hs_ops (rl_rhs a) ++ [3] /\
  (forall p' q', hs_ops (rl_lhs b) = p' ++ hs_ops (rl_lhs a) ++ q' -> p' = [2]) /\ (forall p' q', hs_ops (rl_rhs b) = p' ++ hs_ops (rl_rhs a) ++ q' -> p' = [2]).
Proof.
  eexists; eexists. split; [vm_compute; reflexivity|]. split; [vm_compute; reflexivity|]. do 4 (split; [first [discriminate|reflexivity]|]).
  split; intros p' q' E; cbn in E; destruct p' as [|x [|y [|z p']]]; cbn in E; try discriminate; injection E; intros; subst; try reflexivity; destruct p'; discriminate.
Qed.
