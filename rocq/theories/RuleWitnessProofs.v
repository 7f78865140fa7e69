(** Concrete rulebooks. *)
From Coq Require Import List NArith ZArith Arith Bool Sorted Permutation Lia QArith Qcanon.
From Verif Require Import CoreModel FieldModel FieldProofs SymModel SymSpec PolyModel PolySpec PolyProofs PolyOpsProofs PolyTableProofs PolyWitnessProofs RuleModel RuleSpec RuleThmProofs.
Import ListNotations.
Local Open Scope nat_scope.

Definition qpos (x : Q') : bool := negb (Qle_bool (this x) 0).
Definition qsqrt (z : cx Q') : option (cx Q') := if ceqb z c1 then Some c1 else if ceqb z (copp c1) then Some ci else None.
Definition F8 : factory Q' := mk_factory t8 id_less (isort id_less) (isort id_less) qpos qsqrt.
Lemma F8_ok : factory_ok F8.
Proof.
  constructor; cbn [fa_table fa_lt fa_sort fa_idsort fa_pos fa_sqrt F8].
  - apply id_less_order.
  - intros x y _ _ E L. unfold id_less. rewrite E. apply Nat.ltb_lt in L. now rewrite L.
  - apply isort_sorts, id_less_order.
  - apply isort_sorts, id_less_order.
  - apply t8_good.
  - apply t8_good.
  - split; vm_compute; reflexivity.
  - intros z s H. unfold qsqrt in H. destruct (ceqb z c1) eqn:E1; [|destruct (ceqb z (copp c1)) eqn:E2; [|discriminate]].
    + injection H as <-. apply (ceqb_spec Q') in E1. subst z. split; [apply (ceqb_spec Q'); vm_compute; reflexivity|]. intros _. apply (r_eqb_spec Q'). vm_compute. reflexivity.
    + injection H as <-. apply (ceqb_spec Q') in E2. subst z. split; [apply (ceqb_spec Q'); vm_compute; reflexivity|]. intros _. apply (r_eqb_spec Q'). vm_compute. reflexivity.
Qed.
Definition keep (l : list (list (mono Q'))) : list (list (mono Q')) := l.
Definition flip (l : list (list (mono Q'))) : list (list (mono Q')) := rev l.
Lemma keep_ok l : Permutation l (keep l). Proof. apply Permutation_refl. Qed.
Lemma flip_ok l : Permutation l (flip l). Proof. apply Permutation_rev. Qed.

Definition after (x : rbout) : rulebook := match x with RDone b _ => b | _ => new_rulebook (R := Q') true end.
Definition count (x : rbout (R := Q')) : nat := match x with RDone _ n => n | _ => 0 end.
Definition is_done (x : rbout (R := Q')) : bool := match x with RDone _ _ => true | _ => false end.
Definition is_throw (x : rbout (R := Q')) : bool := match x with RThrow _ => true | _ => false end.
Definition thrown (x : rbout (R := Q')) : rulebook := match x with RThrow b => b | _ => new_rulebook (R := Q') true end.
Lemma is_done_eq x : is_done x = true -> x = RDone (after x) (count x). Proof. destruct x; easy. Qed.
Lemma is_throw_eq x : is_throw x = true -> x = RThrow (thrown x). Proof. destruct x; easy. Qed.

(** Re X6 = X5, X4 = 3 X5 + 1, X3 = X4 *)
Definition eqs8 : list (list (mono Q')) :=
  [ [mq 5 false (-2) 0; mq 6 false 1 0; mq 6 true 1 0]; [mq 1 false (-1) 0; mq 4 false 1 0; mq 5 false (-3) 0]; [mq 3 false 1 0; mq 4 false (-1) 0] ].
Lemma eqs8_canonical : Forall (canonical t8 id_less) eqs8.
Proof. unfold eqs8. constructor; [|constructor; [|constructor; [|constructor]]]; apply canonical_by; vm_compute; reflexivity. Qed.
Definition raw8 : rulebook := set_raw (new_rulebook (R := Q') false) eqs8.
Definition run8 (psrt : list (list (mono Q')) -> list (list (mono Q'))) : rbout := complete F8 psrt 6 raw8.
Definition book8 : rulebook := after (run8 keep).
Definition book8' : rulebook := after (run8 flip).
Lemma run8_keep : run8 keep = RDone book8 3.
Proof. rewrite (is_done_eq (run8 keep)) by (vm_compute; reflexivity). f_equal. Qed.
Lemma run8_flip : run8 flip = RDone book8' 3.
Proof. rewrite (is_done_eq (run8 flip)) by (vm_compute; reflexivity). f_equal. Qed.
Lemma raw8_session psrt : session F8 psrt raw8 eqs8.
Proof. apply (s_add F8 psrt (new_rulebook false) [] eqs8 raw8 0); [constructor|exact eqs8_canonical|reflexivity]. Qed.
Lemma book8_session : session F8 keep book8 eqs8. Proof. exact (s_complete F8 keep raw8 eqs8 6 book8 3 (raw8_session keep) run8_keep). Qed.
Lemma book8'_session : session F8 flip book8' eqs8. Proof. exact (s_complete F8 flip raw8 eqs8 6 book8' 3 (raw8_session flip) run8_flip). Qed.
Lemma book8_shape : rb_raw book8 = [] /\ rb_raw book8' = [] /\ map (fun r => (ru_lhs r, ru_partial r, length (ru_rhs r))) (rb_rules book8) = [(4, false, 1); (5, false, 2); (6, true, 4)].
Proof. split; [vm_compute; reflexivity|]. split; vm_compute; reflexivity. Qed.
Lemma raw8_open : locked raw8 = false /\ 2 * length (rb_raw raw8) = 6. Proof. split; vm_compute; reflexivity. Qed.

(** a second rulebook, X7 = i X2, and one that contradicts the first, X3 = 2 and X5 = 5 *)
Definition eqs9 : list (list (mono Q')) := [ [mq 2 false 0 (-1); mq 7 false 1 0] ].
Definition eqs10 : list (list (mono Q')) := [ [mq 1 false (-2) 0; mq 3 false 1 0]; [mq 1 false (-5) 0; mq 5 false 1 0] ].
Lemma eqs9_canonical : Forall (canonical t8 id_less) eqs9.
Proof. unfold eqs9. constructor; [|constructor]; apply canonical_by; vm_compute; reflexivity. Qed.
Lemma eqs10_canonical : Forall (canonical t8 id_less) eqs10.
Proof. unfold eqs10. constructor; [|constructor; [|constructor]]; apply canonical_by; vm_compute; reflexivity. Qed.
Definition made_from (eqs : list (list (mono Q'))) : rbout := complete F8 keep (2 * length eqs) (set_raw (new_rulebook false) eqs).
Definition book9 : rulebook := after (made_from eqs9).
Definition book10 : rulebook := after (made_from eqs10).
Lemma made_session eqs : Forall (canonical t8 id_less) eqs -> is_done (made_from eqs) = true -> session F8 keep (after (made_from eqs)) eqs.
Proof.
  intros C H. apply (s_complete F8 keep (set_raw (new_rulebook false) eqs) eqs (2 * length eqs) _ (count (made_from eqs))); [|exact (is_done_eq _ H)].
  apply (s_add F8 keep (new_rulebook false) [] eqs _ 0); [constructor|exact C|reflexivity].
Qed.
Lemma book9_session : session F8 keep book9 eqs9. Proof. apply made_session; [exact eqs9_canonical|vm_compute; reflexivity]. Qed.
Lemma book10_session : session F8 keep book10 eqs10. Proof. apply made_session; [exact eqs10_canonical|vm_compute; reflexivity]. Qed.
Lemma combine_done : exists b', combine_and_complete F8 keep 2 book8 book9 = RDone b' 1 /\ length (rb_rules b') = 4.
Proof.
  exists (after (combine_and_complete F8 keep 2 book8 book9)). split; [|vm_compute; reflexivity].
  rewrite (is_done_eq (combine_and_complete F8 keep 2 book8 book9)) at 1 by (vm_compute; reflexivity). f_equal.
Qed.
Lemma combine_threw : exists b', combine_and_complete F8 keep 4 book8 book10 = RThrow b'.
Proof. exists (thrown (combine_and_complete F8 keep 4 book8 book10)). apply is_throw_eq. vm_compute. reflexivity. Qed.
Lemma contradicts : exists b', complete F8 keep 6 (set_raw book8 eqs10) = RThrow b' /\ session F8 keep (set_raw book8 eqs10) (eqs8 ++ eqs10).
Proof.
  exists (thrown (complete F8 keep 6 (set_raw book8 eqs10))). split; [apply is_throw_eq; vm_compute; reflexivity|].
  apply (s_add F8 keep book8 eqs8 eqs10 _ 0); [exact book8_session|exact eqs10_canonical|]. unfold add_raw_rules. replace (locked book8) with false by (vm_compute; reflexivity).
  rewrite (proj1 book8_shape). reflexivity.
Qed.
Lemma rulebooks_compare : map (fun x => match x with AEqualsB => 0 | BContainsA _ => 1 | AContainsB _ => 2 | Disjoint _ _ => 3 end)
  [compare_rulebooks F8 (rb_rules book8) (rb_rules book8'); compare_rulebooks F8 [] (rb_rules book8); compare_rulebooks F8 (rb_rules book8) (rb_rules book9)] = [0; 1; 3].
Proof. vm_compute. reflexivity. Qed.
(** (1+i) X4 + 2 X5 + X6 *)
Definition long8 : list (mono Q') := [mq 4 false 1 1; mq 5 false 2 0; mq 6 false 1 0].
Definition x4 : mono Q' := mq 4 false 1 1.
Definition x5 : mono Q' := mq 5 false 1 1.
Lemma p8_reduced : map (fun x => (m_id x, m_cj x)) (reduce F8 (rb_rules book8) long8) = [(1, false); (3, false); (6, false); (6, true)].
Proof. vm_compute. reflexivity. Qed.
Lemma long_canonical : canonical t8 id_less long8. Proof. apply canonical_by. vm_compute. reflexivity. Qed.
Lemma mono_canonical : canonical t8 id_less [x4]. Proof. apply canonical_by. vm_compute. reflexivity. Qed.
Lemma mono_reduced : option_map (fun x => (m_id x, m_cj x)) (reduce_monomial F8 (rb_rules book8) x4) = Some (3, false) /\ reduce_monomial F8 (rb_rules book8) x5 = None.
Proof. split; vm_compute; reflexivity. Qed.

Lemma map_ids : forall x, In x [(4, q2); (3, q3)] -> 1 < fst x < length (t_syms (fa_table F8)).
Proof. intros x [<-|[<-|[]]]; split; apply Nat.ltb_lt; vm_compute; reflexivity. Qed.
Lemma cmap_ids : forall x, In x [(4, creal q2); (6, ci)] -> 1 < fst x < length (t_syms (fa_table F8)).
Proof. intros x [<-|[<-|[]]]; split; apply Nat.ltb_lt; vm_compute; reflexivity. Qed.

(** X3 = 1 and X3 = 2: the first call throws; the second one does not *)
Definition eqs2 : list (list (mono Q')) := [ [mq 1 false (-1) 0; mq 3 false 1 0]; [mq 1 false (-2) 0; mq 3 false 1 0] ].
Lemma eqs2_canonical : Forall (canonical t8 id_less) eqs2.
Proof. unfold eqs2. constructor; [|constructor; [|constructor]]; apply canonical_by; vm_compute; reflexivity. Qed.
Definition raw2 : rulebook := set_raw (new_rulebook (R := Q') false) eqs2.
Lemma raw2_session : session F8 keep raw2 eqs2.
Proof. apply (s_add F8 keep (new_rulebook false) [] eqs2 raw2 0); [constructor|exact eqs2_canonical|reflexivity]. Qed.
Lemma retry : exists b eqs b' b'' n, session F8 keep b eqs /\ complete F8 keep (2 * length eqs) b = RThrow b' /\ complete F8 keep (2 * length eqs) b' = RDone b'' n /\
  rb_raw b'' = [] /\ forall v, assignment (fa_table F8) v -> ~ solves v eqs.
Proof.
  exists raw2, eqs2, (thrown (complete F8 keep 4 raw2)), (after (complete F8 keep 4 (thrown (complete F8 keep 4 raw2)))), (count (complete F8 keep 4 (thrown (complete F8 keep 4 raw2)))).
  assert (E : complete F8 keep (2 * length eqs2) raw2 = RThrow (thrown (complete F8 keep 4 raw2))) by (apply is_throw_eq; vm_compute; reflexivity).
  split; [exact raw2_session|]. split; [exact E|]. split; [apply is_done_eq; vm_compute; reflexivity|]. split; [vm_compute; reflexivity|].
  destruct (t_throw Q' F8 F8_ok keep keep_ok raw2 eqs2 _ _ raw2_session E) as [[L _]|[_ L]]; [|exact L]. vm_compute in L. discriminate.
Qed.

Lemma used_case : session F8 keep (use book8) eqs8 /\ rb_safe (use book8) = false /\ 0 < rb_uses (use book8).
Proof. split; [apply s_use, book8_session|]. split; [vm_compute; reflexivity|apply Nat.ltb_lt; reflexivity]. Qed.
Lemma safe_case : session F8 keep (use (new_rulebook true)) [] /\ 0 < rb_uses (use (new_rulebook (R := Q') true)) /\ rb_safe (use (new_rulebook (R := Q') true)) = true.
Proof. split; [apply s_use, s_new|]. split; [apply Nat.ltb_lt; reflexivity|reflexivity]. Qed.
