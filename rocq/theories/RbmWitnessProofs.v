(** Concrete matrices of rulebooks. *)
From Coq Require Import List NArith ZArith Arith Bool Sorted Permutation Lia QArith Qcanon.
From Verif Require Import CoreModel FieldModel FieldProofs SymModel SymSpec SymWitnessProofs PolyModel PolySpec PolyProofs PolyOpsProofs PolyTableProofs PolyWitnessProofs RuleModel RuleSpec RuleThmProofs RuleWitnessProofs RbmModel RbmSpec RbmProofs RbmFinalProofs.
Import ListNotations.
Local Open Scope nat_scope.

Definition qabs (x : Q') : Q := Qabs.Qabs (this x).
Definition qmostly (e : cx Q') : bool := Qle_bool (qabs (cim e)) (qabs (cre e)).
(** the first rulebook of C30: Re X6 = X5, X4 = 3 X5 + 1, X3 = X4 *)
Lemma book8_straight : straight (rb_rules book8).
Proof.
  assert (H : forallb (fun r => negb (ru_partial r) || r_eqb Q' (cre (ru_dir r)) (r0 Q') || r_eqb Q' (cim (ru_dir r)) (r0 Q')) (rb_rules book8) = true) by (vm_compute; reflexivity).
  intros r Hr P. rewrite forallb_forall in H. specialize (H r Hr). rewrite P in H. cbn [negb orb] in H. apply orb_true_iff in H as [H|H]; apply (r_eqb_spec Q') in H; [left|right]; exact H.
Qed.
Lemma book8_matrices : option_map (@length _) (rulebook_matrix t8 qmostly Rewrite (rb_rules book8)) = Some 10 /\ option_map (@length _) (rulebook_matrix t8 qmostly Homogeneous (rb_rules book8)) = Some 8 /\ dimension t8 = 8.
Proof. split; [vm_compute; reflexivity|]. split; vm_compute; reflexivity. Qed.

(** numbers with one more square root: (4 + 3i)/5 *)
Definition e5 : cx Q' := cq (4 # 5) (3 # 5).
Definition e5sq : cx Q' := cq (7 # 25) (24 # 25).
Definition qsqrt5 (z : cx Q') : option (cx Q') := if ceqb z e5sq then Some e5 else qsqrt z.
Definition F8m : factory Q' := mk_factory t8 id_less (isort id_less) (isort id_less) qpos qsqrt5.
Lemma F8m_ok : factory_ok F8m.
Proof.
  constructor; cbn [fa_table fa_lt fa_sort fa_idsort fa_pos fa_sqrt F8m].
  - apply id_less_order.
  - intros x y _ _ E L. unfold id_less. rewrite E. apply Nat.ltb_lt in L. now rewrite L.
  - apply isort_sorts, id_less_order.
  - apply isort_sorts, id_less_order.
  - apply t8_good.
  - apply t8_good.
  - split; vm_compute; reflexivity.
  - intros z s Q. unfold qsqrt5 in Q. destruct (ceqb z e5sq) eqn:Z.
    + injection Q as <-. apply (ceqb_spec Q') in Z. subst z. split; [apply (ceqb_spec Q'); vm_compute; reflexivity|]. intros _. apply (r_eqb_spec Q'). vm_compute. reflexivity.
    + exact (fo_sqrt F8 F8_ok z s Q).
Qed.
(** 4 Re X6 + 3 Im X6 = 0, X7 = Re X6 *)
Definition eqsm : list (list (mono Q')) := [ [mq 6 false 1 0; mk_mono 6 true e5sq]; [mq 6 false (-1 # 2) 0; mq 6 true (-1 # 2) 0; mq 7 false 1 0] ].
Lemma eqsm_canonical : Forall (canonical t8 id_less) eqsm.
Proof. unfold eqsm. constructor; [|constructor; [|constructor]]; apply canonical_by; vm_compute; reflexivity. Qed.
Definition rawm : rulebook := set_raw (new_rulebook (R := Q') false) eqsm.
Definition bookm : rulebook := after (complete F8m keep 4 rawm).
Lemma bookm_session : session F8m keep bookm eqsm.
Proof.
  apply (s_complete F8m keep rawm eqsm 4 bookm (count (complete F8m keep 4 rawm))).
  - apply (s_add F8m keep (new_rulebook false) [] eqsm rawm 0); [constructor|exact eqsm_canonical|reflexivity].
  - apply is_done_eq. vm_compute. reflexivity.
Qed.
Lemma bookm_shape : rb_raw bookm = [] /\ map (fun r => (ru_lhs r, ru_partial r, length (ru_rhs r))) (rb_rules bookm) = [(6, true, 2); (7, false, 2)].
Proof. split; vm_compute; reflexivity. Qed.
Lemma row_dot_ext (R : rfield) (M : list (nat * nat * R)) n row (a b : nat -> R) : fits_in n M -> (forall k, k < n -> a k = b k) -> row_dot M row a = row_dot M row b.
Proof.
  induction M as [|[[i j] w] M IH]; intros H E; [reflexivity|]. cbn [row_dot fold_right fst snd]. fold (row_dot M row a). fold (row_dot M row b).
  rewrite IH; [|intros i' j' w' Hx; apply (H i' j' w'); now right|exact E]. destruct (Nat.eqb i row); [|reflexivity]. rewrite E; [reflexivity|]. apply (H i j w). now left.
Qed.
(** rewriting twice is not the same as rewriting once: the result of rewriting is no solution *)
Lemma twice_differs (R : rfield) (F : factory R) (FO : factory_ok F) c V (LW : lawful c V) (RC : reachable_clean c V (fa_table F)) psrt (PS : forall l, Permutation l (psrt l))
  b eqs (SE : session F psrt b eqs) mostly M v row : rulebook_matrix (fa_table F) mostly Rewrite (rb_rules b) = Some M -> row < dimension (fa_table F) ->
  row_dot M row (fun k => row_dot M k (both_elem (fa_table F) v)) <> row_dot M row (both_elem (fa_table F) v) ->
  ~ exists w, assignment (fa_table F) w /\ obeys w (rb_rules b) /\ product (dimension (fa_table F)) M (both_elem (fa_table F) v) (both_elem (fa_table F) w).
Proof.
  intros E L B [w [A [O P]]]. apply B. pose proof (proj2 (t_fixed R F FO c V LW RC psrt PS b eqs SE mostly M E w A) O) as Fx.
  destruct (t_matrix R F FO c V LW RC psrt PS b eqs SE mostly Rewrite) as [M' [E' Fi]]. assert (M' = M) by congruence. subst M'.
  rewrite (row_dot_ext R M (dimension (fa_table F)) row _ (both_elem (fa_table F) w) Fi P). rewrite (Fx row L). symmetry. exact (P row L).
Qed.
Lemma F8m_clean : reachable_clean anti3_sctx anti3_words (fa_table F8m). Proof. exact t8_clean. Qed.
Lemma F8m_v : assignment (fa_table F8m) v8. Proof. exact v8_assignment. Qed.
Lemma rewrite_once_refuted : exists (R : rfield) (F : factory R) c V psrt b eqs mostly M v, factory_ok F /\ lawful c V /\ reachable_clean c V (fa_table F) /\ (forall l, Permutation l (psrt l)) /\
  session F psrt b eqs /\ rb_raw b = [] /\ rulebook_matrix (fa_table F) mostly Rewrite (rb_rules b) = Some M /\ assignment (fa_table F) v /\
  ~ exists w, assignment (fa_table F) w /\ obeys w (rb_rules b) /\ product (dimension (fa_table F)) M (both_elem (fa_table F) v) (both_elem (fa_table F) w).
Proof.
  destruct (opt_bool (rulebook_matrix (fa_table F8m) qmostly Rewrite (rb_rules bookm)) (fun M => negb (r_eqb Q' (row_dot M 5 (fun k => row_dot M k (both_elem (fa_table F8m) v8))) (row_dot M 5 (both_elem (fa_table F8m) v8))))) as [M [E B]]; [vm_compute; reflexivity|].
  exists Q', F8m, anti3_sctx, anti3_words, keep, bookm, eqsm, qmostly, M, v8. split; [exact F8m_ok|]. split; [exact anti3_lawful|]. split; [exact F8m_clean|]. split; [exact keep_ok|].
  split; [exact bookm_session|]. split; [exact (proj1 bookm_shape)|]. split; [exact E|]. split; [exact F8m_v|].
  apply (twice_differs Q' F8m F8m_ok anti3_sctx anti3_words anti3_lawful F8m_clean keep keep_ok bookm eqsm bookm_session qmostly M v8 5 E).
  - apply Nat.ltb_lt. vm_compute. reflexivity.
  - apply rneq. apply negb_true_iff. exact B.
Qed.
