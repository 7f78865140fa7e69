(** The theorems on moment rulebooks. *)
From Coq Require Import List NArith ZArith Arith Bool Sorted Permutation Lia Ring Field.
From Verif Require Import CoreModel FieldModel FieldProofs SymModel SymSpec PolyModel PolySpec PolyProofs PolyOpsProofs PolyTableProofs PolyFinalProofs RuleModel RuleSpec RuleProofs RuleMakeProofs RuleOrientProofs RuleBookProofs RuleLoopProofs RuleFinalProofs RuleUniqueProofs.
Import ListNotations.

Section Thm.
  Variable R : rfield.
  Add Field Rf : (r_field R).
  Add Field Cf : (cx_field R).
  Notation mono := (mono R).
  Notation rule := (rule R).
  Notation rulebook := (rulebook (R := R)).
  Variable F : factory R.
  Hypothesis FO : factory_ok F.
  Notation t := (fa_table F).
  Notation lt := (fa_lt F).
  Notation canon := (canonical t lt).
  Notation asg := (assignment (R := R) t).
  Variable psrt : list (list mono) -> list (list mono).
  Hypothesis PS : forall l, Permutation l (psrt l).
  Implicit Types (b : rulebook) (eqs : list (list mono)).

  Lemma t_equations b eqs : session F psrt b eqs -> forall v, asg v -> (solves v eqs <-> obeys v (rb_rules b) /\ solves v (rb_raw b)).
  Proof. intros S v A. now apply (st_same R F b eqs (session_state R F FO psrt PS b eqs S)). Qed.
  Lemma solves_nil (v : nat -> cx R) : solves v []. Proof. easy. Qed.
  Lemma t_completed b eqs : session F psrt b eqs -> rb_raw b = [] -> forall v, asg v -> (obeys v (rb_rules b) <-> solves v eqs).
  Proof. intros S E v A. rewrite (t_equations b eqs S v A), E. split; [intro H; split; [exact H|apply solves_nil]|now intros [H _]]. Qed.
  Lemma t_complete b eqs fuel b' n : session F psrt b eqs -> complete F psrt fuel b = RDone b' n ->
    rb_raw b' = [] /\ (forall v, asg v -> (obeys v (rb_rules b') <-> solves v eqs)) /\ length (rb_rules b') = n + length (rb_rules b).
  Proof.
    intros S E. pose proof (complete_spec R F FO psrt PS fuel b eqs (session_state R F FO psrt PS b eqs S)) as L. rewrite E in L. destruct L as [_ [L1 [L2 _]]].
    split; [exact L1|]. split; [|exact L2]. apply t_completed; [exact (s_complete F psrt b eqs fuel b' n S E)|exact L1].
  Qed.
  Lemma t_consistent b eqs : session F psrt b eqs -> forall u, asg u ->
    exists v, asg v /\ obeys v (rb_rules b) /\ forall i, (forall r, In r (rb_rules b) -> ru_lhs r <> i) -> v i = u i.
  Proof.
    intros S u A. pose proof (st_good R F b eqs (session_state R F FO psrt PS b eqs S)) as G. exists (subst R (rb_rules b) u).
    split; [apply (subst_asg R F); [apply G|exact A]|]. split; [now apply (subst_obeys R F FO)|]. intros i H. unfold RuleBookProofs.subst.
    apply find_not in H. now rewrite H.
  Qed.
  Lemma t_throw b eqs fuel b' : session F psrt b eqs -> complete F psrt fuel b = RThrow b' ->
    (locked b = true /\ b' = b) \/ (locked b = false /\ forall v, asg v -> ~ solves v eqs).
  Proof.
    intros S E. pose proof (complete_spec R F FO psrt PS fuel b eqs (session_state R F FO psrt PS b eqs S)) as L. rewrite E in L.
    destruct L as [L|[L1 [L2 _]]]; auto.
  Qed.
  Lemma t_decides b eqs fuel : has_roots F -> session F psrt b eqs -> locked b = false -> 2 * length (rb_raw b) <= fuel ->
    (exists b' n, complete F psrt fuel b = RDone b' n /\ exists v, asg v /\ solves v eqs) \/
    (exists b', complete F psrt fuel b = RThrow b' /\ forall v, asg v -> ~ solves v eqs).
  Proof.
    intros HR S Lk Hf. pose proof (complete_spec R F FO psrt PS fuel b eqs (session_state R F FO psrt PS b eqs S)) as L.
    destruct (complete F psrt fuel b) as [b' n|b'| |] eqn:E.
    - left. exists b', n. split; [reflexivity|]. destruct (t_complete b eqs fuel b' n S E) as [_ [Q _]]. destruct (asg_exists R F FO) as [u A].
      destruct (t_consistent b' eqs (s_complete F psrt b eqs fuel b' n S E) u A) as [v [Av [O _]]]. exists v. split; [exact Av|]. now apply Q.
    - right. exists b'. split; [reflexivity|]. destruct L as [[L _]|[_ [L _]]]; [congruence|exact L].
    - exfalso. destruct L as [z [N Z]]. exact (HR z N Z).
    - lia.
  Qed.
  Lemma t_stops b eqs fuel : session F psrt b eqs -> 2 * length (rb_raw b) <= fuel ->
    complete F psrt fuel b <> RFuel /\ (complete F psrt fuel b = RStuck -> exists z, cnorm z = r1 R /\ fa_sqrt F z = None).
  Proof.
    intros S Hf. pose proof (complete_spec R F FO psrt PS fuel b eqs (session_state R F FO psrt PS b eqs S)) as L.
    destruct (complete F psrt fuel b) as [b' n|b'| |]; split; try discriminate; [now intros _|lia].
  Qed.
  Lemma t_form b eqs : session F psrt b eqs -> tidy_rules F (rb_rules b).
  Proof. intro S. apply (good_tidy R F FO). apply (st_good R F b eqs (session_state R F FO psrt PS b eqs S)). Qed.
  Lemma t_flags b eqs : session F psrt b eqs ->
    (rb_mono b = true <-> forall r, In r (rb_rules b) -> length (ru_rhs r) <= 1) /\
    rb_herm b = true /\ (forall r v, In r (rb_rules b) -> herm t (ru_lhs r) = true -> asg v -> cim (value v (ru_rhs r)) = r0 R).
  Proof.
    intro S. pose proof (session_state R F FO psrt PS b eqs S) as [G _ _ H M]. split; [|split; [exact H|]].
    - rewrite M. unfold all_monomial. rewrite forallb_forall. split; intros Q r Hr; [now apply Nat.leb_le, Q|now apply Nat.leb_le, Q].
    - intros r v Hr Hh A. destruct (g_rule R F _ G r Hr) as [_ _ _ [Fh _]]. now apply Fh.
  Qed.
  Lemma t_combine b eqs other eqs' fuel b' n : session F psrt b eqs -> session F psrt other eqs' -> combine_and_complete F psrt fuel b other = RDone b' n ->
    rb_raw b' = [] /\ (forall v, asg v -> (obeys v (rb_rules b') <-> solves v eqs /\ solves v eqs')) /\ length (rb_rules b') = n + length (rb_rules b).
  Proof.
    intros S S' E. pose proof (combine_spec R F FO psrt PS fuel b eqs other eqs' (session_state R F FO psrt PS b eqs S) (session_state R F FO psrt PS other eqs' S')) as L. rewrite E in L.
    destruct L as [_ [L1 [L2 _]]]. split; [exact L1|]. split; [|exact L2]. intros v A.
    rewrite (t_completed b' (eqs ++ eqs') (s_combine F psrt b eqs other eqs' fuel b' n S S' E) L1 v A). apply (solves_app R).
  Qed.
  Lemma t_combine_throw b eqs other eqs' fuel b' : session F psrt b eqs -> session F psrt other eqs' -> combine_and_complete F psrt fuel b other = RThrow b' ->
    b' = b /\ (locked b = true \/ 0 < rb_uses other \/ rb_raw b <> [] \/ rb_raw other <> [] \/ forall v, asg v -> ~ (solves v eqs /\ solves v eqs')).
  Proof.
    intros S S' E. pose proof (combine_spec R F FO psrt PS fuel b eqs other eqs' (session_state R F FO psrt PS b eqs S) (session_state R F FO psrt PS other eqs' S')) as L. rewrite E in L.
    destruct L as [L1 L2]. split; [exact L1|]. destruct L2 as [L|[L|[L|[L|L]]]]; auto. do 4 right. intros v A H. apply (L v A). now apply (solves_app R).
  Qed.
  (** ** the lock *)
  Lemma complete_safe fuel b : match complete F psrt fuel b with RDone b' _ | RThrow b' => rb_safe b' = rb_safe b /\ rb_uses b' = rb_uses b /\ rb_expand b' = rb_expand b | _ => True end.
  Proof.
    unfold complete. destruct (locked b); [auto|]. destruct (rb_raw b) as [|p l]; [auto|]. destruct (complete_loop F fuel (rb_rules b) 0 [] (psrt (p :: l))); cbn; auto.
  Qed.
  Lemma combine_safe fuel b other : match combine_and_complete F psrt fuel b other with RDone b' _ | RThrow b' => rb_safe b' = rb_safe b /\ rb_uses b' = rb_uses b /\ rb_expand b' = rb_expand b | _ => True end.
  Proof.
    unfold combine_and_complete. destruct (locked b || Nat.ltb 0 (rb_uses other)); [auto|]. destruct (rb_raw b) as [|p l]; [|auto]. destruct (rb_raw other) as [|p l]; [|auto].
    destruct (rb_rules b) as [|x xs] eqn:E; [cbn; auto|]. destruct (rb_rules other) as [|y ys]; [auto|].
    pose proof (complete_safe fuel (set_raw b (map (as_polynomial F) (by_id (y :: ys))))) as Q. destruct (complete F psrt fuel _) as [b' n|b'| |]; cbn in *; auto.
  Qed.
  Lemma session_expand b eqs : session F psrt b eqs -> rb_safe b = false -> rb_expand b = false.
  Proof.
    intro S. induction S as [safe|b eqs ps b' n H IH C E|b eqs fuel b' n H IH E|b eqs other eqs' fuel b' n H IH H' IH' E|b eqs other eqs' fuel b' H IH H' IH' E|b eqs H IH|b eqs H IH|b eqs H IH]; intro Sf.
    - reflexivity.
    - unfold add_raw_rules in E. destruct (locked b); [discriminate|]. injection E as <- _. now apply IH.
    - pose proof (complete_safe fuel b) as Q. rewrite E in Q. destruct Q as [Q1 [_ Q2]]. rewrite Q2. apply IH. congruence.
    - pose proof (combine_safe fuel b other) as Q. rewrite E in Q. destruct Q as [Q1 [_ Q2]]. rewrite Q2. apply IH. congruence.
    - pose proof (combine_safe fuel b other) as Q. rewrite E in Q. destruct Q as [Q1 [_ Q2]]. rewrite Q2. apply IH. congruence.
    - now apply IH.
    - cbn in *. rewrite Sf. now apply IH.
    - reflexivity.
  Qed.
  Lemma t_lock b eqs : session F psrt b eqs -> rb_safe b = false -> 0 < rb_uses b ->
    (forall ps, add_raw_rules b ps = RThrow b) /\ (forall fuel, complete F psrt fuel b = RThrow b) /\ (forall n, inject F b n = RThrow b) /\
    (forall fuel other, combine_and_complete F psrt fuel b other = RThrow b /\ combine_and_complete F psrt fuel other b = RThrow other) /\
    enable_expansion b = b /\ disable_expansion b = b.
  Proof.
    intros S Sf U. pose proof (session_expand b eqs S Sf) as E. assert (L : locked b = true) by (unfold locked; rewrite E; now apply Nat.ltb_lt). unfold add_raw_rules, complete, inject, combine_and_complete. rewrite L.
    apply Nat.ltb_lt in U. rewrite U. split; [reflexivity|]. split; [reflexivity|]. split; [reflexivity|]. split; [intros; rewrite orb_true_r; split; reflexivity|]. split.
    - unfold enable_expansion. rewrite Sf. destruct b. cbn in *. now subst.
    - unfold disable_expansion. destruct b. cbn in *. now subst.
  Qed.
  (** with safe updates: only completing while expansion is enabled *)
  Lemma t_expansion b eqs : session F psrt b eqs -> 0 < rb_uses b -> (rb_expand b = false -> locked b = true) /\ (rb_safe b = true -> locked (enable_expansion b) = false) /\
    locked (disable_expansion b) = true.
  Proof.
    intros S U. apply Nat.ltb_lt in U. unfold locked, enable_expansion, disable_expansion. cbn [rb_expand rb_uses]. rewrite U. split; [intro H; now rewrite H|]. split; [intro H; now rewrite H|reflexivity].
  Qed.
  (** ** applying *)
  Lemma t_reduce b eqs p : session F psrt b eqs -> canon p ->
    canon (reduce F (rb_rules b) p) /\ (forall v, asg v -> obeys v (rb_rules b) -> value v (reduce F (rb_rules b) p) = value v p) /\
    (forall x, In x (reduce F (rb_rules b) p) -> ~ determined (rb_rules b) (m_id x)) /\ reduce F (rb_rules b) (reduce F (rb_rules b) p) = reduce F (rb_rules b) p.
  Proof.
    intros S C. pose proof (st_good R F b eqs (session_state R F FO psrt PS b eqs S)) as G. split; [apply (reduce_canonical R F FO); [now apply (good_ok R F)|exact C]|].
    split; [intros v A O; now apply (reduced_zero R F FO)|]. split; [exact (reduce_free R F FO (rb_rules b) p G C)|now apply (reduce_idem R F FO)].
  Qed.
  Lemma t_decides_reduce b eqs p q : session F psrt b eqs -> rb_raw b = [] -> canon p -> canon q ->
    (reduce F (rb_rules b) p = reduce F (rb_rules b) q <-> forall v, asg v -> solves v eqs -> value v p = value v q).
  Proof.
    intros S E Cp Cq. pose proof (st_good R F b eqs (session_state R F FO psrt PS b eqs S)) as G. rewrite (reduce_decides R F FO _ p q G Cp Cq).
    split; intros H v A Q; apply H; auto; now apply (t_completed b eqs S E v A).
  Qed.
  Lemma t_monomial b eqs x : session F psrt b eqs -> canon [x] ->
    reduce_mono F (rb_rules b) x = reduce F (rb_rules b) [x] /\
    (forall y, reduce_monomial F (rb_rules b) x = Some y -> poly_of_mono y = reduce F (rb_rules b) [x]) /\
    (rb_mono b = true -> reduce_monomial F (rb_rules b) x <> None) /\
    (reduce_monomial F (rb_rules b) x = None -> exists r, In r (rb_rules b) /\ ru_lhs r = m_id x /\ 1 < length (ru_rhs r)).
  Proof.
    intros S C. pose proof (st_good R F b eqs (session_state R F FO psrt PS b eqs S)) as G. pose proof (reduce_monomial_spec R F FO _ x G C) as M.
    split; [now apply (reduce_mono_eq R F)|]. destruct (reduce_monomial F (rb_rules b) x) as [y|].
    - split; [intros z Ez; injection Ez as <-; now symmetry|]. split; [intros _; discriminate|discriminate].
    - split; [discriminate|]. split; [|now intros _]. intros Hm _. destruct M as [r [Hr [_ L]]]. pose proof (proj1 (proj1 (t_flags b eqs S)) Hm r Hr). lia.
  Qed.
  Lemma t_contained a ea b eb : session F psrt a ea -> session F psrt b eb ->
    (first_noncontained F (rb_rules a) (rb_rules b) = None <-> forall v, asg v -> obeys v (rb_rules a) -> obeys v (rb_rules b)) /\
    (forall r, first_noncontained F (rb_rules a) (rb_rules b) = Some r -> In r (rb_rules b) /\ ~ (forall v, asg v -> obeys v (rb_rules a) -> v (ru_lhs r) = value v (ru_rhs r))).
  Proof.
    intros Sa Sb. pose proof (st_good R F a ea (session_state R F FO psrt PS a ea Sa)) as Ga. pose proof (st_good R F b eb (session_state R F FO psrt PS b eb Sb)) as Gb.
    split; [now apply (contained_iff R F FO)|]. intros r. now apply (noncontained_some R F FO).
  Qed.
  Lemma t_compare a ea b eb : session F psrt a ea -> session F psrt b eb ->
    let implied rules r := forall v, asg v -> obeys v rules -> v (ru_lhs r) = value v (ru_rhs r) in
    let implies rules rules' := forall v, asg v -> obeys v rules -> obeys v rules' in
    match compare_rulebooks F (rb_rules a) (rb_rules b) with
    | AEqualsB => implies (rb_rules a) (rb_rules b) /\ implies (rb_rules b) (rb_rules a)
    | BContainsA y => implies (rb_rules b) (rb_rules a) /\ In y (rb_rules b) /\ ~ implied (rb_rules a) y
    | AContainsB x => implies (rb_rules a) (rb_rules b) /\ In x (rb_rules a) /\ ~ implied (rb_rules b) x
    | Disjoint x y => In x (rb_rules a) /\ ~ implied (rb_rules b) x /\ In y (rb_rules b) /\ ~ implied (rb_rules a) y
    end.
  Proof.
    intros Sa Sb. cbv zeta. destruct (t_contained a ea b eb Sa Sb) as [C1 C2]. destruct (t_contained b eb a ea Sb Sa) as [D1 D2]. unfold compare_rulebooks.
    destruct (first_noncontained F (rb_rules b) (rb_rules a)) as [x|], (first_noncontained F (rb_rules a) (rb_rules b)) as [y|].
    - destruct (C2 y eq_refl) as [C3 C4]. destruct (D2 x eq_refl) as [D3 D4]. auto.
    - destruct (D2 x eq_refl) as [D3 D4]. split; [now apply C1|auto].
    - destruct (C2 y eq_refl) as [C3 C4]. split; [now apply D1|auto].
    - split; [now apply C1|now apply D1].
  Qed.
  Lemma t_map_real (l : list (nat * R)) : (forall x, In x l -> 1 < fst x < length (t_syms t)) ->
    Forall canon (map (real_equation F) l) /\ forall v, asg v -> (solves v (map (real_equation F) l) <-> forall i x, In (i, x) l -> v i = creal x).
  Proof.
    intro H. split; [apply Forall_forall; intros p Hp; apply in_map_iff in Hp as [[i x] [<- Hx]]; apply H in Hx; now apply (real_equation_canonical R F FO)|].
    intros v A. split.
    - intros Q i x Hx. pose proof (H _ Hx) as [L1 L2]. assert (V := Q _ (in_map (real_equation F) _ _ Hx)). rewrite (proj2 (real_equation_spec R F FO i x L1 L2) v A) in V.
      transitivity (cadd (csub (v i) (creal x)) (creal x)); [ring|]. rewrite V. ring.
    - intros Q p Hp. apply in_map_iff in Hp as [[i x] [<- Hx]]. pose proof (H _ Hx) as [L1 L2]. rewrite (proj2 (real_equation_spec R F FO i x L1 L2) v A), (Q i x Hx). ring.
  Qed.
  Lemma t_map_complex (l : list (nat * cx R)) : (forall x, In x l -> 1 < fst x < length (t_syms t)) ->
    Forall canon (map (complex_equation F) l) /\ forall v, asg v -> (solves v (map (complex_equation F) l) <-> forall i x, In (i, x) l -> v i = x).
  Proof.
    intro H. split; [apply Forall_forall; intros p Hp; apply in_map_iff in Hp as [[i x] [<- Hx]]; apply H in Hx as [L1 L2]; apply (complex_equation_spec R F FO i x L1 L2)|].
    intros v A. split.
    - intros Q i x Hx. pose proof (H _ Hx) as [L1 L2]. assert (V := Q _ (in_map (complex_equation F) _ _ Hx)). rewrite (proj2 (complex_equation_spec R F FO i x L1 L2) v A) in V.
      transitivity (cadd (csub (v i) x) x); [ring|]. rewrite V. ring.
    - intros Q p Hp. apply in_map_iff in Hp as [[i x] [<- Hx]]. pose proof (H _ Hx) as [L1 L2]. rewrite (proj2 (complex_equation_spec R F FO i x L1 L2) v A), (Q i x Hx). ring.
  Qed.
End Thm.

Lemma t_unique (R : rfield) (F : factory R) (FO : factory_ok F) psrt psrt' (PS : forall l, Permutation l (psrt l)) (PS' : forall l, Permutation l (psrt' l)) b eqs b' eqs' :
  session F psrt b eqs -> session F psrt' b' eqs' -> rb_raw b = [] -> rb_raw b' = [] ->
  (forall v, assignment (fa_table F) v -> (solves v eqs <-> solves v eqs')) ->
  map (fun r => (ru_lhs r, ru_rhs r, ru_partial r)) (rb_rules b) = map (fun r => (ru_lhs r, ru_rhs r, ru_partial r)) (rb_rules b').
Proof.
  intros S S' E E' H. apply (unique_rules R F FO).
  - apply (st_good R F b eqs (session_state R F FO psrt PS b eqs S)).
  - apply (st_good R F b' eqs' (session_state R F FO psrt' PS' b' eqs' S')).
  - intros v A. rewrite (t_completed R F FO psrt PS b eqs S E v A), (t_completed R F FO psrt' PS' b' eqs' S' E' v A). now apply H.
Qed.
