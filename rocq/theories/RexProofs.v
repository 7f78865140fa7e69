(** Proofs about exported rules. *)
From Coq Require Import NArith ZArith Arith Bool Ascii String List Lia Sorted.
From Verif Require Import CoreModel CoreSpec CoreProofs AlgModel AlgSpec TextModel RexModel RexSpec.
Import ListNotations.
Local Open Scope list_scope.

Definition num (ml : bool) (o : nat) : Z := (if ml then Z.of_nat o + 1 else Z.of_nat o)%Z.
Lemma num_back ml o : Z.to_nat (num ml o - first_number ml) = o.
Proof. unfold num, first_number. destruct ml; lia. Qed.
Lemma num_not ml o : (num ml o <? first_number ml)%Z = false.
Proof. unfold num, first_number. apply Z.ltb_ge. destruct ml; lia. Qed.
Lemma num_inj ml o p : num ml o = num ml p -> o = p.
Proof. unfold num. destruct ml; lia. Qed.
Lemma nums_inj ml : forall u w : list nat, map (num ml) u = map (num ml) w -> u = w.
Proof. induction u as [|a u IH]; intros [|b w] E; try discriminate; auto. injection E as E1 E2. apply num_inj in E1. subst. f_equal. apply IH, E2. Qed.
Lemma zero_mark (ml : bool) : (if ml then 0 else -1)%Z = (first_number ml - 1)%Z.
Proof. destruct ml; reflexivity. Qed.
Lemma product_den ml (A : algebra) (v : nat -> A) w : product (first_number ml) A v (map (num ml) w) = den_word A v w.
Proof. induction w as [|o w IH]; [reflexivity|]. cbn [map product den_word]. rewrite num_back, IH. reflexivity. Qed.
Lemma side_den ml (A : algebra) (v : nat -> A) w : side (first_number ml) A v (map (num ml) w) = den_word A v w.
Proof.
  destruct w as [|o [|p w]]; [reflexivity| |apply (product_den ml A v (o :: p :: w))].
  cbn [map]. unfold side. rewrite num_not. apply (product_den ml A v [o]).
Qed.
Lemma side_zero (ml : bool) (A : algebra) (v : nat -> A) : side (first_number ml) A v [(if ml then 0 else -1)%Z] = azero A.
Proof. destruct ml; reflexivity. Qed.

Lemma equation_entry ml (A : algebra) (v : nat -> A) l s r : equation (first_number ml) A v (RNums l :: sign_cells s ++ [RNums r]) <-> aeq A (product (first_number ml) A v l) (aph A s (side (first_number ml) A v r)).
Proof.
  destruct s; cbn [sign_cells app]; try reflexivity. cbn [equation].
  split; intro H; (eapply aeq_trans; [exact H|]); [apply aeq_sym|]; apply aph_pos.
Qed.
Lemma export_meaning r L ml a (A : algebra) (v : nat -> A) : hash_safe r L -> wf_rule r L a -> (equation (first_number ml) A v (export_rule ml a) <-> holds A v a).
Proof.
  intros HL (La & Ra & Sa & Ga & Za & _). unfold export_rule, holds, den.
  assert (N0 : (hs_hash (rl_lhs a) =? 0)%N = false) by (apply N.eqb_neq; lia). rewrite N0.
  change (side_cell ml (hs_ops (rl_lhs a))) with (RNums (map (num ml) (hs_ops (rl_lhs a)))). unfold rhs_cell. rewrite Za. unfold hs_zero.
  unfold den_signed. rewrite Sa.
  destruct (hs_hash (rl_rhs a) =? 0)%N.
  - rewrite equation_entry, product_den, side_zero. split; intro H.
    + eapply aeq_trans; [apply aph_pos|]. eapply aeq_trans; [exact H|apply aph_zero].
    + eapply aeq_trans; [apply aeq_sym, aph_pos|]. eapply aeq_trans; [exact H|apply aeq_sym, aph_zero].
  - change (side_cell ml (hs_ops (rl_rhs a))) with (RNums (map (num ml) (hs_ops (rl_rhs a)))).
    rewrite equation_entry, product_den, side_den. split; intro H; (eapply aeq_trans; [|exact H]); [|apply aeq_sym]; apply aph_pos.
Qed.
Lemma book_meaning r L ml m (A : algebra) (v : nat -> A) : hash_safe r L -> wf_map r L m -> (Forall (equation (first_number ml) A v) (export_rules ml m) <-> all_hold A v m).
Proof.
  intros HL [_ W]. unfold export_rules. rewrite Forall_map, Forall_forall. unfold all_hold. split.
  - intros H k rl I. apply (export_meaning r L ml rl A v HL (proj2 (W k rl I))). apply (H (k, rl) I).
  - intros H [k rl] I. cbn [snd]. apply (export_meaning r L ml rl A v HL (proj2 (W k rl I))). apply (H k rl I).
Qed.

Lemma sign_cells_inj s t x y : sign_cells s ++ [RNums x] = sign_cells t ++ [RNums y] -> s = t /\ x = y.
Proof. destruct s, t; cbn; intro E; try discriminate; injection E as E; subst; split; reflexivity. Qed.
Definition rhs_nums (ml : bool) (rl : rule) : list Z := if rl_zero rl then [(first_number ml - 1)%Z] else map (num ml) (hs_ops (rl_rhs rl)).
Lemma rhs_cell_nums ml rl : rhs_cell ml rl = RNums (rhs_nums ml rl).
Proof. unfold rhs_cell, rhs_nums. destruct (rl_zero rl); [|reflexivity]. rewrite zero_mark. reflexivity. Qed.
Lemma rhs_nums_inj ml a b : rhs_nums ml a = rhs_nums ml b -> rl_zero a = rl_zero b /\ (rl_zero a = false -> hs_ops (rl_rhs a) = hs_ops (rl_rhs b)).
Proof.
  assert (X : forall w, [(first_number ml - 1)%Z] = map (num ml) w -> False).
  { intros [|o w] E; [discriminate|]. injection E as E _. pose proof (num_not ml o) as N. apply Z.ltb_ge in N. lia. }
  unfold rhs_nums. destruct (rl_zero a), (rl_zero b); intro E; try (split; [reflexivity|discriminate]).
  - destruct (X _ E).
  - destruct (X _ (eq_sym E)).
  - split; [reflexivity|]. intros _. apply (nums_inj ml), E.
Qed.
Lemma wf_seq_hash r L p q : wf_seq r L p -> wf_seq r L q -> hs_hash p <> 0%N -> hs_hash q <> 0%N -> hs_ops p = hs_ops q -> hs_hash p = hs_hash q.
Proof. intros [[C _]|[Cp _]] [[D _]|[Cq _]] Hp Hq E; try contradiction. congruence. Qed.
Lemma zero_ops r L q : hash_safe r L -> wf_seq r L q -> hs_hash q = 0%N -> hs_ops q = [].
Proof. intros HL [[_ E]|(E & O & Le)] Z; [exact E|]. exfalso. apply (hash_nonzero r L _ HL O Le). congruence. Qed.
Lemma export_rule_inj r L ml a b : hash_safe r L -> wf_rule r L a -> wf_rule r L b -> export_rule ml a = export_rule ml b -> a = b.
Proof.
  intros HL (La & Ra & Sa & Ga & Za & Ta) (Lb & Rb & Sb & Gb & Zb & Tb) E. unfold export_rule in E. rewrite !rhs_cell_nums in E.
  injection E as E1 E2. apply (nums_inj ml) in E1. apply sign_cells_inj in E2 as [E2 E3]. apply rhs_nums_inj in E3 as [E3 E4].
  assert (H1 : hs_hash (rl_lhs a) = hs_hash (rl_lhs b)) by (apply (wf_seq_hash r L); auto; lia).
  assert (H2 : hs_hash (rl_rhs a) = hs_hash (rl_rhs b) /\ hs_ops (rl_rhs a) = hs_ops (rl_rhs b)).
  { rewrite Za in E3, E4. rewrite Zb in E3. unfold hs_zero in *.
    destruct (N.eqb_spec (hs_hash (rl_rhs a)) 0) as [Pa|Pa], (N.eqb_spec (hs_hash (rl_rhs b)) 0) as [Pb|Pb]; try discriminate.
    - split; [congruence|]. rewrite (zero_ops r L _ HL Ra Pa), (zero_ops r L _ HL Rb Pb). reflexivity.
    - split; [apply (wf_seq_hash r L); auto|auto]. }
  destruct H2 as [H2 H3]. unfold rule_sign in E2.
  destruct a as [[] [] ? ?], b as [[] [] ? ?]. cbn in *. subst. reflexivity.
Qed.

Lemma book_inj r L ml : hash_safe r L -> forall m m', wf_map r L m -> wf_map r L m' -> export_rules ml m = export_rules ml m' -> m = m'.
Proof.
  intros HL m m' [_ W] [_ W'] E. revert m' W' E. induction m as [|[k a] m IH]; intros [|[k' b] m'] W' E; try discriminate; [reflexivity|].
  injection E as E1 E2. destruct (W k a (or_introl eq_refl)) as [-> Wa]. destruct (W' k' b (or_introl eq_refl)) as [-> Wb].
  assert (X : a = b) by (apply (export_rule_inj r L ml a b HL Wa Wb); unfold export_rule, side_cell; congruence). subst b. f_equal.
  apply IH; [intros; apply W; right; assumption|intros; apply W'; right; assumption|assumption].
Qed.
Lemma book_length ml m : List.length (export_rules ml m) = List.length m.
Proof. apply map_length. Qed.
Definition rex_rule (l r : hseq) (z : bool) : rule := mk_rule0 l r false z.
Definition rex_book : rulemap :=
  let a := hseq_make 3 [0; 0] SPos in let b := hseq_make 3 [2; 1] SPos in
  [(hs_hash a, rex_rule a (hseq_const true) true); (hs_hash b, rex_rule b (hseq_make 3 [1; 2] SNegIm) false)].
Lemma rex_example : hash_safe 3 3 /\ wf_map 3 3 rex_book /\
  (exists a, make_rule (hseq_make 3 [2; 1] SPos) (hseq_make 3 [1; 2] SNegIm) = Ret a /\ In (hs_hash (rl_lhs a), a) rex_book) /\
  export_rules true rex_book = [[RNums [1; 1]%Z; RNums [0]%Z]; [RNums [3; 2]%Z; RChars (tx "-i"); RNums [2; 3]%Z]] /\
  export_rules false rex_book = [[RNums [0; 0]%Z; RNums [-1]%Z]; [RNums [2; 1]%Z; RChars (tx "-i"); RNums [1; 2]%Z]].
Proof.
  assert (O : forall w, forallb (fun o => o <? 3) w = true -> over 3 w).
  { intros w H o I. apply Nat.ltb_lt. rewrite forallb_forall in H. apply (H o I). }
  split; [vm_compute; reflexivity|]. split; [|split; [|split; vm_compute; reflexivity]].
  - split; [vm_compute; repeat constructor|].
    intros k rl [E|[E|[]]]; injection E as <- <-; (split; [reflexivity|]).
    + split; [right; split; [vm_compute; reflexivity|split; [apply O; reflexivity|cbn; lia]]|].
      split; [left; split; reflexivity|repeat split; vm_compute; reflexivity].
    + split; [right; split; [vm_compute; reflexivity|split; [apply O; reflexivity|cbn; lia]]|].
      split; [right; split; [vm_compute; reflexivity|split; [apply O; reflexivity|cbn; lia]]|repeat split; vm_compute; reflexivity].
  - eexists. split; [vm_compute; reflexivity|]. right. left. vm_compute. reflexivity.
Qed.
