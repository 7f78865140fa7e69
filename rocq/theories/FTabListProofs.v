(** Sorting, merging and combining lists of factors. *)
From Coq Require Import List ZArith Arith Bool Sorted Permutation Lia.
From Verif Require Import CoreModel FieldModel InfModel TreeModel FTabModel FTabSpec.
Import ListNotations.

Lemma ninsert_perm x l : Permutation (ninsert x l) (x :: l).
Proof.
  induction l as [|y l IH]; cbn; [reflexivity|]. destruct (x <=? y); [reflexivity|].
  transitivity (y :: x :: l); [now constructor|apply perm_swap].
Qed.
Lemma nsort_perm l : Permutation (nsort l) l.
Proof. induction l as [|x l IH]; cbn; [constructor|]. fold (nsort l). rewrite ninsert_perm. now constructor. Qed.
Lemma ninsert_sorted x l : StronglySorted le l -> StronglySorted le (ninsert x l).
Proof.
  induction 1 as [|y l S IH F]; cbn; [repeat constructor|]. destruct (Nat.leb_spec x y) as [E|E].
  - constructor; [now constructor|]. constructor; [exact E|]. rewrite Forall_forall in *. intros z I. specialize (F z I). lia.
  - constructor; [exact IH|]. apply (Permutation_Forall (Permutation_sym (ninsert_perm x l))). constructor; [lia|exact F].
Qed.
Lemma nsort_sorted l : StronglySorted le (nsort l).
Proof. induction l as [|x l IH]; cbn; [constructor|]. now apply ninsert_sorted. Qed.
Lemma sorted_unique l l' : StronglySorted le l -> StronglySorted le l' -> Permutation l l' -> l = l'.
Proof.
  intros S. revert l'. induction S as [|x l S IH F]; intros l' S' P.
  - apply Permutation_nil in P. congruence.
  - destruct S' as [|y l' S' F']; [now apply Permutation_sym, Permutation_nil in P|].
    assert (x = y) as <-.
    { rewrite Forall_forall in *. assert (In x (y :: l')) as I by (eapply Permutation_in; [exact P|now left]).
      assert (In y (x :: l)) as I' by (eapply Permutation_in; [apply Permutation_sym; exact P|now left]).
      destruct I as [->|I]; [reflexivity|]. destruct I' as [->|I']; [reflexivity|]. specialize (F y I'). specialize (F' x I). lia. }
    f_equal. apply IH; [exact S'|]. now apply Permutation_cons_inv in P.
Qed.
Lemma nsort_of_sorted l : StronglySorted le l -> nsort l = l.
Proof. intros S. apply sorted_unique; [apply nsort_sorted|exact S|apply nsort_perm]. Qed.

Lemma nmerge_nil r : nmerge [] r = r.
Proof. now destruct r. Qed.
Lemma nmerge_nil' l : nmerge l [] = l.
Proof. now destruct l. Qed.
Lemma nmerge_cons x l y r : nmerge (x :: l) (y :: r) = if y <? x then y :: nmerge (x :: l) r else x :: nmerge l (y :: r).
Proof. reflexivity. Qed.
Lemma nmerge_perm l r : Permutation (nmerge l r) (l ++ r).
Proof.
  revert r. induction l as [|x l IH]; intros r; [now rewrite nmerge_nil|].
  induction r as [|y r IHr]; [now rewrite nmerge_nil', app_nil_r|].
  rewrite nmerge_cons. destruct (y <? x).
  - rewrite IHr. apply Permutation_middle.
  - rewrite IH. reflexivity.
Qed.
Lemma nmerge_sorted l r : StronglySorted le l -> StronglySorted le r -> StronglySorted le (nmerge l r).
Proof.
  intros S. revert r. induction S as [|x l S IH F]; intros r S'; [now rewrite nmerge_nil|].
  induction S' as [|y r S' IHr F']; [rewrite nmerge_nil'; now constructor|].
  rewrite nmerge_cons. destruct (Nat.ltb_spec y x) as [E|E].
  - constructor; [exact IHr|]. apply (Permutation_Forall (Permutation_sym (nmerge_perm (x :: l) r))).
    apply Forall_app. split; [|exact F']. constructor; [lia|]. rewrite Forall_forall in *. intros z I. specialize (F z I). lia.
  - constructor; [apply IH; now constructor|]. apply (Permutation_Forall (Permutation_sym (nmerge_perm l (y :: r)))).
    apply Forall_app. split; [exact F|]. constructor; [lia|]. rewrite Forall_forall in *. intros z I. specialize (F' z I). lia.
Qed.
Lemma nmerge_head l r : (exists m, l = 0 :: m) \/ (exists m, r = 0 :: m) -> exists m, nmerge l r = 0 :: m.
Proof.
  intros H. destruct l as [|x l], r as [|y r].
  - destruct H as [[m E]|[m E]]; discriminate E.
  - rewrite nmerge_nil. destruct H as [[m E]|[m E]]; [discriminate E|]. now exists m.
  - rewrite nmerge_nil'. destruct H as [[m E]|[m E]]; [|discriminate E]. now exists m.
  - rewrite nmerge_cons. destruct H as [[m E]|[m E]]; injection E as -> ->; [destruct (Nat.ltb_spec y 0); [lia|]; eauto|].
    destruct (Nat.ltb_spec 0 x); [eauto|]. destruct x; [eauto|lia].
Qed.
Lemma drop_to_spec l : StronglySorted le l -> (forall x, In x l -> 0 < x) ->
  exists n, l = repeat 1 n ++ drop_to 1 l /\ (forall x, In x (drop_to 1 l) -> 1 < x) /\ StronglySorted le (drop_to 1 l).
Proof.
  induction 1 as [|x l So IH F]; intros P; [exists 0; cbn; repeat split; [intros x []|constructor]|]. cbn.
  destruct (Nat.leb_spec x 1) as [E|E].
  - assert (x = 1) as -> by (specialize (P x (or_introl eq_refl)); lia).
    destruct IH as [n [A [B C]]]; [intros y I; apply P; now right|]. exists (S n). cbn. rewrite <- A. repeat split; assumption.
  - exists 0. cbn. repeat split; [|constructor; assumption]. intros y [<-|I]; [exact E|]. rewrite Forall_forall in F. specialize (F y I). lia.
Qed.

(** What lists of factors look like *)
Definition shaped (l : list nat) : Prop := (StronglySorted le l /\ ~ In 0 l /\ (In 1 l -> l = [1])) \/ (exists m, l = 0 :: m).
Definition ones_out (l : list nat) : list nat := filter (fun x => negb (x =? 1)) l.
Lemma ones_out_none l : ~ In 1 l -> ones_out l = l.
Proof.
  intros H. unfold ones_out. induction l as [|x l IH]; [reflexivity|]. cbn. destruct (Nat.eqb_spec x 1) as [->|N]; [exfalso; apply H; now left|].
  cbn. f_equal. apply IH. intros I. apply H. now right.
Qed.
Lemma ones_out_repeat n l : ones_out (repeat 1 n ++ l) = ones_out l.
Proof. unfold ones_out. induction n as [|n IH]; [reflexivity|]. exact IH. Qed.
Lemma ones_out_one l : In 1 l -> (forall x, In x l -> x = 1) -> l = repeat 1 (length l).
Proof. intros _ H. induction l as [|x l IH]; [reflexivity|]. cbn. rewrite (H x (or_introl eq_refl)) at 1. f_equal. apply IH. intros y I. apply H. now right. Qed.
Lemma perm_ones_out l l' : Permutation l l' -> Permutation (ones_out l) (ones_out l').
Proof.
  unfold ones_out. induction 1 as [|x l l' P IH|x y l|l1 l2 l3 P1 I1 P2 I2]; cbn; [constructor|destruct (x =? 1); cbn; [exact IH|now constructor]| |now transitivity (filter (fun x => negb (x =? 1)) l2)].
  destruct (x =? 1), (y =? 1); cbn; try reflexivity. apply perm_swap.
Qed.

Lemma combine_cons a l b r : combine_factors (a :: l) (b :: r) =
  (if hd 1 (nmerge (a :: l) (b :: r)) =? 0 then nmerge (a :: l) (b :: r) ++ [0] else match drop_to 1 (nmerge (a :: l) (b :: r)) with [] => [1] | m' => m' end).
Proof.
  unfold combine_factors. pose proof (Permutation_length (nmerge_perm (a :: l) (b :: r))) as Lm. rewrite app_length in Lm.
  destruct (nmerge (a :: l) (b :: r)) as [|[|x] [|y m]]; cbn [length] in Lm; try lia; reflexivity.
Qed.

(** combining: the factors of both sides without the identity; zero only gets in if it was there *)
Lemma combine_spec l r : shaped l -> shaped r -> l <> [] -> r <> [] ->
  shaped (combine_factors l r) /\ combine_factors l r <> [] /\
  (forall x, In x (combine_factors l r) -> In x l \/ In x r \/ x = 1) /\
  (forall x, x <> 1 -> In x l \/ In x r -> In x (combine_factors l r)) /\
  (~ In 0 l -> ~ In 0 r -> StronglySorted le (combine_factors l r) /\ Permutation (ones_out (combine_factors l r)) (ones_out (l ++ r)) /\ ~ In 0 (combine_factors l r)).
Proof.
  intros Sl Sr Nl Nr. destruct l as [|a l]; [congruence|]. destruct r as [|b r]; [congruence|]. clear Nl Nr.
  rewrite combine_cons.
  pose proof (nmerge_perm (a :: l) (b :: r)) as P. set (m := nmerge (a :: l) (b :: r)) in *.
  assert (Hin : forall x, In x m <-> In x (a :: l) \/ In x (b :: r)).
  { intros x. rewrite <- in_app_iff. split; intros I; [apply (Permutation_in _ P I)|apply (Permutation_in _ (Permutation_sym P) I)]. }
  assert (2 <= length m) as Lm by (rewrite (Permutation_length P), app_length; cbn; lia).
  assert (Z : (exists m', m = 0 :: m') \/ (StronglySorted le m /\ ~ In 0 m)).
  { destruct Sl as [[S1 [Z1 O1]]|Hl]; [|left; apply nmerge_head; now left].
    destruct Sr as [[S2 [Z2 O2]]|Hr]; [|left; apply nmerge_head; now right].
    right. split; [now apply nmerge_sorted|]. rewrite Hin. tauto. }
  destruct Z as [[m' E]|[S0 Z0]].
  - rewrite E. cbn [hd Nat.eqb]. assert (In 0 (a :: l) \/ In 0 (b :: r)) as Z by (apply Hin; rewrite E; now left).
    split; [right; now exists (m' ++ [0])|]. split; [discriminate|]. split; [|split].
    + intros x I. apply in_app_iff in I. rewrite <- E in I. destruct I as [I|[<-|[]]]; [apply Hin in I; tauto|tauto].
    + intros x N I. apply in_app_iff. left. rewrite <- E. now apply Hin.
    + tauto.
  - assert (Pos : forall x, In x m -> 0 < x) by (intros x I; destruct x; [contradiction|lia]).
    destruct (drop_to_spec m S0 Pos) as [n [E [B C]]].
    assert ((hd 1 m =? 0) = false) as -> by (destruct m as [|x m0]; [reflexivity|]; cbn; apply Nat.eqb_neq; specialize (Pos x (or_introl eq_refl)); lia).
    set (d := drop_to 1 m) in *.
    assert (Po : Permutation (ones_out (match d with [] => [1] | m' => m' end)) (ones_out ((a :: l) ++ b :: r))).
    { rewrite <- (perm_ones_out _ _ P). rewrite E, ones_out_repeat. destruct d; reflexivity. }
    assert (Hd : forall x, In x m <-> (x = 1 /\ 0 < n) \/ In x d).
    { intros x. rewrite E at 1. rewrite in_app_iff. split; (intros [I|I]; [left|now right]).
      - split; [now apply repeat_spec in I|]. destruct n; [destruct I|lia].
      - destruct I as [-> I]. destruct n; [lia|now left]. }
    destruct d as [|y d'] eqn:Ed.
    + split; [left; repeat split; [repeat constructor|intros [I|[]]; discriminate I]|]. split; [discriminate|].
      split; [intros x [<-|[]]; tauto|]. split.
      * intros x N I. exfalso. apply Hin in I. apply Hd in I. destruct I as [[I _]|[]]. contradiction.
      * intros _ _. split; [repeat constructor|]. split; [exact Po|]. intros [I|[]]. discriminate I.
    + assert (~ In 0 (y :: d')) as Zd by (intros I; specialize (B 0 I); lia).
      assert (~ In 1 (y :: d')) as Od by (intros I; specialize (B 1 I); lia).
      split; [left; repeat split; [exact C|exact Zd|intros I; contradiction]|]. split; [discriminate|]. split; [|split].
      * intros x I. assert (In x m) as J by (apply Hd; now right). apply Hin in J. tauto.
      * intros x N I. apply Hin in I. apply Hd in I. tauto.
      * intros _ _. tauto.
Qed.

(** products *)
Section Product.
  Variable R : rfield.
  Add Field Rf : (r_field R).
  Notation product := (product R).
  Lemma product_cons v x l : product v (x :: l) = rmul R (v x) (product v l).
  Proof. reflexivity. Qed.
  Lemma product_nil v : product v [] = r1 R.
  Proof. reflexivity. Qed.
  Lemma product_app v l r : product v (l ++ r) = rmul R (product v l) (product v r).
  Proof. induction l as [|x l IH]; cbn [app]; [rewrite product_nil; ring|]. rewrite !product_cons, IH. ring. Qed.
  Lemma product_perm v l r : Permutation l r -> product v l = product v r.
  Proof. induction 1 as [|x l r P IH|x y l|l1 l2 l3 P1 I1 P2 I2]; rewrite ?product_cons; [reflexivity|now rewrite IH|ring|congruence]. Qed.
  Lemma product_zero v l : v 0 = r0 R -> In 0 l -> product v l = r0 R.
  Proof. intros Z. induction l as [|x l IH]; intros I; [destruct I|]. rewrite product_cons. destruct I as [->|I]; [rewrite Z; ring|]. rewrite (IH I). ring. Qed.
  Lemma product_ones v l : v 1 = r1 R -> product v (ones_out l) = product v l.
  Proof.
    intros O. induction l as [|x l IH]; [reflexivity|]. unfold ones_out in *. cbn [filter]. destruct (Nat.eqb_spec x 1) as [->|N]; cbn [negb].
    - rewrite product_cons, O, IH. ring.
    - now rewrite !product_cons, IH.
  Qed.
  Lemma combine_product v l r : v 0 = r0 R -> v 1 = r1 R -> shaped l -> shaped r -> l <> [] -> r <> [] ->
    product v (combine_factors l r) = rmul R (product v l) (product v r).
  Proof.
    intros Z O Sl Sr Nl Nr. destruct (combine_spec l r Sl Sr Nl Nr) as [_ [_ [_ [H1 H2]]]].
    destruct (in_dec Nat.eq_dec 0 l) as [I|I]; [|destruct (in_dec Nat.eq_dec 0 r) as [J|J]].
    - rewrite (product_zero v l Z I), (product_zero v (combine_factors l r) Z); [ring|]. apply H1; [discriminate|now left].
    - rewrite (product_zero v r Z J), (product_zero v (combine_factors l r) Z); [ring|]. apply H1; [discriminate|now right].
    - destruct (H2 I J) as [_ [P _]]. rewrite <- (product_ones v (combine_factors l r) O), (product_perm v _ _ P), (product_ones v _ O). apply product_app.
  Qed.
End Product.
