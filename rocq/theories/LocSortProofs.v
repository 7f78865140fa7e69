(** Sorting by party, removing repetitions and finding exclusive neighbours: normal forms of partially commuting words. *)
From Coq Require Import List NArith Arith Bool Lia Sorted Permutation.
From Verif Require Import CoreModel CoreSpec AlgModel LocModel.
Import ListNotations.

Section Generic.
Variable key : nat -> nat.
Variable excl : nat -> nat -> bool.
Hypothesis excl_key : forall a b, excl a b = true -> key a = key b.
Hypothesis excl_irrefl : forall a, excl a a = false.
Hypothesis excl_sym : forall a b, excl a b = excl b a.
Variable ok : nat -> Prop.

Inductive geq : option word -> option word -> Prop :=
| g_refl : forall t, geq t t
| g_sym : forall t u, geq t u -> geq u t
| g_trans : forall t u x, geq t u -> geq u x -> geq t x
| g_comm : forall p q a b, ok a -> ok b -> key a <> key b -> geq (Some (p ++ a :: b :: q)) (Some (p ++ b :: a :: q))
| g_idem : forall p q a, ok a -> geq (Some (p ++ a :: a :: q)) (Some (p ++ a :: q))
| g_orth : forall p q a b, ok a -> ok b -> excl a b = true -> geq (Some (p ++ a :: b :: q)) None.

Notation ins := (insert_by key).
Notation sort := (stable_sort_by key).
Definition gnf (t : option word) : option word :=
  match t with
  | None => None
  | Some w => let u := std_unique (sort w) in if find_exclusive excl u then None else Some u
  end.

(* ------------------------------------------------------------ contexts and reversal *)
Definition octx (p q : word) (t : option word) : option word := match t with None => None | Some w => Some (p ++ w ++ q) end.
Definition orev (t : option word) : option word := match t with None => None | Some w => Some (rev w) end.
Lemma geq_ctx p q t u : geq t u -> geq (octx p q t) (octx p q u).
Proof.
  induction 1; cbn; try (now constructor).
  - eapply g_trans; eassumption.
  - rewrite <- !app_assoc. cbn. rewrite !(app_assoc p). now constructor.
  - rewrite <- !app_assoc. cbn. rewrite !(app_assoc p). now constructor.
  - rewrite <- !app_assoc. cbn. rewrite !(app_assoc p). now constructor.
Qed.
Lemma geq_rev t u : geq t u -> geq (orev t) (orev u).
Proof.
  induction 1; cbn; try (now constructor).
  - eapply g_trans; eassumption.
  - rewrite !rev_app_distr. cbn. rewrite <- !app_assoc. cbn. apply g_comm; auto.
  - rewrite !rev_app_distr. cbn. rewrite <- !app_assoc. cbn. now apply g_idem.
  - rewrite !rev_app_distr. cbn. rewrite <- !app_assoc. cbn. apply g_orth; auto. rewrite excl_sym. assumption.
Qed.

(* ------------------------------------------------------------ every step keeps the normal form *)
Lemma sort_app p x : sort (p ++ x) = fold_right ins (sort x) p.
Proof. unfold stable_sort_by. apply fold_right_app. Qed.
Lemma insert_comm a b l : key a <> key b -> ins a (ins b l) = ins b (ins a l).
Proof.
  intro D. induction l as [|y l IH]; cbn.
  - destruct (Nat.leb_spec (key a) (key b)), (Nat.leb_spec (key b) (key a)); try lia; reflexivity.
  - destruct (Nat.leb_spec (key b) (key y)), (Nat.leb_spec (key a) (key y)); cbn.
    + destruct (Nat.leb_spec (key a) (key b)), (Nat.leb_spec (key b) (key a)); try lia; cbn.
      * destruct (Nat.leb_spec (key b) (key y)); [reflexivity|lia].
      * destruct (Nat.leb_spec (key a) (key y)); [reflexivity|lia].
    + destruct (Nat.leb_spec (key a) (key b)); [lia|]. cbn. destruct (Nat.leb_spec (key a) (key y)); [lia|].
      destruct (Nat.leb_spec (key b) (key y)); [reflexivity|lia].
    + destruct (Nat.leb_spec (key a) (key y)); [|lia]. destruct (Nat.leb_spec (key b) (key a)); [lia|]. cbn.
      destruct (Nat.leb_spec (key b) (key y)); [lia|reflexivity].
    + destruct (Nat.leb_spec (key a) (key y)); [lia|]. destruct (Nat.leb_spec (key b) (key y)); [lia|]. rewrite IH. reflexivity.
Qed.

Definition dup (l l' : word) : Prop := exists p a q, l = p ++ a :: a :: q /\ l' = p ++ a :: q.
Lemma dup_cons x l l' : dup l l' -> dup (x :: l) (x :: l').
Proof. intros (p & a & q & -> & ->). exists (x :: p), a, q. split; reflexivity. Qed.
Lemma dup_insert x l l' : dup l l' -> dup (ins x l) (ins x l').
Proof.
  intros (p & a & q & -> & ->). induction p as [|y p IH]; cbn.
  - destruct (Nat.leb_spec (key x) (key a)); cbn.
    + exists [x], a, q. split; reflexivity.
    + exists [], a, (ins x q). split; reflexivity.
  - destruct (Nat.leb_spec (key x) (key y)).
    + exists (x :: y :: p), a, q. split; reflexivity.
    + apply dup_cons. exact IH.
Qed.
Lemma dup_insert_twice a l : dup (ins a (ins a l)) (ins a l).
Proof.
  induction l as [|y l IH]; cbn.
  - rewrite Nat.leb_refl. exists [], a, []. split; reflexivity.
  - destruct (Nat.leb_spec (key a) (key y)); cbn.
    + rewrite Nat.leb_refl. exists [], a, (y :: l). split; reflexivity.
    + destruct (Nat.leb_spec (key a) (key y)); [lia|]. apply dup_cons. exact IH.
Qed.
Lemma dup_fold p l l' : dup l l' -> dup (fold_right ins l p) (fold_right ins l' p).
Proof. intro D. induction p as [|x p IH]; cbn; [exact D|]. now apply dup_insert. Qed.
Lemma unique_cons2 x y l : std_unique (x :: y :: l) = if Nat.eqb x y then std_unique (y :: l) else x :: std_unique (y :: l).
Proof. reflexivity. Qed.
Lemma dup_unique l l' : dup l l' -> std_unique l = std_unique l'.
Proof.
  intros (p & a & q & -> & ->). induction p as [|x p IH].
  - cbn [app]. rewrite unique_cons2, Nat.eqb_refl. reflexivity.
  - destruct p as [|y p]; cbn [app] in *.
    + rewrite unique_cons2, IH, (unique_cons2 x a q). reflexivity.
    + rewrite !unique_cons2, IH. reflexivity.
Qed.

Definition clash (l : word) : Prop := exists p a b q, l = p ++ a :: b :: q /\ excl a b = true.
Lemma clash_cons x l : clash l -> clash (x :: l).
Proof. intros (p & a & b & q & -> & E). exists (x :: p), a, b, q. split; [reflexivity|exact E]. Qed.
Lemma clash_insert x l : clash l -> clash (ins x l).
Proof.
  intros (p & a & b & q & -> & E). induction p as [|y p IH]; cbn.
  - rewrite <- (excl_key a b E). destruct (Nat.leb_spec (key x) (key a)).
    + exists [x], a, b, q. split; [reflexivity|exact E].
    + exists [], a, b, (ins x q). split; [reflexivity|exact E].
  - destruct (Nat.leb_spec (key x) (key y)).
    + exists (x :: y :: p), a, b, q. split; [reflexivity|exact E].
    + apply clash_cons. exact IH.
Qed.
Lemma clash_insert_two a b l : excl a b = true -> clash (ins a (ins b l)).
Proof.
  intro E. pose proof (excl_key a b E) as K. induction l as [|y l IH]; cbn.
  - rewrite K, Nat.leb_refl. exists [], a, b, []. split; [reflexivity|exact E].
  - destruct (Nat.leb_spec (key b) (key y)); cbn; rewrite K.
    + rewrite Nat.leb_refl. exists [], a, b, (y :: l). split; [reflexivity|exact E].
    + destruct (Nat.leb_spec (key b) (key y)); [lia|]. apply clash_cons. exact IH.
Qed.
Lemma clash_fold p l : clash l -> clash (fold_right ins l p).
Proof. intro D. induction p as [|x p IH]; cbn; [exact D|]. now apply clash_insert. Qed.
Lemma unique_head b l : exists r, std_unique (b :: l) = b :: r.
Proof.
  revert b. induction l as [|x l IH]; intro b; [exists []; reflexivity|]. rewrite unique_cons2. destruct (Nat.eqb_spec b x) as [->|_].
  - apply IH.
  - eexists; reflexivity.
Qed.
Lemma clash_unique l : clash l -> clash (std_unique l).
Proof.
  intros (p & a & b & q & -> & E). induction p as [|x p IH].
  - cbn [app]. rewrite unique_cons2. destruct (Nat.eqb_spec a b) as [->|_]; [rewrite excl_irrefl in E; discriminate|].
    destruct (unique_head b q) as (r & ->). exists [], a, b, r. split; [reflexivity|exact E].
  - cbn [app]. destruct (p ++ a :: b :: q) as [|y r] eqn:R; [destruct p; discriminate|]. rewrite unique_cons2.
    destruct (Nat.eqb x y); [exact IH|]. apply clash_cons. exact IH.
Qed.
Lemma find_cons2 x y l : find_exclusive excl (x :: y :: l) = if excl x y then true else find_exclusive excl (y :: l).
Proof. reflexivity. Qed.
Lemma clash_find l : clash l <-> find_exclusive excl l = true.
Proof.
  split.
  - intros (p & a & b & q & -> & E). induction p as [|x p IH].
    + cbn [app]. rewrite find_cons2, E. reflexivity.
    + cbn [app]. destruct (p ++ a :: b :: q) as [|y r] eqn:R; [destruct p; discriminate|]. rewrite find_cons2.
      destruct (excl x y); [reflexivity|exact IH].
  - induction l as [|x l IH]; [discriminate|]. destruct l as [|y l]; [discriminate|]. rewrite find_cons2.
    destruct (excl x y) eqn:E; intro H.
    + exists [], x, y, l. split; [reflexivity|exact E].
    + apply clash_cons, IH, H.
Qed.
Lemma geq_gnf t u : geq t u -> gnf t = gnf u.
Proof.
  induction 1; cbn.
  - reflexivity.
  - symmetry. assumption.
  - etransitivity; eassumption.
  - rewrite !sort_app. cbn. rewrite insert_comm by assumption. reflexivity.
  - rewrite !sort_app. cbn. rewrite (dup_unique _ (fold_right ins (ins a (stable_sort_by key q)) p)); [reflexivity|].
    apply dup_fold, dup_insert_twice.
  - rewrite !sort_app. cbn.
    rewrite (proj1 (clash_find _)); [reflexivity|]. apply clash_unique, clash_fold, clash_insert_two. assumption.
Qed.

(* ------------------------------------------------------------ the normal form is reached by steps *)
Lemma insert_perm x l : Permutation (ins x l) (x :: l).
Proof.
  induction l as [|y l IH]; cbn; [reflexivity|]. destruct (Nat.leb (key x) (key y)); [reflexivity|].
  rewrite IH. apply perm_swap.
Qed.
Lemma sort_perm w : Permutation (sort w) w.
Proof. induction w as [|x w IH]; cbn; [reflexivity|]. rewrite insert_perm. now constructor. Qed.
Lemma sort_ok w : Forall ok w -> Forall ok (sort w).
Proof. intro H. eapply Permutation_Forall; [symmetry; apply sort_perm|exact H]. Qed.
Lemma unique_incl w a : In a (std_unique w) -> In a w.
Proof.
  induction w as [|x w IH]; [easy|]. destruct w as [|y w]; [easy|]. rewrite unique_cons2. destruct (Nat.eqb x y).
  - intro H. right. apply IH, H.
  - intros [->|H]; [now left|right; apply IH, H].
Qed.
Lemma unique_ok w : Forall ok w -> Forall ok (std_unique w).
Proof. rewrite !Forall_forall. intros H a Ha. apply H, unique_incl, Ha. Qed.
Lemma unique_length w : length (std_unique w) <= length w.
Proof.
  induction w as [|x w IH]; [apply le_n|]. destruct w as [|y w]; [apply le_n|]. rewrite unique_cons2. cbn in IH |- *. destruct (Nat.eqb x y); cbn; lia.
Qed.
Lemma geq_cons x w u : geq (Some w) (Some u) -> geq (Some (x :: w)) (Some (x :: u)).
Proof. intro H. apply (geq_ctx [x] []) in H. cbn in H. rewrite !app_nil_r in H. exact H. Qed.
Lemma geq_insert x l : ok x -> Forall ok l -> geq (Some (x :: l)) (Some (ins x l)).
Proof.
  intros Hx. induction l as [|y l IH]; intro Hl; cbn; [apply g_refl|]. inversion Hl as [|? ? H1 H2]; subst.
  destruct (Nat.leb_spec (key x) (key y)); [apply g_refl|].
  eapply g_trans; [apply (g_comm [] l x y); auto; lia|]. cbn. apply geq_cons, IH, H2.
Qed.
Lemma geq_sort w : Forall ok w -> geq (Some w) (Some (sort w)).
Proof.
  induction w as [|x w IH]; intro H; cbn; [apply g_refl|]. inversion H as [|? ? H1 H2]; subst.
  eapply g_trans; [apply geq_cons, IH, H2|]. apply geq_insert; [exact H1|]. apply sort_ok, H2.
Qed.
Lemma geq_unique w : Forall ok w -> geq (Some w) (Some (std_unique w)).
Proof.
  induction w as [|x w IH]; intro H; [apply g_refl|]. inversion H as [|? ? H1 H2]; subst. destruct w as [|y w]; [apply g_refl|].
  rewrite unique_cons2. destruct (Nat.eqb_spec x y) as [->|_].
  - eapply g_trans; [apply (g_idem [] w y); assumption|]. apply IH, H2.
  - apply geq_cons, IH, H2.
Qed.
Lemma geq_clash w : Forall ok w -> clash w -> geq (Some w) None.
Proof.
  intros H (p & a & b & q & -> & E). apply Forall_app in H as [_ H]. inversion H as [|? ? H1 H2]; subst. inversion H2; subst.
  now apply g_orth.
Qed.
Lemma gnf_geq w : Forall ok w -> geq (Some w) (gnf (Some w)).
Proof.
  intro H. cbn. pose proof (sort_ok w H) as Hs. pose proof (unique_ok _ Hs) as Hu.
  assert (E : geq (Some w) (Some (std_unique (sort w)))). { eapply g_trans; [apply geq_sort, H|apply geq_unique, Hs]. }
  destruct (find_exclusive excl (std_unique (sort w))) eqn:F; [|exact E].
  eapply g_trans; [exact E|]. apply geq_clash; [exact Hu|]. apply clash_find, F.
Qed.
Lemma gnf_ok w u : Forall ok w -> gnf (Some w) = Some u -> Forall ok u.
Proof.
  cbn. intro H. destruct (find_exclusive excl (std_unique (sort w))); [discriminate|]. intros [= <-]. apply unique_ok, sort_ok, H.
Qed.
Lemma gnf_length w u : gnf (Some w) = Some u -> length u <= length w.
Proof.
  cbn. destruct (find_exclusive excl (std_unique (sort w))); [discriminate|]. intros [= <-]. rewrite <- (Permutation_length (sort_perm w)). apply unique_length.
Qed.

(* ------------------------------------------------------------ shape *)
Definition step_ok (a b : nat) : Prop := key a <= key b /\ a <> b /\ excl a b = false.
Lemma sort_sorted w : Sorted (fun a b => key a <= key b) (sort w).
Proof.
  induction w as [|x w IH]; cbn; [constructor|].
  assert (G : forall x l, Sorted (fun a b => key a <= key b) l -> Sorted (fun a b => key a <= key b) (ins x l)).
  { clear. intros x l. induction l as [|y l IH]; intro H; cbn.
    - repeat constructor.
    - destruct (Nat.leb_spec (key x) (key y)).
      + constructor; [exact H|]. constructor. assumption.
      + inversion H as [|? ? H1 H2]; subst. constructor; [apply IH, H1|].
        destruct l as [|z l]; cbn; [constructor; lia|]. destruct (Nat.leb (key x) (key z)); constructor; [lia|]. inversion H2; assumption. }
  apply G, IH.
Qed.
Lemma sort_fixed w : Sorted (fun a b => key a <= key b) w -> sort w = w.
Proof.
  induction 1 as [|x w H IH HH]; cbn; [reflexivity|]. fold (sort w). rewrite IH. destruct w as [|y w]; cbn; [reflexivity|].
  inversion HH; subst. destruct (Nat.leb_spec (key x) (key y)); [reflexivity|lia].
Qed.
Lemma unique_sorted (R : nat -> nat -> Prop) w : Sorted R w -> Sorted R (std_unique w).
Proof.
  induction 1 as [|x w H IH HH]; [constructor|]. destruct w as [|y w]; [repeat constructor|]. rewrite unique_cons2.
  destruct (Nat.eqb x y); [exact IH|]. constructor; [exact IH|]. destruct (unique_head y w) as (r & ->). constructor.
  inversion HH; assumption.
Qed.
Lemma unique_distinct w : Sorted (fun a b => a <> b) (std_unique w).
Proof.
  induction w as [|x w IH]; [constructor|]. destruct w as [|y w]; [repeat constructor|]. rewrite unique_cons2.
  destruct (Nat.eqb_spec x y) as [E|E]; [exact IH|]. constructor; [exact IH|]. destruct (unique_head y w) as (r & ->). now constructor.
Qed.
Lemma unique_fixed w : Sorted (fun a b => a <> b) w -> std_unique w = w.
Proof.
  induction 1 as [|x w H IH HH]; [reflexivity|]. destruct w as [|y w]; [reflexivity|]. rewrite unique_cons2. inversion HH; subst.
  destruct (Nat.eqb_spec x y); [contradiction|]. rewrite IH. reflexivity.
Qed.
Lemma find_false_sorted w : find_exclusive excl w = false <-> Sorted (fun a b => excl a b = false) w.
Proof.
  split.
  - induction w as [|x w IH]; intro H; [constructor|]. destruct w as [|y w]; [repeat constructor|]. rewrite find_cons2 in H.
    destruct (excl x y) eqn:E; [discriminate|]. constructor; [apply IH, H|now constructor].
  - induction 1 as [|x w H IH HH]; [reflexivity|]. destruct w as [|y w]; [reflexivity|]. rewrite find_cons2. inversion HH; subst.
    replace (excl x y) with false by congruence. exact IH.
Qed.
Lemma sorted_and (R1 R2 : nat -> nat -> Prop) w : Sorted R1 w -> Sorted R2 w -> Sorted (fun a b => R1 a b /\ R2 a b) w.
Proof.
  induction 1 as [|x w H IH HH]; intro H2; [constructor|]. inversion H2; subst. constructor; [auto|].
  inversion HH; subst; constructor. split; [assumption|]. match goal with A : HdRel R2 _ _ |- _ => inversion A; assumption end.
Qed.
Lemma sorted_impl (R1 R2 : nat -> nat -> Prop) w : (forall a b, R1 a b -> R2 a b) -> Sorted R1 w -> Sorted R2 w.
Proof.
  intro I. induction 1 as [|x w H IH HH]; constructor; [exact IH|]. inversion HH; subst; constructor. auto.
Qed.
Lemma gnf_shape w u : gnf (Some w) = Some u -> Sorted step_ok u.
Proof.
  cbn. destruct (find_exclusive excl (std_unique (sort w))) eqn:F; [discriminate|]. intros [= <-].
  apply sorted_and; [apply unique_sorted, sort_sorted|]. apply sorted_and; [apply unique_distinct|]. apply find_false_sorted, F.
Qed.
Lemma gnf_fixed w : Sorted step_ok w -> gnf (Some w) = Some w.
Proof.
  intro H. cbn. rewrite sort_fixed by (eapply sorted_impl; [|exact H]; intros a b (A & _ & _); exact A).
  rewrite unique_fixed by (eapply sorted_impl; [|exact H]; intros a b (_ & A & _); exact A).
  rewrite (proj2 (find_false_sorted w)) by (eapply sorted_impl; [|exact H]; intros a b (_ & _ & A); exact A). reflexivity.
Qed.
Lemma gnf_idem t : gnf (gnf t) = gnf t.
Proof.
  destruct t as [w|]; [|reflexivity]. destruct (gnf (Some w)) as [u|] eqn:E; [|reflexivity]. apply gnf_fixed. eapply gnf_shape, E.
Qed.
End Generic.
