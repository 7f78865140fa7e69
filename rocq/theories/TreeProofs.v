From Coq Require Import List ZArith Arith Bool Lia Sorted.
From Verif Require Import TreeModel TreeSpec.
Import ListNotations.
Local Opaque path_eq_dec.

Section TreeProofs.
  Variable V : Type.
  Notation tree := (itree V).

  Lemma tree_ind2 : forall P : tree -> Prop, (forall i v ch, Forall P ch -> P (Node i v ch)) -> forall t, P t.
  Proof.
    intros P H. fix IH 1. intros [i v ch]. apply H. induction ch; constructor; auto.
  Qed.
  Inductive tsorted : tree -> Prop :=
  | ts_node : forall i v ch, StronglySorted Z.lt (map t_id ch) -> Forall tsorted ch -> tsorted (Node i v ch).

  Definition inc (l : list tree) : Prop := StronglySorted Z.lt (map t_id l).
  Lemma inc_cons : forall c l, inc (c :: l) <-> inc l /\ forall d, In d l -> (t_id c < t_id d)%Z.
  Proof.
    intros c l. unfold inc. cbn. split.
    - intros H. inversion H as [|? ? A B]. subst. split; auto. intros d I. rewrite Forall_forall in B. apply B. apply in_map; auto.
    - intros [A B]. constructor; auto. apply Forall_forall. intros x I. apply in_map_iff in I. destruct I as (d & <- & I). auto.
  Qed.
  Lemma child_spec : forall l x c, inc l -> (child x l = Some c <-> In c l /\ t_id c = x).
  Proof.
    induction l as [|d l IH]; intros x c H; cbn.
    - split; [discriminate | intros [[] _]].
    - apply inc_cons in H. destruct H as [H D]. destruct (Z.ltb_spec (t_id d) x).
      + rewrite IH by auto. split; [intros [I E]; auto|]. intros [[->|I] E]; auto. lia.
      + destruct (Z.eqb_spec (t_id d) x).
        * split; [injection 1 as <-; auto|]. intros [[->|I] E]; auto. apply D in I. lia.
        * split; [discriminate|]. intros [[->|I] E]; [lia|]. apply D in I. lia.
  Qed.
  Lemma child_none : forall l x, inc l -> (child x l = None <-> forall c, In c l -> t_id c <> x).
  Proof.
    intros l x H. split.
    - intros E c I F. assert (child x l = Some c) by (apply child_spec; auto). congruence.
    - intros N. destruct (child x l) as [c|] eqn:E; auto. apply child_spec in E; auto. destruct E as [I F]. elim (N c I F).
  Qed.
  Lemma child_id : forall l x c, inc l -> child x l = Some c -> t_id c = x.
  Proof. intros l x c H E. apply child_spec in E; tauto. Qed.
  (** changing one child *)
  Lemma with_child_other : forall l x f y, inc l -> (forall b c, t_id (f b c) = t_id c) -> y <> x -> child y (with_child x f l) = child y l.
  Proof.
    induction l as [|c l IH]; intros x f y H F N; cbn.
    - rewrite F. cbn. destruct (Z.ltb_spec x y); auto. destruct (Z.eqb_spec x y); auto. congruence.
    - apply inc_cons in H. destruct H as [H D]. destruct (Z.ltb_spec (t_id c) x); cbn.
      + destruct (Z.ltb (t_id c) y); auto.
      + destruct (Z.eqb_spec (t_id c) x); cbn; rewrite F; cbn [t_id t_leaf].
        * destruct (Z.ltb (t_id c) y); auto. destruct (Z.eqb_spec (t_id c) y); auto. lia.
        * destruct (Z.ltb_spec x y); auto. destruct (Z.eqb_spec x y); [congruence|].
          destruct (Z.ltb_spec (t_id c) y); [lia|]. destruct (Z.eqb_spec (t_id c) y); auto. lia.
  Qed.
  Lemma with_child_same : forall (l : list tree) x f, inc l -> (forall b c, t_id (f b c) = t_id c) ->
    child x (with_child x f l) = Some (match child x l with Some c => f false c | None => f true (t_leaf x) end).
  Proof.
    induction l as [|c l IH]; intros x f H F; cbn.
    - rewrite F. cbn. rewrite Z.ltb_irrefl, Z.eqb_refl. reflexivity.
    - apply inc_cons in H. destruct H as [H D]. destruct (Z.ltb_spec (t_id c) x) as [L|L]; cbn.
      + replace (Z.ltb (t_id c) x) with true by (symmetry; apply Z.ltb_lt; auto). apply IH; auto.
      + destruct (Z.eqb_spec (t_id c) x) as [E|E]; cbn; rewrite F; cbn [t_id t_leaf].
        * rewrite E, Z.ltb_irrefl, Z.eqb_refl. reflexivity.
        * rewrite Z.ltb_irrefl, Z.eqb_refl. reflexivity.
  Qed.
  Lemma with_child_in : forall (l : list tree) x f c, In c (with_child x f l) -> In c l \/ c = f true (t_leaf x) \/ exists d, In d l /\ c = f false d.
  Proof.
    induction l as [|d l IH]; intros x f c; cbn.
    - intros [<-|[]]; auto.
    - destruct (Z.ltb (t_id d) x); cbn.
      + intros [->|I]; auto. destruct (IH x f c I) as [J|[J|(e & J & K)]]; auto. right; right; exists e; auto.
      + destruct (Z.eqb (t_id d) x); cbn.
        * intros [<-|I]; auto. right; right; exists d; auto.
        * intros [<-|[->|I]]; auto.
  Qed.
  Lemma with_child_inc : forall (l : list tree) x f, inc l -> (forall b c, t_id (f b c) = t_id c) -> inc (with_child x f l).
  Proof.
    induction l as [|c l IH]; intros x f H F; cbn.
    - apply inc_cons. split; [constructor|]. intros d [].
    - pose proof H as H0. apply inc_cons in H. destruct H as [H D]. destruct (Z.ltb_spec (t_id c) x).
      + apply inc_cons. split; auto. intros d I. apply with_child_in in I. destruct I as [I|[->|(e & I & ->)]]; rewrite ?F; auto.
      + destruct (Z.eqb_spec (t_id c) x).
        * apply inc_cons. rewrite F. auto.
        * apply inc_cons. split; auto. rewrite F. cbn. intros d [->|I]; [lia|]. apply D in I. lia.
  Qed.
  Lemma sorted_inv : forall i v ch, tsorted (Node i v ch) -> inc ch /\ Forall tsorted ch.
  Proof. intros i v ch H. inversion H; subst. auto. Qed.
  Lemma sorted_children : forall t, tsorted t -> inc (t_children t) /\ Forall tsorted (t_children t).
  Proof. intros [i v ch]. apply sorted_inv. Qed.
  Lemma leaf_sorted : forall x, tsorted (t_leaf x : tree).
  Proof. intros. constructor; constructor. Qed.
  Lemma with_child_sorted : forall l x f, inc l -> Forall tsorted l -> (forall b c, t_id (f b c) = t_id c) -> (forall b c, tsorted c -> tsorted (f b c)) ->
    inc (with_child x f l) /\ Forall tsorted (with_child x f l).
  Proof.
    intros l x f H G F S. split; [apply with_child_inc; auto|]. rewrite Forall_forall in *. intros c I. apply with_child_in in I.
    destruct I as [I|[->|(e & I & ->)]]; auto. apply S, leaf_sorted.
  Qed.
  Lemma child_sorted : forall l x c, Forall tsorted l -> inc l -> child x l = Some c -> tsorted c.
  Proof. intros l x c F I E. apply child_spec in E; auto. rewrite Forall_forall in F. apply F; tauto. Qed.
  (** add *)
  Lemma add_id : forall p v (t : tree), t_id (t_add p v t) = t_id t.
  Proof. destruct p; reflexivity. Qed.
  Lemma add_sorted : forall p v (t : tree), tsorted t -> tsorted (t_add p v t).
  Proof.
    induction p as [|x p IH]; intros v t H; cbn; destruct (sorted_children t H) as [A B].
    - constructor; auto.
    - destruct (with_child_sorted (t_children t) x (fun _ c => t_add p v c) A B) as [C D]; [intros; apply add_id | intros; apply IH; auto|]. constructor; auto.
  Qed.
  Lemma find_leaf : forall p x, t_find p (t_leaf x : tree) = None.
  Proof. destruct p; reflexivity. Qed.
  Lemma find_add : forall p v (t : tree) q, tsorted t -> t_find q (t_add p v t) = if path_eq_dec q p then Some v else t_find q t.
  Proof.
    induction p as [|x p IH]; intros v t q H; destruct q as [|y q]; cbn [t_add t_find t_value t_children].
    - destruct (path_eq_dec [] []); congruence.
    - destruct (path_eq_dec (y :: q) []); [discriminate|reflexivity].
    - destruct (path_eq_dec [] (x :: p)); [discriminate|reflexivity].
    - destruct (sorted_children t H) as [A B]. destruct (Z.eq_dec y x) as [->|N].
      + rewrite with_child_same by (auto; intros; apply add_id). destruct (child x (t_children t)) as [c|] eqn:E.
        * rewrite IH by (eapply child_sorted; eauto). destruct (path_eq_dec q p), (path_eq_dec (x :: q) (x :: p)); congruence.
        * rewrite IH by apply leaf_sorted. rewrite find_leaf. destruct (path_eq_dec q p), (path_eq_dec (x :: q) (x :: p)); congruence.
      + rewrite with_child_other by (auto; intros; apply add_id). destruct (path_eq_dec (y :: q) (x :: p)); [congruence|reflexivity].
  Qed.
  (** add_if_new *)
  Lemma ain_id : forall p d v (t : tree), t_id (t_add_if_new d p v t) = t_id t.
  Proof. destruct p; intros [|] v [i [w|] ch]; reflexivity. Qed.
  Lemma ain_sorted : forall p d v (t : tree), tsorted t -> tsorted (t_add_if_new d p v t).
  Proof.
    induction p as [|x p IH]; intros d v t H; cbn; destruct (sorted_children t H) as [A B].
    - destruct d, (t_value t); auto; constructor; auto.
    - destruct (with_child_sorted (t_children t) x (fun a c => t_add_if_new (d || a) p v c) A B) as [C D]; [intros; apply ain_id | intros; apply IH; auto|]. constructor; auto.
  Qed.
  Lemma ain_new : forall p v x q, t_find q (t_add_if_new true p v (t_leaf x : tree)) = if path_eq_dec q p then Some v else None.
  Proof.
    induction p as [|y p IH]; intros v x q; destruct q as [|z q]; cbn.
    - destruct (path_eq_dec [] []); congruence.
    - destruct (path_eq_dec (z :: q) []); [discriminate|reflexivity].
    - destruct (path_eq_dec [] (y :: p)); [discriminate|reflexivity].
    - rewrite ain_id. cbn. destruct (Z.ltb_spec y z).
      + destruct (path_eq_dec (z :: q) (y :: p)) as [E|]; auto. injection E as E1 E2. lia.
      + destruct (Z.eqb_spec y z) as [->|].
        * rewrite IH. destruct (path_eq_dec q p), (path_eq_dec (z :: q) (z :: p)); congruence.
        * destruct (path_eq_dec (z :: q) (y :: p)); congruence.
  Qed.
  Lemma find_ain : forall p v (t : tree) q, tsorted t ->
    t_find q (t_add_if_new false p v t) = match t_find q t with Some w => Some w | None => if path_eq_dec q p then Some v else None end.
  Proof.
    induction p as [|x p IH]; intros v t q H; destruct q as [|y q]; cbn [t_add_if_new t_find].
    - destruct (t_value t) as [w|] eqn:E; cbn; auto; destruct (path_eq_dec [] []); congruence.
    - assert (X : t_children (match t_value t with Some _ => t | None => Node (t_id t) (Some v) (t_children t) end) = t_children t) by (destruct (t_value t); reflexivity).
      rewrite X. destruct (path_eq_dec (y :: q) []); [discriminate|]. destruct (child y (t_children t)); auto. destruct (t_find q i); auto.
    - cbn. destruct (path_eq_dec [] (x :: p)); [discriminate|]. destruct (t_value t); reflexivity.
    - cbn [t_children]. destruct (sorted_children t H) as [A B]. destruct (Z.eq_dec y x) as [->|N].
      + rewrite with_child_same by (auto; intros; apply ain_id). destruct (child x (t_children t)) as [c|] eqn:E.
        * cbn [orb]. rewrite IH by (eapply child_sorted; eauto). destruct (t_find q c); auto.
          destruct (path_eq_dec q p), (path_eq_dec (x :: q) (x :: p)); congruence.
        * cbn [orb]. rewrite ain_new. destruct (path_eq_dec q p), (path_eq_dec (x :: q) (x :: p)); congruence.
      + rewrite with_child_other by (auto; intros; apply ain_id). destruct (path_eq_dec (y :: q) (x :: p)); [congruence|].
        destruct (child y (t_children t)); auto. destruct (t_find q i); auto.
  Qed.
  Lemma ain_result_new : forall p v x, t_add_if_new_result true p v (t_leaf x : tree) = (v, true).
  Proof. induction p; intros; cbn; auto. Qed.
  Lemma ain_result : forall p v (t : tree), t_add_if_new_result false p v t = match t_find p t with Some w => (w, false) | None => (v, true) end.
  Proof.
    induction p as [|x p IH]; intros v t; cbn.
    - reflexivity.
    - destruct (child x (t_children t)); auto. apply ain_result_new.
  Qed.
  (** merging; the loop over the children *)
  Fixpoint loop (l1 : list tree) : list tree -> list tree :=
    match l1 with
    | [] => fun l2 => l2
    | c :: l1' =>
        fix inner (l2 : list tree) : list tree :=
          match l2 with
          | [] => l1
          | c' :: l2' =>
              if Z.ltb (t_id c) (t_id c') then c :: loop l1' l2
              else if Z.ltb (t_id c') (t_id c) then c' :: inner l2'
              else t_merge c c' :: loop l1' l2'
          end
    end.
  Lemma merge_eq : forall i v ch (o : tree), t_merge (Node i v ch) o = Node i (match t_value o with Some w => Some w | None => v end) (loop ch (t_children o)).
  Proof. reflexivity. Qed.
  Lemma loop_cons : forall c l1 c' l2, loop (c :: l1) (c' :: l2) =
    if Z.ltb (t_id c) (t_id c') then c :: loop l1 (c' :: l2) else if Z.ltb (t_id c') (t_id c) then c' :: loop (c :: l1) l2 else t_merge c c' :: loop l1 l2.
  Proof. reflexivity. Qed.
  Lemma loop_nil_r : forall l, loop l [] = l.
  Proof. destruct l; reflexivity. Qed.
  Lemma merge_id : forall t o : tree, t_id (t_merge t o) = t_id t.
  Proof. intros [i v ch] o. reflexivity. Qed.
  Lemma loop_ids : forall l1 l2 c, In c (loop l1 l2) -> (exists d, In d l1 /\ t_id c = t_id d) \/ (exists d, In d l2 /\ t_id c = t_id d).
  Proof.
    induction l1 as [|c1 l1 IH1].
    - intros l2 c I. right. exists c. auto.
    - induction l2 as [|c2 l2 IH2]; intros c I.
      + left. exists c; auto.
      + rewrite loop_cons in I. destruct (Z.ltb (t_id c1) (t_id c2)).
        * destruct I as [<-|I]; [left; exists c1; cbn; auto|]. apply IH1 in I. destruct I as [(d & I & E)|(d & I & E)]; [left|right]; exists d; cbn in *; auto.
        * destruct (Z.ltb (t_id c2) (t_id c1)).
          -- destruct I as [<-|I]; [right; exists c2; cbn; auto|]. apply IH2 in I. destruct I as [(d & I & E)|(d & I & E)]; [left|right]; exists d; cbn in *; auto.
          -- destruct I as [<-|I]; [left; exists c1; rewrite merge_id; cbn; auto|]. apply IH1 in I. destruct I as [(d & I & E)|(d & I & E)]; [left|right]; exists d; cbn in *; auto.
  Qed.
  Lemma loop_spec : forall l1 l2, inc l1 -> inc l2 -> inc (loop l1 l2) /\
    forall x, child x (loop l1 l2) = match child x l1, child x l2 with
      | Some a, Some b => Some (t_merge a b) | Some a, None => Some a | None, o => o end.
  Proof.
    induction l1 as [|c l1 IH1].
    - intros l2 _ I. cbn. auto.
    - induction l2 as [|c' l2 IH2]; intros I1 I2.
      + rewrite loop_nil_r. split; auto. intros x. cbn [child]. destruct (Z.ltb (t_id c) x); [destruct (child x l1); auto|]. destruct (Z.eqb (t_id c) x); auto.
      + rewrite loop_cons. pose proof I1 as J1. pose proof I2 as J2. apply inc_cons in I1, I2. destruct I1 as [I1 D1], I2 as [I2 D2].
        destruct (Z.ltb_spec (t_id c) (t_id c')) as [L|L].
        * destruct (IH1 (c' :: l2) I1 J2) as [A B]. split.
          -- apply inc_cons. split; auto. intros d D. apply loop_ids in D. destruct D as [(e & E & ->)|(e & [<-|E] & ->)]; auto. apply D2 in E. lia.
          -- intros x. cbn [child]. destruct (Z.ltb_spec (t_id c) x) as [M|M].
             ++ rewrite B. cbn [child]. reflexivity.
             ++ replace (Z.ltb (t_id c') x) with false by (symmetry; apply Z.ltb_ge; lia). destruct (Z.eqb_spec (t_id c) x).
                ** replace (Z.eqb (t_id c') x) with false by (symmetry; apply Z.eqb_neq; lia). reflexivity.
                ** replace (Z.eqb (t_id c') x) with false by (symmetry; apply Z.eqb_neq; lia). reflexivity.
        * destruct (Z.ltb_spec (t_id c') (t_id c)) as [L'|L'].
          -- destruct (IH2 J1 I2) as [A B]. split.
             ++ apply inc_cons. split; auto. intros d D. apply loop_ids in D. destruct D as [(e & [<-|E] & ->)|(e & E & ->)]; auto. apply D1 in E. lia.
             ++ intros x. cbn [child]. destruct (Z.ltb_spec (t_id c') x) as [M|M].
                ** rewrite B. cbn [child]. reflexivity.
                ** replace (Z.ltb (t_id c) x) with false by (symmetry; apply Z.ltb_ge; lia).
                   replace (Z.eqb (t_id c) x) with false by (symmetry; apply Z.eqb_neq; lia). reflexivity.
          -- assert (Q : t_id c = t_id c') by lia. destruct (IH1 l2 I1 I2) as [A B]. split.
             ++ apply inc_cons. split; auto. rewrite merge_id. intros d D. apply loop_ids in D. destruct D as [(e & E & ->)|(e & E & ->)]; auto. apply D2 in E. lia.
             ++ intros x. cbn [child]. rewrite merge_id, <- Q. destruct (Z.ltb (t_id c) x); auto. destruct (Z.eqb (t_id c) x); auto.
  Qed.
  Lemma merge_sorted : forall t o : tree, tsorted t -> tsorted o -> tsorted (t_merge t o).
  Proof.
    induction t as [i v ch IH] using tree_ind2. intros o T O. rewrite merge_eq. apply sorted_inv in T. destruct T as [A B]. destruct (sorted_children o O) as [A' B'].
    destruct (loop_spec _ _ A A') as [I C]. constructor; auto. apply Forall_forall. intros c J.
    assert (K : child (t_id c) (loop ch (t_children o)) = Some c) by (apply child_spec; auto). rewrite C in K.
    destruct (child (t_id c) ch) as [a|] eqn:E.
    - pose proof (child_sorted _ _ _ B A E) as Sa. destruct (child (t_id c) (t_children o)) as [b|] eqn:E'.
      + injection K as <-. rewrite Forall_forall in IH. apply IH; auto; [apply child_spec in E; tauto | eapply child_sorted; eauto].
      + congruence.
    - eapply child_sorted; eauto.
  Qed.
  Lemma find_merge : forall p (t o : tree), tsorted t -> tsorted o ->
    t_find p (t_merge t o) = match t_find p o with Some w => Some w | None => t_find p t end.
  Proof.
    induction p as [|x p IH]; intros [i v ch] o T O; rewrite merge_eq; cbn [t_find t_value t_children].
    - destruct (t_value o); reflexivity.
    - apply sorted_inv in T. destruct T as [A B]. destruct (sorted_children o O) as [A' B']. destruct (loop_spec _ _ A A') as [I C]. rewrite C.
      destruct (child x ch) as [a|] eqn:E, (child x (t_children o)) as [b|] eqn:E'; auto.
      + apply IH; [exact (child_sorted _ _ _ B A E) | exact (child_sorted _ _ _ B' A' E')].
      + destruct (t_find p b); auto.
  Qed.
  (** histories *)
  Lemma add_node_sorted : forall (t : tree) x, tsorted t -> tsorted (t_add_node t x).
  Proof.
    intros t x H. destruct (sorted_children t H) as [A B]. unfold t_add_node. destruct (with_child_sorted (t_children t) x (fun _ c => c) A B); auto. constructor; auto.
  Qed.
  Lemma eval_sorted : forall e : texp V, tsorted (t_eval e).
  Proof.
    induction e; cbn; [apply leaf_sorted | apply add_sorted | apply ain_sorted | apply add_node_sorted | apply merge_sorted]; auto.
  Qed.
  Lemma find_add_node : forall (t : tree) x p, tsorted t -> t_find p (t_add_node t x) = t_find p t.
  Proof.
    intros t x [|y p] H; cbn; auto. destruct (sorted_children t H) as [A B]. destruct (Z.eq_dec y x) as [->|].
    - rewrite with_child_same by auto. destruct (child x (t_children t)); auto. apply find_leaf.
    - rewrite with_child_other by auto. reflexivity.
  Qed.
  Lemma find_entry : forall (e : texp V) p, t_find p (t_eval e) = entry e p.
  Proof.
    induction e as [|e IH q v|e IH q v|e IH x|a IHa b IHb]; intros p; cbn [t_eval entry].
    - apply find_leaf.
    - rewrite find_add by apply eval_sorted. rewrite IH. reflexivity.
    - rewrite find_ain by apply eval_sorted. rewrite IH. reflexivity.
    - rewrite find_add_node by apply eval_sorted. apply IH.
    - rewrite find_merge by apply eval_sorted. rewrite IHa, IHb. reflexivity.
  Qed.
  Lemma add_if_new_returns : forall (e : texp V) p v,
    t_add_if_new_result false p v (t_eval e) = match entry e p with Some w => (w, false) | None => (v, true) end.
  Proof. intros. rewrite ain_result, find_entry. reflexivity. Qed.
  (** which nodes there are *)
  Definition has (p : list Z) (t : tree) : Prop := t_find_node p t <> None.
  Lemma has_nil : forall t, has [] t.
  Proof. intros t. unfold has. cbn. discriminate. Qed.
  Lemma has_cons : forall x p t, has (x :: p) t <-> exists c, child x (t_children t) = Some c /\ has p c.
  Proof.
    intros x p t. unfold has. cbn. destruct (child x (t_children t)) as [c|]; split.
    - intros H; exists c; auto.
    - intros (d & E & H). injection E as <-. auto.
    - congruence.
    - intros (d & E & _). discriminate.
  Qed.
  Lemma has_leaf : forall p x, has p (t_leaf x) <-> p = [].
  Proof.
    intros [|y p] x; split; auto.
    - intros _; apply has_nil.
    - intros H. apply has_cons in H. destruct H as (c & E & _). discriminate.
    - discriminate.
  Qed.
  Lemma prefix_cons : forall x p q, prefix (x :: p) (x :: q) <-> prefix p q.
  Proof. intros x p q. unfold prefix. cbn. split; intros [s E]; exists s; congruence. Qed.
  Lemma prefix_nil : forall p, prefix p [] <-> p = [].
  Proof. intros p. unfold prefix. split; [intros [s E]; destruct p; auto; discriminate | intros ->; exists []; auto]. Qed.
  Lemma nil_prefix : forall p, prefix [] p.
  Proof. intros p. exists p; reflexivity. Qed.
  (** a change along a path [q], node by node *)
  Lemma has_with : forall (f : bool -> tree -> tree) x (t : tree) q,
    (forall b c, t_id (f b c) = t_id c) -> (forall b c p, tsorted c -> (has p (f b c) <-> prefix p q \/ has p c)) -> tsorted t ->
    forall v p, has p (Node (t_id t) v (with_child x f (t_children t))) <-> prefix p (x :: q) \/ has p t.
  Proof.
    intros f x t q F G H v [|y p].
    - split; [intros _; right; apply has_nil | intros _; apply has_nil].
    - destruct (sorted_children t H) as [A B]. rewrite !has_cons. cbn [t_children]. destruct (Z.eq_dec y x) as [->|N].
      + rewrite with_child_same by auto. rewrite prefix_cons. destruct (child x (t_children t)) as [c|] eqn:E.
        * assert (Sc : tsorted c) by (eapply child_sorted; eauto). split.
          -- intros (d & Q & K). injection Q as <-. apply G in K; auto. destruct K; auto. right. exists c; auto.
          -- intros [K|(d & Q & K)]; [|injection Q as <-]; eexists; (split; [reflexivity|]); apply G; auto.
        * split.
          -- intros (d & Q & K). injection Q as <-. apply G in K; [|apply leaf_sorted]. destruct K as [K|K]; auto. apply has_leaf in K. subst. left. apply nil_prefix.
          -- intros [K|(d & Q & K)]; [|discriminate]. eexists; split; [reflexivity|]. apply G; [apply leaf_sorted|auto].
      + rewrite with_child_other by auto. split; [auto|]. intros [[s K]|K]; auto. cbn in K. congruence.
  Qed.
  Lemma has_add : forall q v (t : tree) p, tsorted t -> (has p (t_add q v t) <-> prefix p q \/ has p t).
  Proof.
    induction q as [|x q IH]; intros v t p H; cbn.
    - rewrite prefix_nil. destruct p as [|y p].
      + split; [intros _; right; apply has_nil | intros _; apply has_nil].
      + rewrite !has_cons. cbn. split; [auto|intros [K|K]; [discriminate|auto]].
    - apply (has_with (fun _ c => t_add q v c)); auto. intros; apply add_id.
  Qed.
  Lemma has_ain : forall q d v (t : tree) p, tsorted t -> (has p (t_add_if_new d q v t) <-> prefix p q \/ has p t).
  Proof.
    induction q as [|x q IH]; intros d v t p H; cbn.
    - rewrite prefix_nil.
      assert (K : has p (Node (t_id t) (Some v) (t_children t)) <-> p = [] \/ has p t).
      { destruct p as [|y p]; [split; [intros _; right; apply has_nil | intros _; apply has_nil]|].
        rewrite !has_cons. cbn. split; [auto|intros [K|K]; [discriminate|auto]]. }
      assert (K' : has p t <-> p = [] \/ has p t) by (split; auto; intros [->|J]; [apply has_nil|auto]).
      destruct d; auto. destruct (t_value t); auto.
    - apply (has_with (fun a c => t_add_if_new (d || a) q v c)); auto. intros; apply ain_id.
  Qed.
  Lemma has_add_node : forall (t : tree) x p, tsorted t -> (has p (t_add_node t x) <-> p = [x] \/ has p t).
  Proof.
    intros t x p H. unfold t_add_node. rewrite (has_with (fun _ c => c) x t []); auto.
    - split; intros [K|K]; auto.
      + destruct p as [|y p]; [right; apply has_nil|]. destruct K as [s K]. cbn in K. injection K as -> K. destruct p; [auto|discriminate].
      + left. subst. exists []. reflexivity.
    - intros _ c r _. rewrite prefix_nil. split; auto. intros [->|K]; [apply has_nil|auto].
  Qed.
  Lemma has_merge : forall p (t o : tree), tsorted t -> tsorted o -> (has p (t_merge t o) <-> has p t \/ has p o).
  Proof.
    induction p as [|x p IH]; intros [i v ch] o T O.
    - split; [intros _; left; apply has_nil | intros _; apply has_nil].
    - rewrite merge_eq, !has_cons. cbn [t_children].
      apply sorted_inv in T. destruct T as [A B]. destruct (sorted_children o O) as [A' B']. destruct (loop_spec _ _ A A') as [I C]. rewrite C.
      destruct (child x ch) as [a|] eqn:E, (child x (t_children o)) as [b|] eqn:E'.
      + assert (Sa : tsorted a) by exact (child_sorted _ _ _ B A E). assert (Sb : tsorted b) by exact (child_sorted _ _ _ B' A' E').
        split.
        * intros (d & Q & K). injection Q as <-. apply IH in K; auto. destruct K; [left; exists a | right; exists b]; auto.
        * intros [(d & Q & K)|(d & Q & K)]; injection Q as <-; eexists; (split; [reflexivity|]); apply IH; auto.
      + split; [auto|]. intros [K|(d & Q & K)]; [auto|discriminate].
      + split; [auto|]. intros [(d & Q & K)|K]; [discriminate|auto].
      + split; [auto|]. intros [(d & Q & K)|K]; [discriminate|auto].
  Qed.
  Lemma has_present : forall (e : texp V) p, has p (t_eval e) <-> present e p.
  Proof.
    induction e as [|e IH q v|e IH q v|e IH x|a IHa b IHb]; intros p; cbn [t_eval present].
    - apply has_leaf.
    - rewrite has_add by apply eval_sorted. rewrite IH. tauto.
    - rewrite has_ain by apply eval_sorted. rewrite IH. tauto.
    - rewrite has_add_node by apply eval_sorted. rewrite IH. tauto.
    - rewrite has_merge by apply eval_sorted. rewrite IHa, IHb. tauto.
  Qed.
  Lemma find_node_value : forall p (t : tree), t_find p t = match t_find_node p t with Some n => t_value n | None => None end.
  Proof. induction p as [|x p IH]; intros t; cbn; auto. destruct (child x (t_children t)); auto. Qed.
  (** the longest known prefix *)
  Lemma hint_spec : forall p (t : tree), let '(n, r) := t_hint p t in
    exists p', p = p' ++ r /\ t_find_node p' t = Some n /\ match r with [] => True | x :: _ => t_find_node (p' ++ [x]) t = None end.
  Proof.
    induction p as [|x p IH]; intros t; cbn.
    - exists []. auto.
    - destruct (child x (t_children t)) as [c|] eqn:E.
      + specialize (IH c). destruct (t_hint p c) as [n r]. destruct IH as (p' & -> & A & B). exists (x :: p'). cbn. rewrite E. split; auto. 
      + exists []. cbn. rewrite E. auto.
  Qed.
  (** iteration *)
  Fixpoint pre (t : tree) : list (list Z * tree) :=
    match t with
    | Node i v ch => ([], t) :: (fix go (l : list tree) := match l with [] => [] | c :: l' => map (fun x => (t_id c :: fst x, snd x)) (pre c) ++ go l' end) ch
    end.
  Definition under (c : tree) : list (list Z * tree) := map (fun x => (t_id c :: fst x, snd x)) (pre c).
  Lemma pre_eq : forall i v ch, pre (Node i v ch) = ([], Node i v ch) :: flat_map under ch.
  Proof.
    intros i v ch. cbn [pre]. f_equal.
  Qed.
  Lemma pre_children : forall t, pre t = ([], t) :: flat_map under (t_children t).
  Proof. intros [i v ch]. apply pre_eq. Qed.
  Lemma pre_find : forall t, tsorted t -> forall p n, In (p, n) (pre t) <-> t_find_node p t = Some n.
  Proof.
    induction t as [i v ch IH] using tree_ind2. intros H p n. pose proof (sorted_inv _ _ _ H) as [A B]. rewrite pre_eq. cbn [In]. rewrite in_flat_map.
    rewrite Forall_forall in IH, B. split.
    - intros [Q|(c & I & J)].
      + injection Q as <- <-. reflexivity.
      + unfold under in J. apply in_map_iff in J. destruct J as ((q & m) & Q & J). cbn in Q. injection Q as <- <-. cbn [t_find_node t_children].
        replace (child (t_id c) ch) with (Some c) by (symmetry; apply child_spec; auto). apply IH; auto.
    - destruct p as [|x p]; cbn.
      + injection 1 as <-. auto.
      + destruct (child x ch) as [c|] eqn:E; [|discriminate]. apply child_spec in E; auto. destruct E as [I <-]. intros F. right. exists c. split; auto.
        apply in_map_iff. exists (p, n). split; auto. apply IH; auto.
  Qed.
  Definition ord (a b : list Z * tree) : Prop := lex (fst a) (fst b).
  Lemma sorted_app : forall (X : Type) (r : X -> X -> Prop) l l', StronglySorted r l -> StronglySorted r l' -> (forall a b, In a l -> In b l' -> r a b) -> StronglySorted r (l ++ l').
  Proof.
    intros X r l l' H H' C. induction H as [|a l H IH F]; cbn; auto. constructor.
    - apply IH. intros; apply C; cbn; auto.
    - apply Forall_app. split; auto. apply Forall_forall. intros b I. apply C; cbn; auto.
  Qed.
  Lemma sorted_map : forall (X Y : Type) (r : X -> X -> Prop) (r' : Y -> Y -> Prop) (f : X -> Y) l, (forall a b, r a b -> r' (f a) (f b)) -> StronglySorted r l -> StronglySorted r' (map f l).
  Proof.
    intros X Y r r' f l C H. induction H as [|a l H IH F]; cbn; constructor; auto. rewrite Forall_forall in *. intros y I. apply in_map_iff in I. destruct I as (b & <- & I). auto.
  Qed.
  Lemma pre_sorted : forall t, tsorted t -> StronglySorted ord (pre t).
  Proof.
    induction t as [i v ch IH] using tree_ind2. intros H. apply sorted_inv in H. destruct H as [A B]. rewrite pre_eq. constructor.
    - revert A B IH. induction ch as [|c ch IHc]; intros A B IH; cbn; [constructor|]. apply inc_cons in A. destruct A as [A D]. inversion B; inversion IH; subst.
      apply sorted_app; auto.
      + eapply sorted_map; [|eauto]. intros x y K. apply lex_tail. exact K.
      + intros x y I J. unfold under in I. apply in_map_iff in I. destruct I as (x' & <- & I). apply in_flat_map in J. destruct J as (d & J & K).
        unfold under in K. apply in_map_iff in K. destruct K as (y' & <- & K). apply lex_head. auto.
    - apply Forall_forall. intros x I. apply in_flat_map in I. destruct I as (c & I & J). unfold under in J. apply in_map_iff in J. destruct J as (y & <- & J). apply lex_nil.
  Qed.
  (** what the iterator has still to visit *)
  Definition here (s : stack V) : list Z := rev (map (fun x => t_id (nth (snd x - 1) (t_children (fst x)) t_root)) s).
  Definition shift (p : list Z) (l : list (list Z * tree)) : list (list Z * tree) := map (fun x => (p ++ fst x, snd x)) l.
  Fixpoint remaining (s : stack V) : list (list Z * tree) :=
    match s with [] => [] | (n, i) :: s' => shift (here s') (flat_map under (skipn i (t_children n))) ++ remaining s' end.
  Lemma shift_app : forall p l l', shift p (l ++ l') = shift p l ++ shift p l'.
  Proof. intros; apply map_app. Qed.
  Lemma skipn_nth : forall (X : Type) i (l : list X) c, nth_error l i = Some c -> skipn i l = c :: skipn (S i) l.
  Proof. induction i; intros [|x l] c E; cbn in *; try discriminate; [injection E as ->; auto|]. rewrite (IHi l c E). reflexivity. Qed.
  Lemma skipn_over : forall (X : Type) i (l : list X), nth_error l i = None -> skipn i l = [].
  Proof. intros X i l E. apply skipn_all2. apply nth_error_None; auto. Qed.
  Lemma next_spec : forall s, match it_next s with
    | [] => remaining s = []
    | (c, j) :: s' => j = 0 /\ remaining s = (here s', c) :: remaining ((c, 0) :: s') end.
  Proof.
    induction s as [|(n, i) s IH]; [reflexivity|]. cbn [it_next]. destruct (nth_error (t_children n) i) as [c|] eqn:E.
    - split; auto. cbn [remaining]. rewrite (skipn_nth _ i _ c E). cbn [flat_map]. rewrite shift_app, <- app_assoc.
      assert (K : here ((n, S i) :: s) = here s ++ [t_id c]).
      { unfold here. cbn [map rev fst snd]. f_equal. f_equal. replace (S i - 1) with i by lia. rewrite (nth_error_nth _ _ _ E). reflexivity. }
      rewrite K. unfold under at 1. rewrite (pre_children c). cbn [map fst snd]. unfold shift at 1. cbn [map fst snd app]. f_equal.
      cbn [skipn]. f_equal. unfold shift. rewrite !map_map. apply map_ext. intros x. cbn. rewrite <- app_assoc. reflexivity.
    - cbn [remaining]. rewrite (skipn_over _ i _ E). cbn [flat_map shift map app]. exact IH.
  Qed.
  Lemma run_spec : forall k n s fuel, length (remaining ((n, 0) :: s)) <= k -> k < fuel ->
    it_run fuel ((n, 0) :: s) = Some ((here s, n) :: remaining ((n, 0) :: s)).
  Proof.
    induction k as [|k IH]; intros n s fuel L F; (destruct fuel as [|fuel]; [lia|]); cbn [it_run]; change (it_index ((n, 0) :: s)) with (here s);
      pose proof (next_spec ((n, 0) :: s)) as X; destruct (it_next ((n, 0) :: s)) as [|(c, j) s'].
    - rewrite X. destruct fuel; reflexivity.
    - destruct X as [-> X]. rewrite X in L. cbn in L. lia.
    - rewrite X. destruct fuel; reflexivity.
    - destruct X as [-> X]. rewrite X in L |- *. rewrite (IH c s' fuel); [reflexivity | cbn [length] in L; lia | lia].
  Qed.
  Lemma iteration : forall e : texp V, exists visits, (forall fuel, length visits <= fuel -> it_run fuel (it_begin (t_eval e)) = Some visits) /\
    StronglySorted (fun a b => lex (fst a) (fst b)) visits /\
    (forall p n, In (p, n) visits -> t_find_node p (t_eval e) = Some n /\ t_value n = entry e p) /\
    (forall p, present e p -> exists n, In (p, n) visits).
  Proof.
    intros e. pose proof (eval_sorted e) as T. exists (pre (t_eval e)). split; [|split; [|split]].
    - intros fuel L. rewrite pre_children in L |- *. cbn [length] in L. unfold it_begin.
      assert (R : flat_map under (t_children (t_eval e)) = remaining [(t_eval e, 0)]).
      { cbn. unfold shift. rewrite app_nil_r. rewrite <- map_id at 1. apply map_ext. intros [p n]; reflexivity. }
      rewrite R in *. apply (run_spec (length (remaining [(t_eval e, 0)]))); lia.
    - apply pre_sorted; auto.
    - intros p n I. apply pre_find in I; auto. split; auto. rewrite <- find_entry, find_node_value, I. reflexivity.
    - intros p I. apply has_present in I. unfold has in I. destruct (t_find_node p (t_eval e)) as [n|] eqn:E; [|congruence]. exists n. apply pre_find; auto.
  Qed.
  Lemma hint_of_history : forall (e : texp V) p, let '(n, r) := t_hint p (t_eval e) in
    exists p', p = p' ++ r /\ t_find_node p' (t_eval e) = Some n /\ match r with [] => True | x :: _ => ~ present e (p' ++ [x]) end.
  Proof.
    intros e p. pose proof (hint_spec p (t_eval e)) as H. destruct (t_hint p (t_eval e)) as [n r]. destruct H as (p' & A & B & C). exists p'. repeat split; auto.
    destruct r; auto. intros X. apply has_present in X. apply X. exact C.
  Qed.
  Lemma node_of_history : forall (e : texp V) p, (t_find_node p (t_eval e) <> None <-> present e p) /\
    (forall n, t_find_node p (t_eval e) = Some n -> t_value n = entry e p).
  Proof.
    intros e p. split; [apply has_present|]. intros n E. rewrite <- find_entry, find_node_value, E. reflexivity.
  Qed.
End TreeProofs.
