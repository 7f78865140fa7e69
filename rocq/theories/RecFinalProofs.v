(** Trees of objects: the trees that can be made, and examples. *)
From Coq Require Import ZArith Arith Bool List Lia Sorted.
From Verif Require Import RecModel RecSpec RecProofs.
Import ListNotations.
Local Open Scope list_scope.

Lemma Forall_repeat' {A} (P : A -> Prop) a n : P a -> Forall P (repeat a n).
Proof. intro H. induction n; cbn; constructor; assumption. Qed.
Lemma wide_modest {T} w d (x : T) : (Z.of_nat w <= 2 ^ 61)%Z -> modest (wide w d x).
Proof.
  intro W. induction d as [|d IH]; cbn [wide]; constructor; try lia.
  - cbn. lia.
  - constructor.
  - now rewrite repeat_length.
  - now apply Forall_repeat'.
Qed.
Lemma chunky_modest_from {T} d (x : T) : forall start cs, (Z.of_nat (start + total cs) <= 2 ^ 61)%Z -> modest (chunky d cs x (- Z.of_nat start)).
Proof.
  induction d as [|d IH]; intros start cs B.
  - cbn [chunky]. constructor; [lia|cbn; lia|constructor].
  - rewrite chunky_S. constructor; [lia|rewrite cloop_length; lia|]. rewrite Forall_forall. intros s Hs. apply In_nth_error in Hs as [k Hk]. rewrite cloop_nth in Hk.
    destruct (chunk_of cs k) as [j|]; [|discriminate]. assert (Hs : s = chunky d (skipn (S j) cs) x (- Z.of_nat start - Z.of_nat (total (firstn (S j) cs)))) by congruence. rewrite Hs.
    replace (- Z.of_nat start - Z.of_nat (total (firstn (S j) cs)))%Z with (- Z.of_nat (start + total (firstn (S j) cs)))%Z by lia.
    apply IH. rewrite <- Nat.add_assoc, <- total_split. exact B.
Qed.
Lemma chunky_modest {T} d (x : T) cs : (Z.of_nat (total cs) <= 2 ^ 61)%Z -> modest (chunky d cs x 0).
Proof. intro B. apply (chunky_modest_from d x 0 cs). exact B. Qed.
Lemma Forall_replace {A} (P : A -> Prop) a l : forall k, P a -> Forall P l -> Forall P (replace_nth k a l).
Proof. induction l as [|b l IH]; intros [|k] Ha H; inversion H; subst; cbn; constructor; trivial. now apply IH. Qed.
Lemma set_modest {T} p (x : T) : forall t t', modest t -> set p x t = Some t' -> modest t'.
Proof.
  induction p as [|i p IH]; intros t t' M H; inversion M as [y o ks Mo Ml Mk E]; subst t.
  - cbn in H. injection H as <-. now constructor.
  - cbn [set] in H. destruct (child_of _ i) as [k|]; [|discriminate]. cbn [r_kids r_object r_offset] in H. destruct (nth_error ks k) as [s|] eqn:N; [|discriminate].
    destruct (set p x s) as [s'|] eqn:S; [|discriminate]. injection H as <-. constructor; [exact Mo|now rewrite replace_length|]. apply Forall_replace; [|exact Mk].
    apply (IH s); [|exact S]. rewrite Forall_forall in Mk. apply Mk. now apply nth_error_In in N.
Qed.
Lemma chunks_at {T} d (x : T) cs l : (Z.of_nat (total cs) < 2 ^ 63)%Z -> Forall (fun i => word64 (Z.of_nat i)) l ->
  (object_at (chunky d cs x 0) (map Z.of_nat l) = Some x <-> length l <= d /\ monotonic cs l) /\
  (object_at (chunky d cs x 0) (map Z.of_nat l) = Some x \/ object_at (chunky d cs x 0) (map Z.of_nat l) = None).
Proof. intros B W. rewrite <- monotonic_zero. exact (chunky_at T d x 0 cs l B W). Qed.
Lemma access_gone {T} p (t : rtree T) y : object_at t p = Some y -> exists r, access p t = Some r /\ forall t' : rtree T, deref r t' = None.
Proof. unfold object_at, access. destruct (subtree p t); [|discriminate]. intros _. exists Gone. split; reflexivity. Qed.
Lemma here_object {T} (t : rtree T) : deref access_here t = object_at t []. Proof. reflexivity. Qed.

Definition tree0 : rtree nat := chunky 2 [2; 1; 2] 7 0.
Definition tree1 : rtree nat := match set [1; 3]%Z 9 tree0 with Some t => t | None => tree0 end.
Lemma tree1_set : set [1; 3]%Z 9 tree0 = Some tree1. Proof. reflexivity. Qed.
Lemma tree1_at : object_at tree1 [1; 3]%Z = Some 9 /\ object_at tree1 [0; 3]%Z = Some 7 /\ object_at tree1 [1; 0]%Z = None. Proof. repeat split. Qed.
Lemma tree0_modest : modest tree0. Proof. apply chunky_modest. cbn. lia. Qed.
Lemma tree0_visit : length (visit tree0) = 14. Proof. reflexivity. Qed.
