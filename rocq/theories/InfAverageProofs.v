(** Averages over independent hidden variables. *)
From Coq Require Import List Arith Bool Lia Permutation.
From Verif Require Import FieldModel InfModel InfSpec.
Import ListNotations.

Section Average.
  Variable R : rfield.
  Add Field RfA : (r_field R).
  Variable M : explanation R.
  Notation env := (nat * nat -> nat).
  Notation avg := (average R M).
  Definition hsame (h k : nat * nat) : bool := Nat.eqb (fst h) (fst k) && Nat.eqb (snd h) (snd k).
  Lemma hsame_spec h k : hsame h k = true <-> h = k.
  Proof.
    unfold hsame. destruct h as [a b], k as [x y]. cbn. rewrite andb_true_iff, !Nat.eqb_eq. split; [intros [-> ->]; reflexivity|intros E; injection E; auto].
  Qed.
  Lemma set_same lam h x : set_hidden lam h x h = x.
  Proof. unfold set_hidden. now rewrite !Nat.eqb_refl. Qed.
  Lemma set_other lam h k x : h <> k -> set_hidden lam h x k = lam k.
  Proof. intros N. unfold set_hidden. destruct (Nat.eqb (fst h) (fst k) && Nat.eqb (snd h) (snd k)) eqn:E; [|reflexivity]. apply hsame_spec in E. contradiction. Qed.
  Lemma rsum_ext f g n : (forall x, x < n -> f x = g x) -> rsum R f n = rsum R g n.
  Proof. induction n as [|n IH]; intros H; [reflexivity|]. cbn. rewrite IH by (intros; apply H; lia). now rewrite H by lia. Qed.
  Lemma rsum_scale f a n : rsum R (fun x => rmul R a (f x)) n = rmul R a (rsum R f n).
  Proof. induction n as [|n IH]; cbn; [ring|]. rewrite IH. ring. Qed.
  Lemma rsum_add f g n : rsum R (fun x => radd R (f x) (g x)) n = radd R (rsum R f n) (rsum R g n).
  Proof. induction n as [|n IH]; cbn; [ring|]. rewrite IH. ring. Qed.
  Lemma rsum_zero n : rsum R (fun _ => r0 R) n = r0 R.
  Proof. induction n as [|n IH]; cbn; [reflexivity|]. rewrite IH. ring. Qed.
  Lemma rsum_swap f n m : rsum R (fun x => rsum R (fun y => f x y) m) n = rsum R (fun y => rsum R (fun x => f x y) n) m.
  Proof.
    induction n as [|n IH]; cbn; [now rewrite rsum_zero|]. rewrite IH. now rewrite <- rsum_add.
  Qed.

  Definition depends (A : nat * nat -> Prop) (f : env -> R) : Prop := forall l l', (forall h, A h -> l h = l' h) -> f l = f l'.
  Lemma average_agree A f : depends A f -> forall hs l l', (forall h, A h -> l h = l' h) -> avg hs l f = avg hs l' f.
  Proof.
    intros D. induction hs as [|h hs IH]; intros l l' E; cbn [average]; [now apply D|].
    apply rsum_ext. intros x _. f_equal. apply IH. intros k K. unfold set_hidden. destruct (_ && _); [reflexivity|auto].
  Qed.
  Lemma average_ext f g : (forall l, f l = g l) -> forall hs l, avg hs l f = avg hs l g.
  Proof. intros E. induction hs as [|h hs IH]; intros l; cbn [average]; [apply E|]. apply rsum_ext. intros x _. now rewrite IH. Qed.
  Lemma average_zero hs : forall l, avg hs l (fun _ => r0 R) = r0 R.
  Proof. induction hs as [|h hs IH]; intros l; cbn [average]; [reflexivity|].
    transitivity (rsum R (fun _ => r0 R) (ex_values R M (fst h))); [|apply rsum_zero]. apply rsum_ext. intros x _. rewrite IH. ring. Qed.
  Section Normal.
    Hypothesis NM : normalized R M.
    Lemma average_skip A f h hs l : depends A f -> ~ A h -> avg (h :: hs) l f = avg hs l f.
    Proof.
      intros D N. cbn [average].
      transitivity (rsum R (fun x => rmul R (avg hs l f) (ex_weight R M (fst h) x)) (ex_values R M (fst h))).
      - apply rsum_ext. intros x _. rewrite (average_agree A f D hs (set_hidden l h x) l); [ring|].
        intros k K. apply set_other. intros ->. contradiction.
      - rewrite rsum_scale, (NM (fst h)). ring.
    Qed.
    Lemma average_const hs : forall l a, avg hs l (fun _ => a) = a.
    Proof.
      induction hs as [|h hs IH]; intros l a; [reflexivity|].
      rewrite (average_skip (fun _ => False)); [apply IH|intros ? ? _; reflexivity|tauto].
    Qed.
    Lemma average_product A B f g : depends A f -> depends B g -> (forall h, A h -> B h -> False) -> (forall h, A h \/ ~ A h) ->
      forall hs l, avg hs l (fun e => rmul R (f e) (g e)) = rmul R (avg hs l f) (avg hs l g).
    Proof.
      intros Df Dg Dj Dec. induction hs as [|h hs IH]; intros l; [reflexivity|].
      destruct (Dec h) as [Ah|Nh].
      - assert (Nb : ~ B h) by (intros Bh; exact (Dj h Ah Bh)). rewrite (average_skip B g h hs l Dg Nb).
        cbn [average]. transitivity (rsum R (fun x => rmul R (avg hs l g) (rmul R (ex_weight R M (fst h) x) (avg hs (set_hidden l h x) f))) (ex_values R M (fst h))).
        + apply rsum_ext. intros x _. rewrite IH. rewrite (average_agree B g Dg hs (set_hidden l h x) l); [ring|].
          intros k K. apply set_other. intros ->. contradiction.
        + rewrite rsum_scale. ring.
      - rewrite (average_skip A f h hs l Df Nh).
        cbn [average]. transitivity (rsum R (fun x => rmul R (avg hs l f) (rmul R (ex_weight R M (fst h) x) (avg hs (set_hidden l h x) g))) (ex_values R M (fst h))).
        + apply rsum_ext. intros x _. rewrite IH. rewrite (average_agree A f Df hs (set_hidden l h x) l); [ring|].
          intros k K. apply set_other. intros ->. contradiction.
        + rewrite rsum_scale. ring.
    Qed.
  End Normal.

  (** ** The order of the variables does not matter *)
  Definition regular (f : env -> R) : Prop := depends (fun _ => True) f.
  Lemma average_regular f hs l l' : regular f -> (forall h, l h = l' h) -> avg hs l f = avg hs l' f.
  Proof. intros D E. apply (average_agree (fun _ => True)); auto. Qed.
  Lemma average_swap f : regular f -> forall h k hs l, avg (h :: k :: hs) l f = avg (k :: h :: hs) l f.
  Proof.
    intros D h k hs l. destruct (hsame h k) eqn:E; [apply hsame_spec in E; now subst|].
    assert (N : h <> k) by (intros Z; apply hsame_spec in Z; congruence). cbn [average].
    transitivity (rsum R (fun x => rsum R (fun y => rmul R (ex_weight R M (fst h) x) (rmul R (ex_weight R M (fst k) y) (avg hs (set_hidden (set_hidden l h x) k y) f)))
                                        (ex_values R M (fst k))) (ex_values R M (fst h))).
    { apply rsum_ext. intros x _. now rewrite rsum_scale. }
    rewrite rsum_swap. apply rsum_ext. intros y _.
    rewrite <- rsum_scale. apply rsum_ext. intros x _.
    rewrite (average_regular f hs (set_hidden (set_hidden l h x) k y) (set_hidden (set_hidden l k y) h x) D); [ring|].
    intros z. destruct (hsame h z) eqn:Eh.
    - apply hsame_spec in Eh. subst z. rewrite set_same, set_other by congruence. now rewrite set_same.
    - assert (Nh : h <> z) by (intros Z; apply hsame_spec in Z; congruence). rewrite (set_other _ h z) by assumption.
      destruct (hsame k z) eqn:Ek.
      + apply hsame_spec in Ek. subst z. now rewrite !set_same.
      + assert (Nk : k <> z) by (intros Z; apply hsame_spec in Z; congruence). rewrite !set_other by assumption. reflexivity.
  Qed.
  Lemma average_perm f : regular f -> forall hs ks, Permutation hs ks -> forall l, avg hs l f = avg ks l f.
  Proof.
    intros D. induction 1 as [|h hs ks P IH|h k hs|a b d P1 IH1 P2 IH2]; intros l.
    - reflexivity.
    - cbn [average]. apply rsum_ext. intros x _. now rewrite IH.
    - now apply average_swap.
    - now rewrite IH1.
  Qed.
  (** renaming the variables *)
  Lemma average_rename f (pi : nat * nat -> nat * nat) : regular f -> (forall h k, pi h = pi k -> h = k) -> (forall h, fst (pi h) = fst h) ->
    forall hs l, avg (map pi hs) l (fun e => f (fun h => e (pi h))) = avg hs (fun h => l (pi h)) f.
  Proof.
    intros D Inj F. induction hs as [|h hs IH]; intros l; [reflexivity|]. cbn [map average]. rewrite F. apply rsum_ext. intros x _. f_equal.
    rewrite IH. apply average_regular; [assumption|]. intros k.
    destruct (hsame h k) eqn:E.
    - apply hsame_spec in E. subst k. now rewrite !set_same.
    - assert (N : h <> k) by (intros Z; apply hsame_spec in Z; congruence). rewrite !set_other; [reflexivity|assumption|]. intros Z. apply N, Inj, Z.
  Qed.
End Average.
