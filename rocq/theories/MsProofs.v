From Coq Require Import List Arith ZArith Bool Lia.
From Verif Require Import LockModel MsModel MsSpec.
Import ListNotations.

(** ** Index storages *)
Lemma vset_length v : forall i o, length (vset v i o) = length v.
Proof. induction v as [|x v IH]; intros [|i] o; cbn; auto. Qed.
Lemma vset_nth v : forall i o j, i < length v -> nth j (vset v i o) (-1)%Z = if Nat.eqb i j then o else nth j v (-1)%Z.
Proof. induction v as [|x v IH]; intros [|i] o j L; cbn in L; try lia; destruct j; cbn; auto. apply IH. lia. Qed.
Lemma vset_Forall (Q : Z -> Prop) v : forall i o, Q o -> Forall Q v -> Forall Q (vset v i o).
Proof. induction v as [|x v IH]; intros [|i] o Qo F; cbn; auto; inversion F; subst; constructor; auto. Qed.
Definition vwf (v : list Z) : Prop := Forall (fun x => (-1 <= x)%Z) v.
Lemma vfind_low v i : vwf v -> (-1 <= vfind v i)%Z.
Proof. intros F. unfold vfind. destruct (Nat.leb_spec (length v) i); [lia|]. eapply (proj1 (Forall_forall _ _)); [exact F|]. now apply nth_In. Qed.
Lemma vinsert_new v i o : vwf v -> (0 <= o)%Z -> (vfind v i < 0)%Z ->
  exists v', vinsert v i o = (v', (o, true)) /\ vwf v' /\ forall j, vfind v' j = if Nat.eqb i j then o else vfind v j.
Proof.
  intros F PO N. unfold vinsert. destruct (Nat.leb_spec (length v) i) as [L|L].
  - eexists. split; [reflexivity|]. split.
    + apply Forall_app. split; auto. apply Forall_app. split; [|constructor; auto; lia]. apply Forall_forall. intros x I. apply repeat_spec in I. lia.
    + intros j. unfold vfind. rewrite !app_length, repeat_length. cbn [length].
      destruct (Nat.eqb_spec i j) as [<-|NE].
      * destruct (Nat.leb_spec (length v + (i - length v + 1)) i); [lia|]. rewrite app_nth2 by lia. rewrite app_nth2; rewrite repeat_length; [|lia].
        replace (i - length v - (i - length v)) with 0 by lia. reflexivity.
      * destruct (Nat.leb_spec (length v + (i - length v + 1)) j).
        -- destruct (Nat.leb_spec (length v) j); [reflexivity|lia].
        -- destruct (Nat.leb_spec (length v) j) as [LJ|LJ]; [|now rewrite app_nth1].
           rewrite app_nth2 by lia. rewrite app_nth1 by (rewrite repeat_length; lia). apply nth_repeat.
  - assert (X : nth i v (-1)%Z = (-1)%Z). { unfold vfind in N. destruct (Nat.leb_spec (length v) i); [lia|]. pose proof (proj1 (Forall_forall _ _) F (nth i v (-1)%Z) (nth_In _ _ L)). cbn in *. lia. }
    rewrite X. cbn. eexists. split; [reflexivity|]. split; [apply vset_Forall; auto; lia|].
    intros j. unfold vfind. rewrite vset_length. rewrite vset_nth by auto. destruct (Nat.eqb_spec i j) as [<-|NE]; [|reflexivity].
    destruct (Nat.leb_spec (length v) i); [lia|reflexivity].
Qed.
Section Assoc.
  Context {K : Type} (eqb : K -> K -> bool).
  Hypothesis (R : forall x, eqb x x = true) (Sy : forall x y, eqb x y = true -> eqb y x = true) (Tr : forall x y z, eqb x y = true -> eqb y z = true -> eqb x z = true).
  Definition awf (m : list (K * Z)) : Prop := Forall (fun e => (0 <= snd e)%Z) m.
  Lemma afind_low m k : awf m -> (-1 <= afind eqb m k)%Z.
  Proof. intros F. unfold afind. destruct (find _ m) as [e|] eqn:X; [|lia]. apply find_some in X as [I _]. pose proof (proj1 (Forall_forall _ _) F _ I). cbn in *. lia. Qed.
  Lemma find_app {A} (f : A -> bool) l l' : find f (l ++ l') = match find f l with Some x => Some x | None => find f l' end.
  Proof. induction l as [|x l IH]; cbn; auto. destruct (f x); auto. Qed.
  Lemma eqb_same x y z : eqb x y = true -> eqb z x = eqb z y.
  Proof. intros H. destruct (eqb z x) eqn:A, (eqb z y) eqn:D; auto; [rewrite (Tr _ _ _ A H) in D|rewrite (Tr _ _ _ D (Sy _ _ H)) in A]; congruence. Qed.
  Lemma afind_same m x y : eqb x y = true -> afind eqb m x = afind eqb m y.
  Proof. intros H. unfold afind. induction m as [|e m IH]; cbn; auto. rewrite (eqb_same x y (fst e) H). now destruct (eqb (fst e) y). Qed.
  Lemma ainsert_new m k o : awf m -> (0 <= o)%Z -> (afind eqb m k < 0)%Z ->
    exists m', ainsert eqb m k o = (m', (o, true)) /\ awf m' /\ forall j, afind eqb m' j = if eqb k j then o else afind eqb m j.
  Proof.
    intros F PO N. unfold ainsert. destruct (find _ m) as [e|] eqn:X.
    - unfold afind in N. rewrite X in N. apply find_some in X as [I _]. pose proof (proj1 (Forall_forall _ _) F _ I). cbn in *. lia.
    - eexists. split; [reflexivity|]. split; [apply Forall_app; split; auto|]. intros j. destruct (eqb k j) eqn:KJ.
      + rewrite (afind_same _ j k (Sy _ _ KJ)). unfold afind. rewrite find_app, X. cbn. now rewrite R.
      + unfold afind. rewrite find_app. cbn. rewrite KJ. destruct (find (fun e => eqb (fst e) j) m); reflexivity.
  Qed.
End Assoc.

Section P.
  Context {T M P C B : Type} (E : menv T M P C B).
  Notation key := (key P). Notation mstate := (mstate T M P B).
  Hypothesis PC : poly_classes E.

  Definition keq (k k' : key) : bool :=
    match k, k' with
    | KMoment l, KMoment l' => Nat.eqb l l'
    | KLoc l w, KLoc l' w' => loc_eqb (l, w) (l', w')
    | KPoly l p, KPoly l' p' => poly_eqb E (l, p) (l', p')
    | KSub a r, KSub a' r' => two_eqb (a, r) (a', r')
    | KNNMoment l n, KNNMoment l' n' => two_eqb (l, n) (l', n')
    | KNNLoc l n w, KNNLoc l' n' w' => nnloc_eqb (l, n, w) (l', n', w')
    | KNNPoly l n p, KNNPoly l' n' p' => nnpoly_eqb E (l, n, p) (l', n', p')
    | KDer o, KDer o' => Nat.eqb o o'
    | _, _ => false
    end.
  Lemma weqb_spec u v : weqb u v = true <-> u = v.
  Proof. unfold weqb. destruct (list_eq_dec Nat.eq_dec u v); intuition congruence. Qed.
  Lemma peq_sym p q : e_peq E p q = true -> e_peq E q p = true. Proof. apply PC. Qed.
  Lemma peq_trans p q r : e_peq E p q = true -> e_peq E q r = true -> e_peq E p r = true. Proof. apply PC. Qed.
  Lemma peq_refl p : e_peq E p p = true. Proof. exact (proj1 PC p). Qed.
  Ltac keys := unfold loc_eqb, poly_eqb, two_eqb, nnloc_eqb, nnpoly_eqb, two_eqb in *; cbn [fst snd] in *; rewrite ?andb_true_iff, ?Nat.eqb_eq, ?weqb_spec in *.
  Lemma keq_refl k : keq k k = true.
  Proof. destruct k; cbn; keys; auto using peq_refl. Qed.
  Lemma keq_sym k k' : keq k k' = true -> keq k' k = true.
  Proof. destruct k, k'; cbn; try discriminate; keys; intuition auto using peq_sym. Qed.
  Lemma keq_trans a b c : keq a b = true -> keq b c = true -> keq a c = true.
  Proof. destruct a, b; cbn; try discriminate; destruct c; cbn; try discriminate; keys; intuition (subst; eauto using peq_trans). Qed.

  Definition wf (s : mstate) : Prop :=
    vwf (ix_mm s) /\ awf (ix_loc s) /\ awf (ix_poly s) /\ awf (ix_sub s) /\ awf (ix_nnmm s) /\ awf (ix_nnloc s) /\ awf (ix_nnpoly s) /\ vwf (ix_der s).
  Lemma kfind_low k s : wf s -> (-1 <= kfind E k s)%Z.
  Proof. intros (?&?&?&?&?&?&?&?). destruct k; cbn; auto using vfind_low, afind_low. Qed.
  Lemma kfind_t k s t : kfind E k (set_t t s) = kfind E k s. Proof. destruct k; reflexivity. Qed.
  Lemma kfind_mats k s x : kfind E k (set_mats x s) = kfind E k s. Proof. destruct k; reflexivity. Qed.
  Lemma kfind_books k s x : kfind E k (set_books x s) = kfind E k s. Proof. destruct k; reflexivity. Qed.
  Lemma kfind_keq k k' s : keq k k' = true -> kfind E k s = kfind E k' s.
  Proof.
    destruct k, k'; cbn [keq]; try discriminate; cbn [kfind]; intros H.
    - apply Nat.eqb_eq in H. now subst.
    - revert H. keys. now intros [-> ->].
    - apply (afind_same (poly_eqb E)); auto; intros ? ?; intros; keys; intuition (subst; eauto using peq_sym, peq_trans); congruence.
    - revert H. keys. now intros [-> ->].
    - revert H. keys. now intros [-> ->].
    - revert H. keys. now intros [[-> ->] ->].
    - apply (afind_same (nnpoly_eqb E)); auto; intros ? ?; intros; keys; intuition (eauto using peq_sym, peq_trans); congruence.
    - apply Nat.eqb_eq in H. now subst.
  Qed.
  (** a key that is not there yet *)
  Lemma kinsert_new k o s : wf s -> (0 <= o)%Z -> (kfind E k s < 0)%Z ->
    exists s', kinsert E k o s = (s', (o, true)) /\ wf s' /\ ms_mats s' = ms_mats s /\ ms_books s' = ms_books s /\ ms_t s' = ms_t s /\
      forall k', kfind E k' s' = if keq k k' then o else kfind E k' s.
  Proof.
    intros (W1&W2&W3&W4&W5&W6&W7&W8) PO N. destruct s as [a mm lo po su nm nl np de bo t]. cbn in *.
    destruct k; cbn in N |- *.
    - destruct (vinsert_new _ _ _ W1 PO N) as (v & -> & W & F). eexists. split; [reflexivity|]. split; [repeat split; auto|]. do 3 (split; [reflexivity|]). intros []; cbn; auto.
    - destruct (ainsert_new loc_eqb) with (m := lo) (k := (l, w)) (o := o) as (v & -> & W & F); auto; try (intros; keys; intuition congruence).
      eexists. split; [reflexivity|]. split; [repeat split; auto|]. do 3 (split; [reflexivity|]). intros []; cbn; auto.
    - destruct (ainsert_new (poly_eqb E)) with (m := po) (k := (l, p)) (o := o) as (v & -> & W & F); auto; try (intros; keys; intuition (eauto using peq_refl, peq_sym, peq_trans; congruence)).
      eexists. split; [reflexivity|]. split; [repeat split; auto|]. do 3 (split; [reflexivity|]). intros []; cbn; auto.
    - destruct (ainsert_new two_eqb) with (m := su) (k := (s, r)) (o := o) as (v & -> & W & F); auto; try (intros; keys; intuition congruence).
      eexists. split; [reflexivity|]. split; [repeat split; auto|]. do 3 (split; [reflexivity|]). intros []; cbn; auto.
    - destruct (ainsert_new two_eqb) with (m := nm) (k := (l, n)) (o := o) as (v & -> & W & F); auto; try (intros; keys; intuition congruence).
      eexists. split; [reflexivity|]. split; [repeat split; auto|]. do 3 (split; [reflexivity|]). intros []; cbn; auto.
    - destruct (ainsert_new nnloc_eqb) with (m := nl) (k := (l, n, w)) (o := o) as (v & -> & W & F); auto; try (intros; keys; intuition congruence).
      eexists. split; [reflexivity|]. split; [repeat split; auto|]. do 3 (split; [reflexivity|]). intros []; cbn; auto.
    - destruct (ainsert_new (nnpoly_eqb E)) with (m := np) (k := (l, n, p)) (o := o) as (v & -> & W & F); auto; try (intros; keys; intuition (eauto using peq_refl, peq_sym, peq_trans; congruence)).
      eexists. split; [reflexivity|]. split; [repeat split; auto|]. do 3 (split; [reflexivity|]). intros []; cbn; auto.
    - destruct (vinsert_new _ _ _ W8 PO N) as (v & -> & W & F). eexists. split; [reflexivity|]. split; [repeat split; auto|]. do 3 (split; [reflexivity|]). intros []; cbn; auto.
  Qed.
End P.
