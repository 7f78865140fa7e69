(** The order in which copies of sources are first seen. *)
From Coq Require Import List NArith ZArith Arith Bool Lia Permutation Sorted FinFun.
From Verif Require Import CoreModel AlgModel FieldModel InfModel InfSpec InfProofs InfLayoutProofs InfSimpProofs InfFactorProofs.
Import ListNotations.

Definition mem (i : nat) (l : list nat) : bool := existsb (Nat.eqb i) l.
Lemma mem_in i l : mem i l = true <-> In i l.
Proof. unfold mem. rewrite existsb_exists. split; [intros [x [X E]]; apply Nat.eqb_eq in E; now subst|intros I; exists i; split; [assumption|apply Nat.eqb_refl]]. Qed.
Lemma mem_out i l : mem i l = false <-> ~ In i l.
Proof. destruct (mem i l) eqn:E; [apply mem_in in E; split; [discriminate|contradiction]|split; [intros _ I; apply mem_in in I; congruence|reflexivity]]. Qed.

Fixpoint index (i : nat) (l : list nat) : nat := match l with [] => 0 | x :: l' => if Nat.eqb x i then 0 else S (index i l') end.
Lemma index_bound i l : In i l -> index i l < length l.
Proof. induction l as [|x l IH]; [intros []|]. cbn. destruct (Nat.eqb_spec x i); [lia|]. intros [E|I]; [contradiction|]. specialize (IH I). lia. Qed.
Lemma index_nth i l d : In i l -> nth (index i l) l d = i.
Proof. induction l as [|x l IH]; [intros []|]. cbn. destruct (Nat.eqb_spec x i); [now subst|]. intros [E|I]; [contradiction|now apply IH]. Qed.
Lemma index_app i a b : In i a -> index i (a ++ b) = index i a.
Proof. induction a as [|x a IH]; [intros []|]. cbn. destruct (Nat.eqb_spec x i); [reflexivity|]. intros [E|I]; [contradiction|now rewrite IH]. Qed.
Lemma index_last i a b : ~ In i a -> index i (a ++ i :: b) = length a.
Proof.
  induction a as [|x a IH]; intros N; cbn; [now rewrite Nat.eqb_refl|]. destruct (Nat.eqb_spec x i) as [->|]; [exfalso; apply N; now left|].
  rewrite IH; [reflexivity|]. intros I. apply N. now right.
Qed.
Lemma index_inj i j l : In i l -> In j l -> index i l = index j l -> i = j.
Proof. intros I J E. rewrite <- (index_nth i l 0 I), <- (index_nth j l 0 J). now rewrite E. Qed.
Lemma index_map f l : (forall x y, In x l -> In y l -> f x = f y -> x = y) -> forall i, In i l -> index (f i) (map f l) = index i l.
Proof.
  induction l as [|x l IH]; intros Inj i I; [destruct I|]. cbn. destruct (Nat.eqb_spec x i) as [->|N].
  - now rewrite Nat.eqb_refl.
  - destruct (Nat.eqb_spec (f x) (f i)) as [E|_]; [exfalso; apply N, Inj; [now left|assumption..]|]. destruct I as [I|I]; [contradiction|].
    rewrite IH; [reflexivity| |assumption]. intros y z Y Z. apply Inj; now right.
Qed.
Lemma map_index l : NoDup l -> map (fun i => index i l) l = seq 0 (length l).
Proof.
  intros ND. assert (G : forall b a, NoDup (a ++ b) -> map (fun i => index i (a ++ b)) b = seq (length a) (length b)).
  { induction b as [|x b IH]; intros a H; [reflexivity|]. cbn [map seq length]. f_equal.
    - apply index_last. apply NoDup_remove_2 in H. intros I. apply H, in_or_app. now left.
    - specialize (IH (a ++ [x])). rewrite <- app_assoc in IH. cbn [app] in IH. rewrite (IH H). rewrite app_length. cbn. f_equal. lia. }
  exact (G l [] ND).
Qed.
Lemma fixed_seq l : NoDup l -> (forall i, In i l -> index i l = i) -> l = seq 0 (length l).
Proof. intros ND F. rewrite <- (map_index l ND). rewrite <- (map_id l) at 1. apply map_ext_in. intros i I. now rewrite F. Qed.

(** copies of source [s] in the order in which they are first seen *)
Definition see (s : nat) (acc : list nat) (x : nat * nat) : list nat :=
  if Nat.eqb (fst x) s && negb (mem (snd x) acc) then acc ++ [snd x] else acc.
Definition seen (V : list (nat * nat)) (s : nat) : list nat := fold_left (see s) V [].
Lemma seen_snoc V x s : seen (V ++ [x]) s = see s (seen V s) x.
Proof. unfold seen. now rewrite fold_left_app. Qed.
Lemma seen_in V s i : In i (seen V s) <-> In (s, i) V.
Proof.
  induction V as [|x V IH] using rev_ind; [cbn; tauto|]. rewrite seen_snoc, in_app_iff. unfold see. destruct x as [t j]. cbn [fst snd].
  destruct (Nat.eqb_spec t s) as [->|N]; cbn [andb].
  - destruct (mem j (seen V s)) eqn:E; cbn [negb].
    + apply mem_in in E. rewrite IH. split; [tauto|]. intros [H|[H|[]]]; [assumption|]. injection H as <-. now apply IH.
    + rewrite in_app_iff, IH. cbn. split; [intros [H|[->|[]]]; auto|intros [H|[H|[]]]; [now left|right; left; now injection H]].
  - rewrite IH. cbn. split; [tauto|]. intros [H|[H|[]]]; [assumption|]. injection H as -> ->. contradiction.
Qed.
Lemma seen_nodup V s : NoDup (seen V s).
Proof.
  induction V as [|x V IH] using rev_ind; [constructor|]. rewrite seen_snoc. unfold see.
  destruct (Nat.eqb (fst x) s && negb (mem (snd x) (seen V s))) eqn:E; [|assumption]. apply andb_prop in E. destruct E as [_ E].
  apply negb_true_iff, mem_out in E. apply NoDup_Add with (a := snd x) (l := seen V s).
  - rewrite <- (app_nil_r (seen V s)) at 1. apply Add_app.
  - split; assumption.
Qed.
Lemma seen_app U V s : exists ext, seen (U ++ V) s = seen U s ++ ext.
Proof.
  induction V as [|x V [ext E]] using rev_ind; [exists []; now rewrite !app_nil_r|].
  rewrite app_assoc, seen_snoc, E. unfold see. destruct (Nat.eqb (fst x) s && negb (mem (snd x) (seen U s ++ ext))); [|now exists ext].
  exists (ext ++ [snd x]). now rewrite app_assoc.
Qed.
Lemma seen_map V s (f : nat -> nat -> nat) : (forall i j, In (s, i) V -> In (s, j) V -> f s i = f s j -> i = j) ->
  seen (map (fun x => (fst x, f (fst x) (snd x))) V) s = map (f s) (seen V s).
Proof.
  induction V as [|x V IH] using rev_ind; intros Inj; [reflexivity|]. rewrite map_app. cbn [map]. rewrite !seen_snoc.
  rewrite IH by (intros i j I J; apply Inj; apply in_or_app; now left). unfold see. cbn [fst snd].
  destruct (Nat.eqb_spec (fst x) s) as [E|N]; cbn [andb]; [|reflexivity].
  assert (mem (f (fst x) (snd x)) (map (f s) (seen V s)) = mem (snd x) (seen V s)) as ->.
  { destruct (mem (snd x) (seen V s)) eqn:Em.
    - apply mem_in in Em. apply mem_in. rewrite E. now apply in_map.
    - apply mem_out in Em. apply mem_out. intros I. apply Em. apply in_map_iff in I. destruct I as [j [Ej J]]. rewrite E in Ej.
      assert (j = snd x) as <-; [|assumption]. apply Inj; [apply in_or_app; left; now apply seen_in| |assumption].
      apply in_or_app. right. left. destruct x; cbn in *. now subst. }
  destruct (negb (mem (snd x) (seen V s))); [|reflexivity]. rewrite map_app. cbn. now rewrite E.
Qed.
(** [i] is first named when the copies seen before are named 0, 1, ... *)
Lemma seen_next V s i W : ~ In i (seen V s) -> index i (seen (V ++ (s, i) :: W) s) = length (seen V s).
Proof.
  intros N. destruct (seen_app (V ++ [(s, i)]) W s) as [ext E]. rewrite <- app_assoc in E. cbn [app] in E. rewrite E, seen_snoc.
  unfold see. cbn [fst snd]. rewrite Nat.eqb_refl. apply mem_out in N. rewrite N. cbn. rewrite <- app_assoc. cbn. apply index_last. now apply mem_out.
Qed.

(** the relabelling: copies are named in the order in which they are seen, the others after them *)
Definition spare (L : nat) (l : list nat) : list nat := filter (fun i => negb (mem i l)) (seq 0 L).
Definition naming (L : nat) (V : list (nat * nat)) (s i : nat) : nat := index i (seen V s ++ spare L (seen V s)).
Lemma naming_list L V s : (forall i, In (s, i) V -> i < L) -> Permutation (seen V s ++ spare L (seen V s)) (seq 0 L).
Proof.
  intros B. apply NoDup_Permutation.
  - assert (G : forall (l k : list nat), NoDup l -> NoDup k -> (forall x, In x l -> ~ In x k) -> NoDup (l ++ k)).
    { clear. induction l as [|x l IH]; intros k A B D; [assumption|]. inversion A; subst. cbn. constructor.
      - rewrite in_app_iff. intros [I|I]; [contradiction|]. apply (D x); [now left|assumption].
      - apply IH; [assumption..|]. intros y Y. apply D. now right. }
    apply G; [apply seen_nodup|apply NoDup_filter, seq_NoDup|].
    intros x X Y. apply filter_In in Y. destruct Y as [_ Y]. apply negb_true_iff, mem_out in Y. contradiction.
  - apply seq_NoDup.
  - intros x. rewrite in_app_iff, in_seq. unfold spare. rewrite filter_In, in_seq, negb_true_iff. split.
    + intros [H|[H _]]; [|assumption]. apply seen_in in H. specialize (B x H). lia.
    + intros H. destruct (mem x (seen V s)) eqn:E; [left; now apply mem_in|right; split; [assumption|reflexivity]].
Qed.
Lemma naming_permutes L V s : (forall i, In (s, i) V -> i < L) -> permutes L (naming L V s).
Proof.
  intros B. pose proof (naming_list L V s B) as P.
  assert (I : forall i, i < L -> In i (seen V s ++ spare L (seen V s))) by (intros i H; apply (Permutation_in _ (Permutation_sym P)), in_seq; lia).
  split.
  - intros i H. unfold naming. pose proof (index_bound i _ (I i H)) as Hb. apply Permutation_length in P. rewrite seq_length in P. lia.
  - intros i j Hi Hj E. eapply index_inj; [apply I, Hi|apply I, Hj|exact E].
Qed.
Lemma naming_seen L V s i : In (s, i) V -> naming L V s i = index i (seen V s).
Proof. intros H. apply index_app. now apply seen_in. Qed.

(** * The state of find_permutation *)
Section State.
  Variables (L n : nat) (c : ictx).
  Hypothesis LV : ic_level c = L.
  Record tracks (V : list (nat * nat)) (st : pstate) (total : nat) : Prop := mk_tracks {
    tr_free : length (ps_free st) = n /\ forall s, s < n -> nth s (ps_free st) 0 = length (seen V s);
    tr_done : forall s i, s < n -> i < L -> (existsb (Nat.eqb (L * s + i)) (ps_done st) = true <-> In (s, i) V);
    tr_perm : length (ps_perm st) = total /\ forall s i, In (s, i) V -> nth (L * s + i) (ps_perm st) 0 = L * s + index i (seen V s);
    tr_flag : ps_nontrivial st = true <-> exists s i, In (s, i) V /\ index i (seen V s) <> i }.
  Definition tame (V : list (nat * nat)) : Prop := forall s i, In (s, i) V -> s < n /\ i < L.
  Lemma put_length i x l : length (put i x l) = length l.
  Proof.
    unfold put. rewrite app_length, firstn_length. pose proof (skipn_length i l) as H. destruct (skipn i l) as [|y r]; cbn in *; lia.
  Qed.
  Lemma put_nth i x l j d : i < length l -> nth j (put i x l) d = if Nat.eqb j i then x else nth j l d.
  Proof.
    revert i j. induction l as [|y l IH]; intros i j H; [cbn in H; lia|]. destruct i as [|i].
    - unfold put. cbn. destruct j; reflexivity.
    - change (put (S i) x (y :: l)) with (y :: put i x l). destruct j as [|j]; [reflexivity|]. cbn [nth Nat.eqb]. apply IH. cbn in H. lia.
  Qed.
  Lemma code_pair s i t j : i < L -> j < L -> L * s + i = L * t + j -> s = t /\ i = j.
  Proof. intros A B E. destruct (lt_eq_lt_dec s t) as [[H|H]|H]; [exfalso; nia|subst; lia|exfalso; nia]. Qed.
  Lemma track_step V st total s i : n * L <= total -> tame (V ++ [(s, i)]) -> tracks V st total -> tracks (V ++ [(s, i)]) (perm_source c st s i) total.
  Proof.
    intros Le Tm [[F1 F2] D [P1 P2] G]. destruct (Tm s i) as [Sn Il]; [apply in_or_app; right; now left|].
    unfold perm_source. rewrite LV.
    destruct (existsb (Nat.eqb (L * s + i)) (ps_done st)) eqn:Ex.
    - pose proof (proj1 (D s i Sn Il) Ex) as Is.
      assert (Sm : forall t, seen (V ++ [(s, i)]) t = seen V t).
      { intros t. rewrite seen_snoc. unfold see. cbn [fst snd]. destruct (Nat.eqb_spec s t) as [<-|]; [|reflexivity].
        apply seen_in, mem_in in Is. now rewrite Is. }
      assert (Im : forall t j, In (t, j) (V ++ [(s, i)]) <-> In (t, j) V).
      { intros t j. rewrite in_app_iff. cbn. split; [intros [H|[H|[]]]; [assumption|injection H as <- <-; assumption]|tauto]. }
      constructor.
      + split; [assumption|]. intros t T. rewrite Sm. now apply F2.
      + intros t j T J. rewrite Im. now apply D.
      + split; [assumption|]. intros t j H. rewrite Sm. apply P2, Im, H.
      + rewrite G. split; intros [t [j [H K]]]; exists t, j; (split; [apply Im, H|]); [now rewrite Sm|now rewrite Sm in K].
    - assert (Ns : ~ In (s, i) V) by (intros H; apply (D s i Sn Il) in H; congruence).
      assert (Nm : ~ In i (seen V s)) by (intros H; now apply seen_in in H).
      assert (Ss : seen (V ++ [(s, i)]) s = seen V s ++ [i]).
      { rewrite seen_snoc. unfold see. cbn [fst snd]. rewrite Nat.eqb_refl. apply mem_out in Nm. now rewrite Nm. }
      assert (So : forall t, t <> s -> seen (V ++ [(s, i)]) t = seen V t).
      { intros t T. rewrite seen_snoc. unfold see. cbn [fst snd]. destruct (Nat.eqb_spec s t); [congruence|reflexivity]. }
      assert (Ix : index i (seen (V ++ [(s, i)]) s) = length (seen V s)) by (rewrite Ss; now apply index_last).
      assert (Io : forall t j, In (t, j) V -> index j (seen (V ++ [(s, i)]) t) = index j (seen V t)).
      { intros t j H. destruct (Nat.eq_dec t s) as [->|T]; [|now rewrite So]. rewrite Ss. apply index_app. now apply seen_in. }
      rewrite (F2 s Sn). constructor; cbn [ps_free ps_done ps_perm ps_nontrivial].
      + split; [now rewrite put_length|]. intros t T. rewrite put_nth by (rewrite F1; assumption).
        destruct (Nat.eqb_spec t s) as [->|N]; [rewrite Ss, app_length; cbn; lia|]. rewrite So by assumption. now apply F2.
      + intros t j T J. cbn [existsb]. rewrite orb_true_iff, Nat.eqb_eq, (D t j T J), in_app_iff. cbn. split.
        * intros [H|H]; [right; left; destruct (code_pair t j s i J Il H); now subst|now left].
        * intros [H|[H|[]]]; [now right|left; now injection H as -> ->].
      + assert (Gb : L * s + i < length (ps_perm st)) by (rewrite P1; nia).
        split; [now rewrite put_length|]. intros t j H. rewrite put_nth by assumption. apply in_app_or in H.
        destruct (Nat.eqb_spec (L * t + j) (L * s + i)) as [E|E].
        * assert (t = s /\ j = i) as [-> ->]; [|now rewrite Ix].
          destruct (Tm t j) as [_ Jl]; [apply in_or_app; assumption|]. now apply code_pair in E.
        * destruct H as [H|[H|[]]]; [|injection H as <- <-; congruence]. rewrite Io by assumption. now apply P2.
      + rewrite orb_true_iff, negb_true_iff, Nat.eqb_neq, G. split.
        * intros [[t [j [H K]]]|H].
          -- exists t, j. split; [apply in_or_app; now left|]. now rewrite Io.
          -- exists s, i. split; [apply in_or_app; right; now left|]. rewrite Ix. lia.
        * intros [t [j [H K]]]. apply in_app_or in H. destruct H as [H|[H|[]]].
          -- left. exists t, j. split; [assumption|]. now rewrite Io in K.
          -- injection H as <- <-. right. rewrite Ix in K. lia.
  Qed.
  Lemma track_all total V : n * L <= total -> tame V -> forall scratch, length scratch = total ->
    tracks V (fold_left (fun st x => perm_source c st (fst x) (snd x)) V (mk_pstate (repeat 0 n) [] scratch false)) total.
  Proof.
    intros Le. induction V as [|[s i] V IH] using rev_ind; intros Tm scratch Ls.
    - constructor; cbn.
      + split; [apply repeat_length|]. intros s S1. rewrite nth_repeat. reflexivity.
      + intros s i _ _. split; [discriminate|intros []].
      + split; [assumption|intros ? ? []].
      + split; [discriminate|intros [? [? [[] _]]]].
    - rewrite fold_left_app. cbn [fold_left fst snd]. apply track_step; [assumption..|]. apply IH; [|assumption].
      intros t j H. apply Tm, in_or_app. now left.
  Qed.
  (** can_be_simplified_as_moment computes the same flag *)
  Lemma flag_stays V : forall st, ps_nontrivial st = true -> ps_nontrivial (fold_left (fun st x => perm_source c st (fst x) (snd x)) V st) = true.
  Proof.
    induction V as [|x V IH]; intros st H; [assumption|]. cbn [fold_left]. apply IH. unfold perm_source.
    destruct (existsb _ _); [assumption|]. cbn. now rewrite H.
  Qed.
  Lemma shifts_flag V : forall free done perm,
    match shifts_source c (free, done) V with
    | None => ps_nontrivial (fold_left (fun st x => perm_source c st (fst x) (snd x)) V (mk_pstate free done perm false)) = true
    | Some (free', done') => exists perm', fold_left (fun st x => perm_source c st (fst x) (snd x)) V (mk_pstate free done perm false) = mk_pstate free' done' perm' false
    end.
  Proof.
    induction V as [|[s i] V IH]; intros free done perm; [cbn; eauto|].
    cbn [shifts_source fold_left fst snd]. unfold perm_source at 2. unfold perm_source at 3. cbn [ps_free ps_done ps_perm ps_nontrivial].
    destruct (existsb (Nat.eqb (ic_level c * s + i)) done) eqn:E; [apply IH|].
    destruct (Nat.eqb (ic_level c * s + i) (ic_level c * s + nth s free 0)) eqn:Eg; cbn [negb orb].
    - apply IH.
    - now apply flag_stays.
  Qed.
End State.
