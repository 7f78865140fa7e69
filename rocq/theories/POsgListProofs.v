(** Dictionaries as lists of site sets. *)
From Coq Require Import List NArith Arith Bool Lia Sorted Permutation.
From Verif Require Import CoreModel CoreSpec AlgModel EnumModel EnumSpec EnumProofs PauliModel SiteModel SiteSpec SiteWordProofs POsgModel POsgSpec POsgProofs.
Import ListNotations.

Lemma nodup_app {A} (l l' : list A) : NoDup l -> NoDup l' -> (forall x, In x l -> In x l' -> False) -> NoDup (l ++ l').
Proof.
  intros N N' D. induction N as [|x l NI N IH]; [exact N'|]. cbn. constructor.
  - rewrite in_app_iff. intros [I|I]; [contradiction|]. apply (D x); [now left|exact I].
  - apply IH. intros y Y Y'. apply (D y); [now right|exact Y'].
Qed.
Lemma nodup_flat {A B} (f : A -> list B) (l : list A) : NoDup l -> (forall x, In x l -> NoDup (f x)) ->
  (forall x y b, In x l -> In y l -> In b (f x) -> In b (f y) -> x = y) -> NoDup (flat_map f l).
Proof.
  intros N F D. induction N as [|x l NI N IH]; [constructor|]. cbn. apply nodup_app.
  - apply F. now left.
  - apply IH; [intros y Y; apply F; now right|]. intros y z b Y Z. apply D; now right.
  - intros b B1 B2. apply in_flat_map in B2. destruct B2 as (y & Y & B2). apply NI.
    rewrite (D x y b); auto; [now left|now right].
Qed.
Lemma map_flat {A B C} (g : B -> C) (f : A -> list B) l : map g (flat_map f l) = flat_map (fun x => map g (f x)) l.
Proof. induction l as [|x l IH]; [reflexivity|]. cbn. now rewrite map_app, IH. Qed.
Lemma flat_flat {A B C} (g : B -> list C) (f : A -> list B) l : flat_map g (flat_map f l) = flat_map (fun x => flat_map g (f x)) l.
Proof. induction l as [|x l IH]; [reflexivity|]. cbn. now rewrite flat_map_app, IH. Qed.
Lemma flat_ext {A B} (f g : A -> list B) l : (forall x, In x l -> f x = g x) -> flat_map f l = flat_map g l.
Proof. induction l as [|x l IH]; intro H; [reflexivity|]. cbn. rewrite (H x (or_introl eq_refl)), IH; [reflexivity|]. intros y Y. apply H. now right. Qed.
Lemma flat_single {A B} (f : A -> B) l : flat_map (fun x => [f x]) l = map f l.
Proof. induction l as [|x l IH]; [reflexivity|]. cbn. now rewrite IH. Qed.
Lemma flat_map_of {A B C} (f : B -> list C) (g : A -> B) l : flat_map (fun x => f (g x)) l = flat_map f (map g l).
Proof. induction l as [|x l IH]; [reflexivity|]. cbn. now rewrite IH. Qed.
Lemma each_ok {X Y} (f : X -> dout (list Y)) (g : X -> list Y) xs : (forall x, In x xs -> f x = DOk (g x)) -> each f xs = DOk (flat_map g xs).
Proof.
  induction xs as [|x xs IH]; intro H; [reflexivity|]. cbn. rewrite (H x (or_introl eq_refl)). cbn. rewrite IH; [reflexivity|].
  intros y Hy. apply H. now right.
Qed.

(** * Lists of site lists *)
Definition good_sites (n : nat) (s : list nat) : Prop := NoDup s /\ forall q, In q s -> q < n.
Definition same_set (s s' : list nat) : Prop := forall q, In q s <-> In q s'.
Definition on_sites (ss : list (list nat)) (w : word) : Prop := exists s, In s ss /\ acts_on s w.

Lemma fills_list n ss : (forall s, In s ss -> good_sites n s) -> lists_words n (on_sites ss) (flat_map (fill_words n) ss).
Proof.
  intro G. split.
  - intros q I. apply in_flat_map in I. destruct I as (s & S & I). destruct (G s S) as [ND B].
    destruct (fill_words_once n s ND B) as [[H _] _]. now apply H.
  - intro w. rewrite map_flat, in_flat_map. split.
    + intros (s & S & I). destruct (G s S) as [ND B]. destruct (fill_words_once n s ND B) as [[_ H] _]. apply H in I.
      split; [apply I|]. exists s. split; [exact S|apply I].
    + intros [W (s & S & A)]. exists s. split; [exact S|]. destruct (G s S) as [ND B]. destruct (fill_words_once n s ND B) as [[_ H] _].
      apply H. now split.
Qed.
Lemma fills_once n ss : (forall s, In s ss -> good_sites n s) -> NoDup ss -> (forall s s', In s ss -> In s' ss -> same_set s s' -> s = s') ->
  lists_once n (on_sites ss) (flat_map (fill_words n) ss).
Proof.
  intros G N D. split; [now apply fills_list|]. rewrite map_flat. apply nodup_flat; [exact N| |].
  - intros s S. destruct (G s S) as [ND B]. apply (fill_words_once n s ND B).
  - intros s s' w S S' I I'. apply D; auto. destruct (G s S) as [ND B], (G s' S') as [ND' B'].
    apply (proj2 (proj1 (fill_words_once n s ND B))) in I. apply (proj2 (proj1 (fill_words_once n s' ND' B'))) in I'.
    destruct I as [_ I], I' as [_ I']. intro q. rewrite <- (I q). apply I'.
Qed.
Lemma lists_words_ext n P Q l : (forall w, pauli_word n w -> (P w <-> Q w)) -> lists_words n P l -> lists_words n Q l.
Proof. intros E [A B]. split; [exact A|]. intro w. rewrite B. split; intros [W H]; (split; [exact W|]); now apply E. Qed.
Lemma lists_once_ext n P Q l : (forall w, pauli_word n w -> (P w <-> Q w)) -> lists_once n P l -> lists_once n Q l.
Proof. intros E [A B]. split; [now apply (lists_words_ext n P)|exact B]. Qed.

(** sorted site lists *)
Lemma sorted_nodup s : StronglySorted lt s -> NoDup s.
Proof.
  induction 1 as [|x l S IH F]; constructor; [|exact IH]. intro I. rewrite Forall_forall in F. specialize (F x I). lia.
Qed.
Lemma sorted_same s : forall s', StronglySorted lt s -> StronglySorted lt s' -> same_set s s' -> s = s'.
Proof.
  induction s as [|x s IH]; intros [|y s'] S S' E.
  - reflexivity.
  - exfalso. apply (proj2 (E y)). now left.
  - exfalso. apply (proj1 (E x)). now left.
  - inversion S as [|? ? S1 F1]; inversion S' as [|? ? S2 F2]; subst. rewrite Forall_forall in F1, F2.
    assert (x = y).
    { destruct (proj1 (E x) (or_introl eq_refl)) as [->|I]; [reflexivity|]. destruct (proj2 (E y) (or_introl eq_refl)) as [->|J]; [reflexivity|].
      specialize (F1 y J). specialize (F2 x I). lia. }
    subst y. f_equal. apply IH; auto. intro q. split; intro I.
    + destruct (proj1 (E q) (or_intror I)) as [<-|J]; [|exact J]. specialize (F1 x I). lia.
    + destruct (proj2 (E q) (or_intror I)) as [<-|J]; [|exact J]. specialize (F2 x I). lia.
Qed.
Lemma support_sorted n w : pauli_word n w -> StronglySorted lt (support w).
Proof.
  intros [S _]. unfold support. induction S as [|x l S IH F]; cbn [map]; constructor; [exact IH|]. rewrite Forall_forall in *.
  intros q I. apply in_map_iff in I. destruct I as (y & <- & Y). now apply F.
Qed.
(** with sorted site lists, acting on the sites is having them as support *)
Lemma acts_sorted n w s : pauli_word n w -> StronglySorted lt s -> (acts_on s w <-> support w = s).
Proof.
  intros W S. split; [|intros <- q; reflexivity]. intro A. apply sorted_same; [now apply (support_sorted n)|exact S|exact A].
Qed.
Lemma sorted_fills_once n ss : (forall s, In s ss -> StronglySorted lt s /\ forall q, In q s -> q < n) -> NoDup ss ->
  lists_once n (fun w => In (support w) ss) (flat_map (fill_words n) ss).
Proof.
  intros G N. apply lists_once_ext with (P := on_sites ss).
  - intros w W. split.
    + intros (s & S & A). apply (acts_sorted n) in A; [now rewrite A|exact W|apply G, S].
    + intro I. exists (support w). split; [exact I|]. intro q. reflexivity.
  - apply fills_once; [|exact N|].
    + intros s S. destruct (G s S). split; [now apply sorted_nodup|assumption].
    + intros s s' S S' E. apply sorted_same; [apply G, S|apply G, S'|exact E].
Qed.

Lemma dok_inj {A} (x y : A) : DOk x = DOk y -> x = y.
Proof. congruence. Qed.
(** the parts shared by all generators *)
Lemma zero_value n : add_length_zero = flat_map (fill_words n) [[]].
Proof. reflexivity. Qed.
Lemma one_value c : add_length_one c = flat_map (fill_words (pc_qubits c)) (map (fun q => [q]) (seq 0 (pc_qubits c))).
Proof.
  unfold add_length_one. rewrite <- (flat_map_of (fill_words (pc_qubits c)) (fun q => [q])).
  assert (E : forall q, fill_words (pc_qubits c) [q] = map raw_one (seq (3 * q) 3)).
  { intro q. assert (H := permutation_fill_value c [q]). cbn [permutation_fill] in H.
    assert (H' := H ltac:(repeat constructor; intros [])). apply dok_inj in H'. rewrite <- H'. unfold one_qubit_fill. cbn [seq map].
    replace (q * 3) with (3 * q) by lia. replace (3 * q + 1) with (S (3 * q)) by lia. replace (3 * q + 2) with (S (S (3 * q))) by lia. reflexivity. }
  assert (G : forall k o, map raw_one (seq (3 * o) (3 * k)) = flat_map (fun q => fill_words (pc_qubits c) [q]) (seq o k)).
  { induction k as [|k IH]; intro o; [now rewrite Nat.mul_0_r|]. replace (3 * S k) with (3 + 3 * k) by lia. rewrite seq_app, map_app.
    cbn [flat_map seq]. rewrite E. f_equal. replace (3 * o + 3) with (3 * S o) by lia. apply IH. }
  exact (G (pc_qubits c) 0).
Qed.
