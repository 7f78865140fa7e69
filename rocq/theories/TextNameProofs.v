(** Proofs about tables of names. *)
From Coq Require Import NArith ZArith Arith Bool Ascii String List Lia.
From Verif Require Import CoreModel AlgModel LocModel InfModel TextModel TextSpec TextProofs.
Import ListNotations.
Local Open Scope list_scope.

Lemma text_eqb_spec a b : reflect (a = b) (text_eqb a b).
Proof. unfold text_eqb. destruct (list_eq_dec ascii_dec a b); now constructor. Qed.
Lemma between_spec lo hi c : between lo hi c = true <-> lo <= nat_of_ascii c <= hi.
Proof. unfold between. now rewrite andb_true_iff, !Nat.leb_le. Qed.
Lemma letter_spec c : is_letter c = true <-> letter_char c.
Proof. unfold is_letter, letter_char. now rewrite orb_true_iff, !between_spec. Qed.
Lemma in_name_spec c : in_name c = true <-> name_char c.
Proof.
  unfold in_name, name_char, is_digit. rewrite !orb_true_iff, letter_spec, between_spec. cbn [existsb]. rewrite !orb_true_iff, !Ascii.eqb_eq. intuition discriminate.
Qed.
Lemma valid_spec n : valid_name n = true <-> good_name n.
Proof.
  unfold valid_name, good_name. destruct n as [|c r].
  - split; [discriminate|]. intros [c [r [E _]]]. discriminate.
  - rewrite andb_true_iff, letter_spec, forallb_forall. split.
    + intros [H G]. exists c, r. repeat split; auto. intros x I. now apply in_name_spec, G.
    + intros [c' [r' [E [H G]]]]. injection E as -> ->. split; auto. intros x I. now apply in_name_spec, G.
Qed.
Lemma letter_in c : letter_char c -> in_name c = true. Proof. intros H. apply in_name_spec. now left. Qed.
Lemma valid_chars n : valid_name n = true -> forallb in_name n = true.
Proof. destruct n as [|c r]; [discriminate|]. cbn. rewrite andb_true_iff. intros [H G]. rewrite G. now rewrite (letter_in c (proj1 (letter_spec c) H)). Qed.
Lemma star_not_valid n : valid_name (star n) = false.
Proof.
  destruct (valid_name (star n)) eqn:E; [|reflexivity]. apply valid_chars in E. unfold star in E. rewrite forallb_app in E. cbn in E. now rewrite andb_false_r in E.
Qed.
Lemma star_inj a b : star a = star b -> a = b. Proof. unfold star. intros H. now apply app_inj_tail in H. Qed.

(** * The index *)
Lemma find_hit n v ix : find_name ((n, v) :: ix) n = Some v.
Proof. unfold find_name. cbn. destruct (text_eqb_spec n n); [reflexivity|congruence]. Qed.
Lemma find_cons n v ix m : find_name ((n, v) :: ix) m = if text_eqb n m then Some v else find_name ix m.
Proof. unfold find_name. cbn. now destruct (text_eqb n m). Qed.
Lemma find_app ix n k m : find_name (ix ++ [(n, k)]) m = match find_name ix m with Some v => Some v | None => if text_eqb n m then Some k else None end.
Proof.
  induction ix as [|[a v] ix IH]; cbn [app].
  - rewrite find_cons. reflexivity.
  - rewrite !find_cons. destruct (text_eqb a m); auto.
Qed.
Lemma find_emplace ix n k m : find_name ix n = None -> find_name (emplace ix n k) m = if text_eqb n m then Some k else find_name ix m.
Proof.
  intros H. unfold emplace. rewrite H, find_app. destruct (text_eqb_spec n m) as [<-|]; [now rewrite H|]. now destruct (find_name ix m).
Qed.
Definition adds (ix : index) (l : list (text * nat)) : index := fold_left (fun ix p => emplace ix (fst p) (snd p)) l ix.
Lemma find_adds : forall l ix, NoDup (map fst l) -> (forall m, In m (map fst l) -> find_name ix m = None) ->
  forall m v, find_name (adds ix l) m = Some v <-> find_name ix m = Some v \/ In (m, v) l.
Proof.
  induction l as [|[n k] l IH]; intros ix D A m v.
  - cbn. intuition.
  - cbn [adds fold_left fst snd]. change (fold_left _ l (emplace ix n k)) with (adds (emplace ix n k) l). inversion D; subst. rewrite IH; [|assumption|].
    + rewrite find_emplace by (apply A; now left). cbn [In]. destruct (text_eqb_spec n m) as [<-|Ne].
      * rewrite (A n (or_introl eq_refl)). split; [intros [H|H]; [right; left; congruence|auto]|]. intros [H|[H|H]]; [discriminate|left; congruence|auto].
      * split; [intuition|]. intros [H|[H|H]]; auto. congruence.
    + intros x I. rewrite find_emplace by (apply A; now left). destruct (text_eqb_spec n x) as [<-|]; [contradiction|]. apply A. now right.
Qed.
Section Table.
  Variable mode : conj_mode.
  Definition stride := match mode with Interleaved => 2 | _ => 1 end.
  Lemma enter_ok : forall l op ix, (Forall (fun n => valid_name n = true) l /\ NoDup l /\ forall n, In n l -> find_name ix n = None) <-> exists ix', enter mode op l ix = Some ix'.
  Proof.
    induction l as [|n l IH]; intros op ix.
    - split; [intros _; eexists; reflexivity|]. intros _. repeat split; [constructor|constructor|intros n []].
    - cbn [enter]. destruct (valid_name n) eqn:V.
      + destruct (find_name ix n) eqn:E.
        * split; [|intros [? ?]; discriminate]. intros [_ [_ H]]. rewrite (H n (or_introl eq_refl)) in E. discriminate.
        * rewrite <- IH. split.
          -- intros [F [D A]]. inversion F; inversion D; subst. repeat split; auto. intros x I. rewrite find_emplace by assumption.
             destruct (text_eqb_spec n x) as [<-|]; [contradiction|]. apply A. now right.
          -- intros [F [D A]]. assert (Nn : ~ In n l). { intros I. specialize (A n I). rewrite find_emplace in A by assumption. destruct (text_eqb_spec n n); congruence. }
             repeat split; [now constructor|now constructor|]. intros x [<-|I]; auto. specialize (A x I). rewrite find_emplace in A by assumption. destruct (text_eqb n x); [discriminate|auto].
      + split; [|intros [? ?]; discriminate]. intros [F _]. inversion F. congruence.
  Qed.
  Lemma enter_find : forall l op ix ix', enter mode op l ix = Some ix' -> forall m v, find_name ix' m = Some v <-> find_name ix m = Some v \/ exists i, nth_error l i = Some m /\ v = (op + i) * stride.
  Proof.
    induction l as [|n l IH]; intros op ix ix' E m v; cbn [enter] in E.
    - injection E as <-. split; [auto|]. intros [H|[i [H _]]]; auto. now destruct i.
    - destruct (valid_name n); [|discriminate]. destruct (find_name ix n) eqn:Fn; [discriminate|]. rewrite (IH _ _ _ E m v). fold stride. rewrite find_emplace by assumption.
      destruct (text_eqb_spec n m) as [<-|Ne].
      + split.
        * intros [H|[i [H ->]]].
          -- right. exists 0. split; [reflexivity|]. rewrite Nat.add_0_r. congruence.
          -- right. exists (S i). split; [exact H|]. f_equal. lia.
        * intros [H|[[|i] [H ->]]]; [congruence| |].
          -- left. rewrite Nat.add_0_r. reflexivity.
          -- right. exists i. split; [exact H|]. f_equal. lia.
      + split.
        * intros [H|[i [H ->]]]; auto. right. exists (S i). split; [exact H|]. f_equal. lia.
        * intros [H|[[|i] [H ->]]]; auto; [cbn in H; congruence|]. right. exists i. split; [exact H|]. f_equal. lia.
  Qed.
End Table.
  (** * Names of conjugates *)
  Definition numbered (f : nat -> nat) (l : list text) : list (text * nat) := map (fun p => (star (snd p), f (fst p))) (List.combine (seq 0 (length l)) l).
  Lemma in_combine_seq : forall (l : list text) k i n, In (i, n) (List.combine (seq k (length l)) l) <-> k <= i /\ nth_error l (i - k) = Some n.
  Proof.
    induction l as [|a l IH]; intros k i n; cbn [length seq List.combine In].
    - split; [intros []|]. intros [_ H]. now destruct (i - k).
    - rewrite IH. split.
      + intros [H|[H G]]; [injection H as -> ->; rewrite Nat.sub_diag; auto|]. split; [lia|]. replace (i - k) with (S (i - S k)) by lia. exact G.
      + intros [H G]. destruct (Nat.eq_dec i k) as [->|Ne]; [rewrite Nat.sub_diag in G; cbn in G; left; congruence|]. right. split; [lia|].
        replace (i - k) with (S (i - S k)) in G by lia. exact G.
  Qed.
  Lemma in_numbered f l m v : In (m, v) (numbered f l) <-> exists i n, nth_error l i = Some n /\ m = star n /\ v = f i.
  Proof.
    unfold numbered. rewrite in_map_iff. split.
    - intros [[i n] [E I]]. cbn in E. injection E as <- <-. apply in_combine_seq in I. rewrite Nat.sub_0_r in I. exists i, n. intuition.
    - intros [i [n [H [-> ->]]]]. exists (i, n). split; [reflexivity|]. apply in_combine_seq. rewrite Nat.sub_0_r. split; [lia|auto].
  Qed.
  Lemma keys_numbered f l : map fst (numbered f l) = map star l.
  Proof. unfold numbered. rewrite map_map. cbn. generalize 0. induction l as [|a l IH]; intros k; [reflexivity|]. cbn. f_equal. apply IH. Qed.
  Lemma nodup_star l : NoDup l -> NoDup (map star l).
  Proof.
    induction 1 as [|a l N D IH]; cbn; constructor; auto. intros I. apply in_map_iff in I. destruct I as [b [E I]]. apply star_inj in E. now subst.
  Qed.
  Lemma self_adds l ix : add_self l ix = adds ix (numbered (fun i => i) l).
  Proof.
    unfold add_self, adds, numbered. generalize (List.combine (seq 0 (length l)) l). intros q. revert ix.
    induction q as [|p q IH]; intros ix; cbn; [reflexivity|]. apply IH.
  Qed.
  Lemma bunched_adds : forall l done ix, let r := fold_left (fun s n => let names' := fst s ++ [star n] in (names', emplace (snd s) (star n) (length names' - 1))) l (done, ix) in
    fst r = done ++ map star l /\ snd r = adds ix (map (fun p => (star (snd p), fst p)) (List.combine (seq (length done) (length l)) l)).
  Proof.
    induction l as [|a l IH]; intros done ix.
    - cbn. rewrite app_nil_r. auto.
    - cbn [fold_left fst snd]. destruct (IH (done ++ [star a]) (emplace ix (star a) (length (done ++ [star a]) - 1))) as [E1 E2]. cbn zeta in *. rewrite E1, E2. split.
      + now rewrite <- app_assoc.
      + rewrite app_length. cbn [length seq List.combine map fst snd]. rewrite Nat.add_1_r. cbn [adds fold_left fst snd]. rewrite Nat.sub_succ, Nat.sub_0_r. reflexivity.
  Qed.
  Lemma bunched_numbered l ix : add_bunched l ix = (l ++ map star l, adds ix (numbered (fun i => length l + i) l)).
  Proof.
    unfold add_bunched. destruct (bunched_adds l l ix) as [E1 E2]. cbn zeta in *. rewrite (surjective_pairing (fold_left _ _ _)), E1, E2. f_equal. f_equal.
    unfold numbered. change (fun p : nat * text => (star (snd p), fst p)) with (fun p : nat * text => (star (snd p), fst p)).
    enough (H : forall k (q : list text), map (fun p : nat * text => (star (snd p), fst p)) (List.combine (seq (length l + k) (length q)) q)
                = map (fun p => (star (snd p), length l + fst p)) (List.combine (seq k (length q)) q)) by (specialize (H 0 l); now rewrite Nat.add_0_r in H).
    intros k q. revert k. induction q as [|a q IH]; intros k; [reflexivity|]. cbn [length seq List.combine map fst snd]. f_equal. rewrite <- (IH (S k)). now rewrite Nat.add_succ_r.
  Qed.
  Lemma nth_put {X} (x d : X) : forall k l j, k < length l -> nth j (put k x l) d = if Nat.eqb j k then x else nth j l d.
  Proof.
    unfold put. induction k as [|k IH]; intros [|a l] j H; cbn in H; try lia.
    - destruct j; reflexivity.
    - destruct j as [|j]; [reflexivity|]. cbn [firstn skipn app nth Nat.eqb]. apply IH. lia.
  Qed.
  Lemma put_length {X} (x : X) : forall k l, k < length l -> length (put k x l) = length l.
  Proof. intros k l H. unfold put. rewrite app_length, firstn_length. cbn [length]. rewrite skipn_length. lia. Qed.
Section Interleaved.
  Variables moved self_moved : text -> text.
  Lemma interleaved_spec (l : list text) : forall k (names : list text) ix, k <= length l -> length names = 2 * length l ->
    (forall i, i < k -> nth i names [] = nth i l []) ->
    (forall i, k <= i < length l -> nth (2 * i) names [] = (if Nat.eqb i 0 then self_moved (nth 0 l []) else nth i l []) /\ nth (2 * i + 1) names [] = star (nth i l [])) ->
    let r := add_interleaved moved self_moved k names ix in
    length (fst r) = 2 * length l /\
    (forall i, i < length l -> nth (2 * i) (fst r) [] = (if Nat.eqb i 0 then self_moved (nth 0 l []) else nth i l []) /\ nth (2 * i + 1) (fst r) [] = star (nth i l [])) /\
    snd r = adds ix (map (fun i => (star (nth i l []), 2 * i + 1)) (rev (seq 0 k))).
  Proof.
    induction k as [|k IH]; intros names ix K Hl Hlow Hhigh.
    - cbn. repeat split; auto; apply Hhigh; lia.
    - cbn [add_interleaved]. cbn zeta. rewrite (Hlow k) by lia.
      assert (S1 : forall (l1 : list text), l1 = (if Nat.eqb (2 * k) k then put k (self_moved (nth k l [])) names else put k (moved (nth k l [])) (put (2 * k) (nth k l []) names)) ->
        length l1 = 2 * length l /\ forall j, nth j l1 [] = if Nat.eqb j (2 * k) then (if Nat.eqb k 0 then self_moved (nth 0 l []) else nth k l []) else if Nat.eqb j k then moved (nth k l []) else nth j names []).
      { intros l1 ->. destruct (Nat.eqb_spec (2 * k) k) as [E|E].
        - assert (k = 0) as -> by lia. split; [rewrite put_length by lia; lia|]. intros j. rewrite nth_put by lia. cbn [Nat.eqb Nat.mul Nat.add]. destruct (Nat.eqb j 0); reflexivity.
        - split; [rewrite !put_length by (try rewrite put_length by lia; lia); lia|]. intros j. rewrite nth_put by (rewrite put_length by lia; lia). rewrite nth_put by lia.
          destruct (Nat.eqb_spec k 0) as [->|]; [lia|]. destruct (Nat.eqb_spec j k) as [->|]; [|reflexivity]. destruct (Nat.eqb_spec k (2 * k)); [lia|reflexivity]. }
      destruct (S1 _ eq_refl) as [L1 N1]. set (l1 := if Nat.eqb (2 * k) k then _ else _) in *. clearbody l1. clear S1.
      specialize (IH (put (2 * k + 1) (star (nth k l [])) l1) (emplace ix (star (nth k l [])) (2 * k + 1)) ltac:(lia)).
      cbn zeta in IH. destruct IH as [A [B C]].
      + rewrite put_length; lia.
      + intros i I. rewrite nth_put by lia. destruct (Nat.eqb_spec i (2 * k + 1)); [lia|]. rewrite N1. destruct (Nat.eqb_spec i (2 * k)); [lia|]. destruct (Nat.eqb_spec i k); [lia|]. apply Hlow. lia.
      + intros i I. rewrite !nth_put by lia. rewrite !N1. destruct (Nat.eq_dec i k) as [->|Ne].
        * destruct (Nat.eqb_spec (2 * k) (2 * k + 1)); [lia|]. rewrite !Nat.eqb_refl. auto.
        * destruct (Nat.eqb_spec (2 * i) (2 * k + 1)); [lia|]. destruct (Nat.eqb_spec (2 * i + 1) (2 * k + 1)); [lia|]. destruct (Nat.eqb_spec (2 * i) (2 * k)); [lia|].
          destruct (Nat.eqb_spec (2 * i + 1) (2 * k)); [lia|]. destruct (Nat.eqb_spec (2 * i) k); [lia|]. destruct (Nat.eqb_spec (2 * i + 1) k); [lia|]. apply Hhigh. lia.
      + cbn zeta. repeat split; [exact A|apply B; assumption..|]. rewrite C. rewrite seq_S, rev_app_distr. reflexivity.
  Qed.
End Interleaved.
