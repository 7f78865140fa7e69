(** Hermiticity updates, creation, bulk fill counts and aliased lookups in detail. *)
From Coq Require Import List NArith ZArith Arith Bool Lia.
From Verif Require Import CoreModel CoreSpec FieldModel SymModel SymSpec SymProofs SymFinalProofs.
Import ListNotations.

Definition upd (re im : list bool) (s s' : symbol) : Prop := sy_id s' = sy_id s /\
  if Nat.eqb (sy_id s) 0 then sy_herm s' = true /\ sy_anti s' = true
  else exists r i, nth_error re (sy_id s) = Some r /\ nth_error im (sy_id s) = Some i /\ r || i = true /\
       sy_herm s' = sy_herm s || negb i /\ sy_anti s' = sy_anti s || negb r /\ (sy_herm s' && sy_anti s' = true -> sy_herm s && sy_anti s = true).
Definition moved (p : symbol * symbol) : bool :=
  negb (Nat.eqb (sy_id (fst p)) 0) && (xorb (sy_herm (fst p)) (sy_herm (snd p)) || xorb (sy_anti (fst p)) (sy_anti (snd p))).
Lemma flag_loop_flags re im todo : forall done ch0 l b, flag_loop re im done todo ch0 = (l, Some b, false) ->
  exists todo', l = done ++ todo' /\ Forall2 (upd re im) todo todo' /\ b = ch0 || existsb moved (combine todo todo').
Proof.
  induction todo as [|s todo IH]; intros done ch0 l b H; cbn [flag_loop] in H.
  - injection H as <- <-. exists []. rewrite app_nil_r, orb_false_r. repeat split. constructor.
  - assert (K : forall s' d, upd re im s s' -> d = ch0 || moved (s, s') -> flag_loop re im (done ++ [s']) todo d = (l, Some b, false) ->
       exists todo', l = done ++ todo' /\ Forall2 (upd re im) (s :: todo) todo' /\ b = ch0 || existsb moved (combine (s :: todo) todo')).
    { intros s' d U D F. destruct (IH _ _ _ _ F) as (todo' & A & B & C). exists (s' :: todo'). split; [now rewrite A, <- app_assoc|]. split; [now constructor|].
      cbn [combine existsb]. now rewrite C, D, orb_assoc. }
    destruct (Nat.eqb (sy_id s) 0) eqn:Z.
    + eapply K in H; [exact H| |]; [unfold upd; cbn; rewrite Z; auto|unfold moved; cbn; rewrite Z; cbn; now rewrite orb_false_r].
    + destruct (nth_error re (sy_id s)) as [r|] eqn:Er; [|discriminate]. destruct (nth_error im (sy_id s)) as [i|] eqn:Ei; [|discriminate].
      destruct r, i; [|destruct (sy_anti s) eqn:A; [discriminate|]|destruct (sy_herm s) eqn:A; [discriminate|]|discriminate];
      (eapply K in H; [exact H| |]; [unfold upd; cbn; rewrite Z; split; [reflexivity|]; do 2 eexists; rewrite ?Er, ?Ei, ?A; cbn; repeat split; auto; now destruct (sy_herm s), (sy_anti s)
       |unfold moved; cbn; rewrite Z, ?A; cbn; rewrite ?xorb_nilpotent; destruct (sy_herm s), (sy_anti s); cbn; now rewrite ?orb_false_r, ?orb_true_r]).
Qed.
Lemma renumber_flags l : forall t done, exists l', t_syms (renumber_loop l t done) = done ++ l' /\
  Forall2 (fun s s' => sy_herm s' = sy_herm s /\ sy_anti s' = sy_anti s) l l'.
Proof.
  induction l as [|s l IH]; intros t done; cbn [renumber_loop basis_push]; [exists []; rewrite app_nil_r; split; [reflexivity|constructor]|].
  match goal with |- context [renumber_loop l ?t1 ?d1] => destruct (IH t1 d1) as (l' & A & B) end.
  rewrite <- app_assoc in A. eexists. split; [exact A|]. constructor; [split; reflexivity|exact B].
Qed.
Lemma create_loop_shape r i n : forall t, exists l, t_syms (create_loop n t r i) = t_syms t ++ l /\ length l = n /\
  forall s, In s l -> sy_herm s = negb i /\ sy_anti s = negb r /\ sy_seq s = None /\ sy_conj s = None.
Proof.
  induction n as [|n IH]; intros t; cbn [create_loop]; [exists []; rewrite app_nil_r; split; [reflexivity|split; [reflexivity|intros s []]]|].
  destruct (IH (fst (create t r i))) as (l & A & B & C). unfold create in A. cbn in A. rewrite <- app_assoc in A. eexists. split; [exact A|]. split; [cbn; lia|].
  intros s [<-|H]; [cbn; auto|auto].
Qed.
Lemma F2_nth {A B} (P : A -> B -> Prop) l m : Forall2 P l m -> forall i, match nth_error l i, nth_error m i with Some a, Some b => P a b | None, None => True | _, _ => False end.
Proof. induction 1; intros [|i]; cbn; auto. apply IHForall2. Qed.
Lemma existsb_combine {A B} (f : A * B -> bool) l m : Forall2 (fun _ _ => True) l m ->
  (existsb f (combine l m) = true <-> exists i a b, nth_error l i = Some a /\ nth_error m i = Some b /\ f (a, b) = true).
Proof.
  induction 1 as [|x y l m _ _ IH]; cbn; [split; [discriminate|intros ([|?] & ? & ? & ? & _); discriminate]|].
  rewrite orb_true_iff, IH. split.
  - intros [H|(i & a & b & H)]; [now exists 0, x, y|now exists (S i), a, b].
  - intros ([|i] & a & b & H1 & H2 & H3); [left; cbn in *; congruence|right; now exists i, a, b].
Qed.

Lemma update_flags c V : lawful c V -> forall t re im t' b, reachable c V t -> merge_bits t re im = Done t' b ->
  length (t_syms t') = Nat.max (length (t_syms t)) (length re) /\
  (forall id, S id < length (t_syms t') -> exists r i, nth_error re (S id) = Some r /\ nth_error im (S id) = Some i /\ r || i = true /\
     flags_at t' (S id) = (fst (flags_at t (S id)) || negb i, snd (flags_at t (S id)) || negb r)) /\
  (b = true <-> exists id, flags_at t' (S id) <> flags_at t (S id)).
Proof.
  intros LW t re im t' b R M. pose proof (reachable_hinv c V LW t R) as I.
  unfold merge_bits in M. cbv zeta in M.
  set (t1 := if Nat.ltb (length (t_syms t)) (length re) then fst (create_many t (length re - length (t_syms t)) true true) else t) in M.
  assert (T1 : exists l, t_syms t1 = t_syms t ++ l /\ length l = length re - length (t_syms t) /\ (forall s, In s l -> sy_herm s = false /\ sy_anti s = false) /\ hinv c V t1).
  { unfold t1. destruct (Nat.ltb_spec (length (t_syms t)) (length re)) as [H|H].
    - destruct (create_loop_shape true true (length re - length (t_syms t)) t) as (l & A & B & C). exists l. split; [exact A|]. split; [exact B|]. split.
      + intros s Hs. destruct (C s Hs) as (X & Y & _). auto.
      + exact (proj1 (create_loop_hinv c V true true _ t I)).
    - exists []. rewrite app_nil_r. cbn. split; [reflexivity|]. split; [lia|]. split; [intros s []|exact I]. }
  clearbody t1. destruct T1 as (l1 & A1 & A2 & A3 & I1).
  destruct (flag_loop re im [] (t_syms t1) false) as [[l x] u] eqn:F in M. destruct u; [destruct x; discriminate|]. destruct x as [bb|]; [|discriminate]. assert (M1 : renumerate (set_syms t1 l) = t') by congruence. assert (M2 : bb = b) by congruence. subst b t'. clear M.
  destruct (flag_loop_flags re im (t_syms t1) [] false l bb F) as (l' & B1 & B2 & B3). cbn in B1, B3. subst l'.
  destruct (renumber_flags (t_syms (set_syms t1 l)) (mk_table (t_syms (set_syms t1 l)) (t_hash t1) [] [] [] [] (t_map t1) (t_map_len t1)) []) as (l2 & C1 & C2).
  cbn [app] in C1. assert (S2 : t_syms (renumerate (set_syms t1 l)) = l2) by exact C1. cbn [t_syms set_syms] in C2.
  assert (IDS : forall i s, nth_error (t_syms t1) i = Some s -> sy_id s = i) by (intros; eapply (hi_id c V t1 I1); eassumption).
  assert (FL1 : forall id, flags_at t1 (S id) = flags_at t (S id)).
  { intro id. unfold flags_at. rewrite A1. destruct (nth_error (t_syms t) (S id)) as [s|] eqn:E.
    - rewrite nth_error_app1; [now rewrite E|]. apply nth_error_Some. congruence.
    - rewrite nth_error_app2; [|now apply nth_error_None]. destruct (nth_error l1 (S id - length (t_syms t))) as [s|] eqn:E2; [|reflexivity].
      destruct (A3 s (nth_error_In _ _ E2)) as [-> ->]. reflexivity. }
  assert (FL : forall id, flags_at (renumerate (set_syms t1 l)) (S id) = match nth_error l (S id) with Some s => (sy_herm s, sy_anti s) | None => (false, false) end).
  { intro id. unfold flags_at. rewrite S2. pose proof (F2_nth _ _ _ C2 (S id)) as Q. destruct (nth_error l (S id)), (nth_error l2 (S id)); try contradiction; [destruct Q as [-> ->]|]; reflexivity. }
  split; [|split].
  - rewrite S2, <- (F2_length _ _ _ C2), <- (F2_length _ _ _ B2), A1, app_length, A2. lia.
  - intros id Hid. rewrite S2, <- (F2_length _ _ _ C2) in Hid. rewrite FL, <- FL1. pose proof (F2_nth _ _ _ B2 (S id)) as Q.
    destruct (nth_error l (S id)) as [s'|] eqn:E; [|apply nth_error_None in E; lia]. destruct (nth_error (t_syms t1) (S id)) as [s|] eqn:E1; [|contradiction].
    destruct Q as [_ Q]. rewrite (IDS _ _ E1) in Q. cbn [Nat.eqb] in Q. destruct Q as (r & i & Q1 & Q2 & Q3 & Q4 & Q5 & _). exists r, i. repeat split; try assumption.
    unfold flags_at. rewrite E1. cbn. now rewrite Q4, Q5.
  - rewrite B3, existsb_combine; [|clear - B2; induction B2; constructor; auto]. split.
    + intros (i & s & s' & X1 & X2 & X3). unfold moved in X3. cbn in X3. apply andb_true_iff in X3 as [X3 X4]. rewrite (IDS _ _ X1) in X3. destruct i as [|i]; [discriminate|].
      exists i. rewrite FL, <- FL1, X2. unfold flags_at. rewrite X1. intro Y. injection Y as Y1 Y2. rewrite Y1, Y2, !xorb_nilpotent in X4. discriminate.
    + intros (id & X). rewrite FL, <- FL1 in X. unfold flags_at in X. pose proof (F2_nth _ _ _ B2 (S id)) as Q.
      destruct (nth_error (t_syms t1) (S id)) as [s|] eqn:E1, (nth_error l (S id)) as [s'|] eqn:E2; try contradiction.
      exists (S id), s, s'. split; [assumption|]. split; [assumption|]. unfold moved. cbn [fst snd]. rewrite (IDS _ _ E1). cbn.
      destruct (sy_herm s), (sy_herm s'), (sy_anti s), (sy_anti s'); cbn; auto; now elim X.
Qed.

(** Updates that contradict what is known throw (or are undefined). *)
Lemma update_contradiction re im t : forall id s, nth_error (t_syms t) id = Some s -> sy_id s = id -> id <> 0 -> nth_error re id = Some false -> nth_error im id = Some false ->
  forall t' b, merge_bits t re im <> Done t' b.
Proof.
  intros id s E Sid NZ Er Ei t' b M. unfold merge_bits in M. cbv zeta in M.
  set (t1 := if Nat.ltb (length (t_syms t)) (length re) then fst (create_many t (length re - length (t_syms t)) true true) else t) in M.
  assert (E1 : nth_error (t_syms t1) id = Some s).
  { unfold t1. destruct (Nat.ltb (length (t_syms t)) (length re)); [|exact E]. destruct (create_loop_shape true true (length re - length (t_syms t)) t) as (l & A & _).
    cbn [create_many fst]. rewrite A. rewrite nth_error_app1; [exact E|]. apply nth_error_Some. congruence. }
  clearbody t1. destruct (flag_loop re im [] (t_syms t1) false) as [[l x] u] eqn:F in M. destruct u; [destruct x; discriminate|]. destruct x as [bb|]; [|discriminate].
  destruct (flag_loop_flags _ _ _ _ _ _ _ F) as (l' & _ & B & _). pose proof (F2_nth _ _ _ B id) as Q. rewrite E1 in Q. destruct (nth_error l' id); [|contradiction].
  destruct Q as [_ Q]. rewrite Sid in Q. destruct (Nat.eqb_spec id 0); [contradiction|]. destruct Q as (r & i & Q1 & Q2 & Q3 & _). rewrite Er in Q1. rewrite Ei in Q2. injection Q1 as <-. injection Q2 as <-. discriminate.
Qed.

Lemma create_spec t n hr hi : exists t' l, create_many t n hr hi = (t', length (t_syms t)) /\ t_syms t' = t_syms t ++ l /\ length l = n /\
  (forall s, In s l -> sy_herm s = negb hi /\ sy_anti s = negb hr /\ sy_seq s = None) /\ t_hash t' = t_hash t.
Proof.
  destruct (create_loop_shape hr hi n t) as (l & A & B & C). exists (create_loop n t hr hi), l. split; [reflexivity|]. split; [exact A|]. split; [exact B|]. split.
  - intros s H. destruct (C s H) as (X & Y & Z & _). auto.
  - clear. revert t. induction n as [|n IH]; intro t; [reflexivity|]. cbn [create_loop]. rewrite IH. reflexivity.
Qed.

Lemma fill_count c t L t' n k : fill_to_word_length c t L = Done t' (n, k) -> n = length (cx_osg c L) /\ length (t_syms t') = length (t_syms t) + k.
Proof.
  unfold fill_to_word_length. destruct (Nat.ltb L (t_map_len t)); [intro H; injection H as <- <- <-; split; [reflexivity|lia]|].
  assert (G : forall l t0 t1 ids, merge_symbols t0 l = Done t1 ids -> length (t_syms t0) <= length (t_syms t1)).
  { induction l as [|s l IH]; intros t0 t1 ids H; cbn [merge_symbols] in H; [injection H as <- _; lia|].
    destruct (merge_symbol t0 s) as [t2 id| |] eqn:E; try discriminate. destruct (merge_symbols t2 l) as [t3 ids'| |] eqn:E2; try discriminate. injection H as <- _.
    specialize (IH _ _ _ E2). enough (length (t_syms t0) <= length (t_syms t2)) by lia. clear - E. unfold merge_symbol in E.
    destruct (sy_hash s), (sy_hash_conj s); try discriminate. destruct (hfind _ _); [destruct (nth_error _ _); [injection E as <- _; lia|discriminate]|].
    cbn in E. injection E as <- _. cbn. rewrite app_length. lia. }
  destruct (merge_symbols t _) as [t1 ids| |] eqn:E; try discriminate. intro H. injection H as <- <- <-. split; [reflexivity|]. apply G in E. lia.
Qed.

(** What [where] reports: the word itself if it is known; otherwise, in a context with aliases, the representative of its moment. *)
Lemma where_exact c V : lawful c V -> forall t q, reachable c V t -> V q ->
  match lk_symbol (where_ c t q) with
  | Some id => if lk_alias (where_ c t q)
               then cx_alias c = true /\ (forall i cj, ~ answers c t q i cj) /\ ~ same_word (cx_moment c q) q /\ answers c t (cx_moment c q) id (lk_conj (where_ c t q))
               else answers c t q id (lk_conj (where_ c t q))
  | None => (forall i cj, ~ answers c t q i cj) /\ (cx_alias c = true -> forall i cj, ~ answers c t (cx_moment c q) i cj)
  end.
Proof.
  intros LW t q R Vq. pose proof (lookup_answers c V LW t) as LA. assert (N1 : hash_to_index t (hs_hash q) = None -> forall i cj, ~ answers c t q i cj).
  { intros H i cj A. apply (LA q i cj R Vq) in A. congruence. }
  unfold where_. destruct (hash_to_index t (hs_hash q)) as [[id cj]|] eqn:E; cbn; [now apply (LA q id cj R Vq)|]. specialize (N1 eq_refl).
  destruct (cx_alias c) eqn:Al; cbn; [|split; [assumption|discriminate]]. pose proof (lw_moment c V LW q Vq) as Vm.
  destruct (N.eqb_spec (hs_hash (cx_moment c q)) (hs_hash q)) as [H|H]; cbn.
  - split; [assumption|]. intros _ i cj A. apply (LA _ i cj R Vm) in A. congruence.
  - destruct (hash_to_index t (hs_hash (cx_moment c q))) as [[id cj]|] eqn:E2; cbn.
    + split; [reflexivity|]. split; [assumption|]. split; [intro W; apply H; exact (same_word_hash _ _ W)|now apply (LA _ id cj R Vm)].
    + split; [assumption|]. intros _ i cj A. apply (LA _ i cj R Vm) in A. congruence.
Qed.
