From Coq Require Import List Arith Bool Lia.
From Verif Require Import SmallVecModel SmallVecSpec.
Import ListNotations.

Section SmallVecProofs.
  Variable V : Type.
  Variable dflt : V.
  Variable N : nat.
  Notation cells := (list (option V)).
  Notation svec := (svec V).

  Definition holds (v : svec) (l : list V) : Prop := exists rest,
    length (v_stack v) = N /\ v_size v = length l /\ length l + length rest = v_cap v /\
    ((v_heap v = Some (map Some l ++ rest) /\ v_on_heap v = true) \/
     (v_heap v = None /\ v_on_heap v = false /\ v_stack v = map Some l ++ rest /\ v_cap v = N)).

  Lemma slice_mid : forall a b c : cells, slice (length a) (length a + length b) (a ++ b ++ c) = Some b.
  Proof.
    intros a b c. unfold slice. rewrite !app_length. replace (length a <=? length a + length b) with true by (symmetry; apply Nat.leb_le; lia).
    replace (length a + length b <=? length a + (length b + length c)) with true by (symmetry; apply Nat.leb_le; lia). cbn [andb]. f_equal.
    rewrite skipn_app, skipn_all, Nat.sub_diag. cbn [app skipn]. replace (length a + length b - length a) with (length b) by lia.
    rewrite firstn_app, firstn_all, Nat.sub_diag. cbn. apply app_nil_r.
  Qed.
  Lemma slice_front : forall b c : cells, slice 0 (length b) (b ++ c) = Some b.
  Proof. intros b c. apply (slice_mid [] b c). Qed.
  Lemma blit_mid : forall src a b c : cells, length src = length b -> blit src (length a) (a ++ b ++ c) = Some (a ++ src ++ c).
  Proof.
    intros src a b c E. unfold blit. rewrite !app_length. replace (length a + length src <=? length a + (length b + length c)) with true by (symmetry; apply Nat.leb_le; lia).
    f_equal. f_equal.
    - rewrite firstn_app, firstn_all, Nat.sub_diag. cbn. apply app_nil_r.
    - f_equal. rewrite E. rewrite app_assoc, <- app_length, skipn_app, skipn_all, Nat.sub_diag. reflexivity.
  Qed.
  Lemma blit_front : forall src b c : cells, length src = length b -> blit src 0 (b ++ c) = Some (src ++ c).
  Proof. intros src b c E. apply (blit_mid src [] b c E). Qed.
  Lemma slice_list : forall (l : list V) c, slice 0 (length l) (map Some l ++ c) = Some (map Some l).
  Proof. intros l c. rewrite <- (map_length Some l). apply slice_front. Qed.
  Lemma slice_list_mid : forall (a b : list V) c, slice (length a) (length a + length b) (map Some a ++ map Some b ++ c) = Some (map Some b).
  Proof. intros a b c. rewrite <- (map_length Some a), <- (map_length Some b). apply slice_mid. Qed.
  Lemma blit_list : forall src (a : list V) b c, length src = length b -> blit src (length a) (map Some a ++ b ++ c) = Some (map Some a ++ src ++ c).
  Proof. intros src a b c E. rewrite <- (map_length Some a). apply blit_mid; auto. Qed.
  Lemma slice_len : forall (l : list V) c n, length l = n -> slice 0 n (map Some l ++ c) = Some (map Some l).
  Proof. intros l c n <-. apply slice_list. Qed.
  Lemma slice_len_mid : forall (a b : list V) c n m, length a = n -> length a + length b = m -> slice n m (map Some a ++ map Some b ++ c) = Some (map Some b).
  Proof. intros a b c n m <- <-. apply slice_list_mid. Qed.
  Lemma blit_len : forall src (a : list V) b c n, length a = n -> length src = length b -> blit src n (map Some a ++ b ++ c) = Some (map Some a ++ src ++ c).
  Proof. intros src a b c n <-. apply blit_list. Qed.
  Lemma cut : forall (m : cells) n, n <= length m -> exists b c, m = b ++ c /\ length b = n.
  Proof. intros m n L. exists (firstn n m), (skipn n m). split; [symmetry; apply firstn_skipn|]. apply firstn_length_le; auto. Qed.
  Lemma blit_start : forall src m : cells, length src <= length m -> exists c, blit src 0 m = Some (src ++ c) /\ length src + length c = length m.
  Proof.
    intros src m L. destruct (cut m (length src) L) as (b & c & -> & E). exists c. split; [apply blit_front; auto|]. rewrite app_length. lia.
  Qed.
  Lemma suggest_ge : forall n, n <= suggest n.
  Proof.
    intros n. unfold suggest. destruct n as [|[|n]]; [lia|cbn; lia|]. apply Nat.log2_up_spec. lia.
  Qed.
  Lemma new_heap_length : forall n, length (new_heap V dflt n) = n.
  Proof. intros; apply repeat_length. Qed.
  Lemma new_stack_length : length (new_stack V N) = N.
  Proof. apply repeat_length. Qed.
  (** two ways to show [holds] *)
  Lemma heap_holds : forall l c s n cap, length s = N -> n = length l -> length l + length c = cap -> holds (mk_sv (Some (map Some l ++ c)) s n cap true) l.
  Proof. intros l c s n cap A B C. exists c. cbn. split; auto. Qed.
  Lemma stack_holds : forall l c n cap, n = length l -> length l + length c = N -> cap = N -> holds (mk_sv None (map Some l ++ c) n cap false) l.
  Proof. intros l c n cap A B C. exists c. cbn. rewrite app_length, map_length. subst. split; [lia|]. split; [auto|]. split; [lia|]. right. auto. Qed.
  Lemma data_holds : forall v l, holds v l -> exists rest, v_data v = Some (map Some l ++ rest) /\ v_size v = length l /\ length l + length rest = v_cap v /\
    forall l' c, length (map Some l' ++ c) = v_cap v -> holds (with_size (with_data v (map Some l' ++ c)) (length l')) l'.
  Proof.
    intros v l (rest & A & B & C & D). exists rest. unfold v_data, with_data. destruct D as [[D E]|(D & E & F & G)]; rewrite E.
    - split; auto. split; auto. split; auto. intros l' c L. cbn. apply heap_holds; auto. rewrite app_length, map_length in L. auto.
    - split; [f_equal; auto|]. split; auto. split; auto. intros l' c L. cbn. rewrite D. rewrite app_length, map_length in L. apply stack_holds; auto. lia.
  Qed.
  Lemma new_holds : holds (sv_new V N) [].
  Proof. unfold sv_new. apply (stack_holds [] (new_stack V N)); auto. apply new_stack_length. Qed.
  Lemma of_list_holds : forall l, exists v, sv_of_list V dflt N l = Some v /\ holds v l.
  Proof.
    intros l. unfold sv_of_list. destruct (Nat.leb_spec (length l) N) as [L|L].
    - destruct (blit_start (map Some l) (new_stack V N)) as (c & -> & E); [rewrite map_length, new_stack_length; auto|]. rewrite map_length, new_stack_length in E.
      eexists; split; [reflexivity|]. apply stack_holds; auto.
    - destruct (blit_start (map Some l) (new_heap V dflt (suggest (length l)))) as (c & -> & E); [rewrite map_length, new_heap_length; apply suggest_ge|].
      rewrite map_length, new_heap_length in E. eexists; split; [reflexivity|]. apply heap_holds; auto. apply new_stack_length.
  Qed.
  Lemma map_length_sym : forall l : list V, length l = length (map Some l).
  Proof. intros. symmetry. apply map_length. Qed.
  Lemma assign_holds : forall v r k l, length (v_stack v) = N -> holds r l -> holds v k -> exists v', sv_assign V dflt v r = Some v' /\ holds v' l.
  Proof.
    intros v r k l LS (rest & A & B & C & D) _. unfold sv_assign. rewrite B.  destruct D as [[D E]|(D & E & F & G)]; rewrite D.
    - rewrite slice_list. cbn [obnd]. destruct (blit_start (map Some l) (new_heap V dflt (v_cap r))) as (c & -> & Q); [rewrite map_length, new_heap_length; lia|].
      rewrite map_length, new_heap_length in Q. eexists; split; [reflexivity|]. apply heap_holds; auto.
    - rewrite F, slice_list. cbn [obnd]. destruct (blit_start (map Some l) (v_stack v)) as (c & -> & Q); [rewrite map_length; lia|].
      rewrite map_length in Q. eexists; split; [reflexivity|]. apply stack_holds; auto. lia.
  Qed.
  Lemma copy_holds : forall r l, holds r l -> exists v', sv_copy V dflt N r = Some v' /\ holds v' l.
  Proof.
    intros r l H. apply (assign_holds (sv_new V N) r [] l); auto; [apply new_stack_length|apply new_holds].
  Qed.
  Lemma moved_holds : forall r, length (v_stack r) = N -> holds (moved_from V N r) [].
  Proof. intros r H. unfold moved_from. apply (stack_holds [] (v_stack r)); auto. Qed.
  Lemma move_assign_holds : forall v r k l, holds v k -> holds r l -> exists v' r' l', sv_move_assign V N v r = Some (v', r') /\ holds v' l /\ holds r' l' /\ (l' = l \/ l' = []).
  Proof.
    intros v r k l (? & LS & _) H. pose proof H as (rest & A & B & C & D). unfold sv_move_assign. rewrite B.  destruct D as [[D E]|(D & E & F & G)]; rewrite D.
    - eexists _, _, []. split; [reflexivity|]. split; [apply heap_holds; auto|]. split; auto. apply moved_holds; auto.
    - rewrite F, slice_list. cbn [obnd]. destruct (blit_start (map Some l) (v_stack v)) as (c & -> & Q); [rewrite map_length; lia|].
      rewrite map_length in Q. eexists _, _, l. split; [reflexivity|]. split; [apply stack_holds; auto; lia|]. split; auto.
  Qed.
  Lemma move_holds : forall r l, holds r l -> exists v' r' l', sv_move V N r = Some (v', r') /\ holds v' l /\ holds r' l' /\ (l' = l \/ l' = []).
  Proof.
    intros r l H. pose proof H as (rest & A & B & C & D). unfold sv_move. rewrite B.  destruct D as [[D E]|(D & E & F & G)]; rewrite D.
    - eexists _, _, []. split; [reflexivity|]. split; [apply heap_holds; auto; apply new_stack_length|]. split; auto. apply moved_holds; auto.
    - rewrite F, slice_list. cbn [obnd]. destruct (blit_start (map Some l) (new_stack V N)) as (c & -> & Q); [rewrite map_length, new_stack_length; lia|].
      rewrite map_length, new_stack_length in Q. eexists _, _, l. split; [reflexivity|]. split; [apply stack_holds; auto|]. split; auto.
  Qed.
  Lemma reallocate_holds : forall v l n, holds v l -> v_cap v < n -> exists v', sv_reallocate V dflt v n = Some v' /\ holds v' l /\ n <= v_cap v' /\ v_size v' = v_size v.
  Proof.
    intros v l n (rest & A & B & C & D) L. unfold sv_reallocate. pose proof (suggest_ge n). destruct D as [[D E]|(D & E & F & G)]; rewrite D.
    - assert (X : slice 0 (v_cap v) (map Some l ++ rest) = Some (map Some l ++ rest)).
      { pose proof (slice_front (map Some l ++ rest) []) as X. rewrite app_nil_r, app_length, map_length, C in X. exact X. }
      rewrite X. cbn [obnd].
      destruct (blit_start (map Some l ++ rest) (new_heap V dflt (suggest n))) as (c & -> & Q); [rewrite app_length, map_length, new_heap_length; lia|].
      rewrite app_length, map_length, new_heap_length in Q. eexists; split; [reflexivity|]. split; [|auto]. rewrite <- app_assoc. apply heap_holds; auto. rewrite app_length. lia.
    - destruct (blit_start (v_stack v) (new_heap V dflt (suggest n))) as (c & -> & Q); [rewrite new_heap_length; lia|]. rewrite new_heap_length in Q.
      eexists; split; [reflexivity|]. split; [|auto]. replace (v_stack v ++ c) with (map Some l ++ (rest ++ c)) by (rewrite F, app_assoc; reflexivity). apply heap_holds; auto.
      rewrite F, app_length, map_length in Q. rewrite app_length. lia.
  Qed.
  Lemma push_holds : forall v l x, holds v l -> exists v', sv_push V dflt v x = Some v' /\ holds v' (l ++ [x]).
  Proof.
    intros v l x H. unfold sv_push.
    assert (P : exists v1, (if Nat.leb (v_cap v) (v_size v) then sv_reallocate V dflt v (v_size v + 1) else Some v) = Some v1 /\ holds v1 l /\ v_size v1 < v_cap v1).
    { destruct (Nat.leb_spec (v_cap v) (v_size v)).
      - pose proof H as (rest & A & B & C & D). destruct (reallocate_holds v l (v_size v + 1) H ltac:(lia)) as (v1 & -> & H1 & L & S). exists v1. repeat split; auto. lia.
      - exists v. auto. }
    destruct P as (v1 & -> & H1 & L). cbn [obnd]. destruct (data_holds v1 l H1) as (rest & -> & B & C & K). cbn [obnd]. rewrite B.
    destruct rest as [|y rest]; [cbn in C; lia|]. 
    change (y :: rest) with ([y] ++ rest). rewrite blit_list by reflexivity. cbn [option_map]. eexists; split; [reflexivity|].
    specialize (K (l ++ [x]) rest). rewrite map_app in K. cbn [map] in K. rewrite <- app_assoc in K.
    replace (length l + 1) with (length (l ++ [x])) by (rewrite app_length; reflexivity). apply K.
    rewrite !app_length, map_length. cbn in *. lia.
  Qed.
  Lemma with_size_holds : forall v l a b, holds v l -> l = a ++ b -> holds (with_size v (length a)) a.
  Proof.
    intros v l a b (rest & A & B & C & D) ->. exists (map Some b ++ rest). cbn [with_size v_heap v_stack v_size v_cap v_on_heap].
    rewrite app_length, map_length. rewrite app_length in C. rewrite map_app, <- app_assoc in D. repeat split; auto. lia.
  Qed.
  Lemma set_holds : forall v a y b x, holds v (a ++ y :: b) -> exists v', sv_set V v (length a) x = Some v' /\ holds v' (a ++ x :: b).
  Proof.
    intros v a y b x H. destruct (data_holds _ _ H) as (rest & D & S & C & K). unfold sv_set. rewrite D. cbn [obnd].
    assert (E : map Some (a ++ y :: b) ++ rest = map Some a ++ [Some y] ++ (map Some b ++ rest)) by (rewrite map_app; cbn; rewrite <- app_assoc; reflexivity).
    rewrite E, blit_list by reflexivity. cbn [option_map]. eexists; split; [reflexivity|].
    specialize (K (a ++ x :: b) rest). rewrite map_app in K. cbn [map] in K. rewrite <- app_assoc in K. cbn [app] in *.
    assert (F : length (a ++ y :: b) = length (a ++ x :: b)) by (rewrite !app_length; reflexivity).
    rewrite F in S, C. rewrite <- S in K. unfold with_size, with_data in *. destruct (v_on_heap v) eqn:W; cbn in *; rewrite S in *; apply K; rewrite <- C; rewrite !app_length; cbn; rewrite !app_length, !map_length; lia.
  Qed.
  Lemma insert_holds : forall v a b l, holds v (a ++ b) -> exists v', sv_insert V dflt v (length a) l = Some v' /\ holds v' (a ++ l ++ b).
  Proof.
    intros v a b l H. destruct (data_holds _ _ H) as (rest & D & S & C & K). unfold sv_insert. rewrite D. cbn [obnd]. rewrite S.
    assert (LS : length (v_stack v) = N) by (destruct H as (? & ? & _); auto).
    assert (E : map Some (a ++ b) ++ rest = map Some a ++ map Some b ++ rest) by (rewrite map_app, <- app_assoc; reflexivity).
    rewrite E. rewrite app_length in *. destruct (Nat.leb_spec (length a + length b + length l) (v_cap v)) as [L|L].
    - assert (R : exists c, length c + length a + length l + length b = v_cap v /\ exists q, length q = length l /\
        (if Nat.eqb (length a) (length a + length b) then Some (map Some a ++ map Some b ++ rest)
         else obnd (slice (length a) (length a + length b) (map Some a ++ map Some b ++ rest)) (fun tail => blit tail (length a + length l) (map Some a ++ map Some b ++ rest)))
        = Some (map Some a ++ q ++ map Some b ++ c)).
      { destruct (cut rest (length l)) as (q & c & -> & Q); [lia|]. destruct (Nat.eqb_spec (length a) (length a + length b)) as [Z|Z].
        - destruct b; [|cbn in Z; lia]. exists c. rewrite app_length in C. split; [cbn in *; lia|]. exists q. split; auto.
        - rewrite slice_list_mid. cbn [obnd].
          destruct (cut (map Some b ++ q ++ c) (length l)) as (q' & c' & G & Q'); [rewrite !app_length, map_length; lia|]. rewrite G.
          assert (LG : length b + length q + length c = length q' + length c') by (rewrite <- (map_length Some b), <- !app_length, <- app_assoc, G; reflexivity).
          destruct (cut c' (length b)) as (b' & c'' & -> & B'); [lia|].
          exists c''. rewrite !app_length in *. split; [lia|]. exists q'. split; auto.
          rewrite app_assoc. replace (length a + length l) with (length (map Some a ++ q')) by (rewrite app_length, map_length; lia).
          rewrite blit_mid by (rewrite map_length; auto). rewrite <- app_assoc. reflexivity. }
      destruct R as (c & LC & q & LQ & ->). cbn [obnd]. rewrite blit_list by (rewrite map_length; auto). cbn [option_map].
      eexists; split; [reflexivity|]. specialize (K (a ++ l ++ b) c). rewrite !map_app, <- !app_assoc in K. rewrite !app_length in K.
      replace (length a + length b + length l) with (length a + (length l + length b)) by lia. apply K. rewrite !map_length. lia.
    - set (cap := suggest (length a + length b + length l)). assert (LC : length a + length b + length l <= cap) by apply suggest_ge.
      rewrite slice_list. cbn [obnd].
      destruct (blit_start (map Some a) (new_heap V dflt cap)) as (c1 & -> & Q1); [rewrite map_length, new_heap_length; lia|]. cbn [obnd]. rewrite map_length, new_heap_length in Q1.
      destruct (cut c1 (length l)) as (q & c2 & -> & Q); [lia|]. rewrite app_length in Q1.
      rewrite blit_list by (rewrite map_length; auto). cbn [obnd].
      destruct (Nat.eqb_spec (length a) (length a + length b)) as [Z|Z].
      + destruct b; [|cbn in Z; lia]. cbn [option_map]. eexists; split; [reflexivity|]. rewrite app_nil_r.
        rewrite app_assoc, <- map_app. apply heap_holds; auto; rewrite app_length; cbn in *; lia.
      + rewrite slice_list_mid. cbn [obnd]. destruct (cut c2 (length b)) as (q2 & c3 & -> & Q2); [lia|]. rewrite app_length in Q1.
        rewrite app_assoc. replace (length a + length l) with (length (map (@Some V) a ++ map (@Some V) l)) by (rewrite app_length, !map_length; lia).
        rewrite blit_mid by (rewrite map_length; auto). cbn [option_map]. eexists; split; [reflexivity|].
        replace ((map Some a ++ map Some l) ++ map Some b ++ c3) with (map Some (a ++ l ++ b) ++ c3) by (rewrite !map_app, <- !app_assoc; reflexivity).
        apply heap_holds; auto; rewrite !app_length, ?map_length; lia.
  Qed.
  Lemma erase_holds : forall v a b c, holds v (a ++ b ++ c) -> exists v', sv_erase V v (length a) (length a + length b) = Some v' /\ holds v' (a ++ c).
  Proof.
    intros v a b c H. destruct (data_holds _ _ H) as (rest & D & S & C & K). unfold sv_erase. rewrite D. cbn [obnd]. rewrite S.
    assert (E : map Some (a ++ b ++ c) ++ rest = map Some a ++ map Some b ++ map Some c ++ rest) by (rewrite !map_app, <- !app_assoc; reflexivity).
    rewrite E. rewrite !app_length in *.
    assert (X : slice (length a + length b) (length a + (length b + length c)) (map Some a ++ map Some b ++ map Some c ++ rest) = Some (map Some c)).
    { replace (map Some a ++ map Some b ++ map Some c ++ rest) with ((map Some a ++ map Some b) ++ map Some c ++ rest) by (rewrite <- app_assoc; reflexivity).
      pose proof (slice_mid (map Some a ++ map Some b) (map Some c) rest) as Z. rewrite app_length, !map_length in Z. rewrite <- Z. f_equal. lia. }
    rewrite X. cbn [obnd].
    destruct (cut (map Some b ++ map Some c ++ rest) (length c)) as (q & c' & G & Q); [rewrite !app_length, !map_length; lia|]. rewrite G.
    rewrite blit_list by (rewrite map_length; auto). cbn [option_map]. eexists; split; [reflexivity|].
    specialize (K (a ++ c) c'). rewrite map_app, <- app_assoc in K.
    replace (length a + (length b + length c) - (length a + length b - length a)) with (length (a ++ c)) by (rewrite app_length; lia). apply K.
    assert (LG : length b + (length c + length rest) = length q + length c') by (rewrite <- (map_length Some b), <- (map_length Some c), <- !app_length, G; reflexivity).
    rewrite !app_length, !map_length. lia.
  Qed.
  Lemma swap_holds : forall v r k l, holds v k -> holds r l -> exists v' r', sv_swap V v r = Some (v', r') /\ holds v' l /\ holds r' k.
  Proof.
    intros v r k l (rv & A & B & C & D) (rr & A' & B' & C' & D'). unfold sv_swap. rewrite B, B'.
    destruct D as [[D E]|(D & E & F & G)], D' as [[D' E']|(D' & E' & F' & G')]; rewrite D, D'.
    - eexists _, _. split; [reflexivity|]. rewrite E, E'. split; apply heap_holds; auto.
    - rewrite F'. rewrite slice_list. cbn [obnd].
      destruct (blit_start (map Some l) (v_stack v)) as (c & -> & Q); [rewrite map_length; lia|]. rewrite map_length in Q. cbn [option_map].
      eexists _, _. split; [reflexivity|]. split; [apply stack_holds; auto; lia|]. apply heap_holds; auto. congruence.
    - rewrite F. rewrite slice_list. cbn [obnd].
      destruct (blit_start (map Some k) (v_stack r)) as (c & -> & Q); [rewrite map_length; lia|]. rewrite map_length in Q. cbn [option_map].
      eexists _, _. split; [reflexivity|]. split; [apply heap_holds; auto; congruence|]. apply stack_holds; auto; lia.
    - rewrite E, E', F, F'. destruct (Nat.le_gt_cases (length k) (length l)) as [L|L].
      + rewrite Nat.min_l by auto.
        assert (X : exists l1 l2, l = l1 ++ l2 /\ length l1 = length k).
        { exists (firstn (length k) l), (skipn (length k) l). split; [symmetry; apply firstn_skipn | apply firstn_length_le; auto]. }
        destruct X as (l1 & l2 & -> & X). rewrite map_app, <- app_assoc. rewrite slice_list. cbn [obnd].
        rewrite slice_len by auto. cbn [obnd].
        rewrite blit_front by (rewrite !map_length; auto). cbn [obnd]. rewrite blit_front by (rewrite !map_length; auto). cbn [obnd].
        rewrite Nat.ltb_irrefl. rewrite app_length in *. destruct (Nat.ltb_spec (length k) (length l1 + length l2)) as [M|M].
        * replace (length k + 0) with (length k) by lia. rewrite slice_len_mid by (auto; lia). cbn [obnd].
          destruct (cut rv (length l2)) as (q & c & -> & Q); [lia|]. rewrite app_length in C. rewrite blit_len by (rewrite ?map_length; auto). cbn [option_map].
          eexists _, _. split; [reflexivity|]. split.
          -- rewrite app_assoc, <- map_app. apply stack_holds; rewrite ?app_length, ?map_length; lia.
          -- apply stack_holds; rewrite ?app_length, ?map_length; lia.
        * assert (l2 = []) by (destruct l2; auto; cbn in M; lia). subst. cbn [map app]. eexists _, _. split; [reflexivity|]. rewrite app_nil_r. cbn in *. split; apply stack_holds; lia.
      + rewrite Nat.min_r by lia.
        assert (X : exists k1 k2, k = k1 ++ k2 /\ length k1 = length l).
        { exists (firstn (length l) k), (skipn (length l) k). split; [symmetry; apply firstn_skipn | apply firstn_length_le; lia]. }
        destruct X as (k1 & k2 & -> & X). rewrite map_app, <- app_assoc. rewrite slice_len by auto. cbn [obnd].
        rewrite slice_list. cbn [obnd].
        rewrite blit_front by (rewrite !map_length; auto). cbn [obnd]. rewrite blit_front by (rewrite !map_length; auto). cbn [obnd].
        rewrite app_length in *. replace (length l <? length k1 + length k2) with true by (symmetry; apply Nat.ltb_lt; lia).
        rewrite slice_len_mid by (auto; lia). cbn [obnd].
        destruct (cut rr (length k2)) as (q & c & -> & Q); [lia|]. rewrite app_length in C'. rewrite blit_len by (rewrite ?map_length; auto). cbn [option_map].
        eexists _, _. split; [reflexivity|]. split.
        * apply stack_holds; rewrite ?app_length, ?map_length; lia.
        * rewrite app_assoc, <- map_app. apply stack_holds; rewrite ?app_length, ?map_length; lia.
  Qed.
  (** reading *)
  Lemma all_some_map : forall l : list V, all_some (map Some l) = Some l.
  Proof. induction l as [|x l IH]; cbn; auto. rewrite IH. reflexivity. Qed.
  Lemma contents_holds : forall v l, holds v l -> sv_contents v = Some l.
  Proof.
    intros v l H. destruct (data_holds _ _ H) as (rest & D & S & C & K). unfold sv_contents. rewrite D. cbn [obnd]. rewrite S, slice_list. apply all_some_map.
  Qed.
  Lemma get_holds : forall v l k, holds v l -> k < length l -> sv_get v k = nth_error l k.
  Proof.
    intros v l k H L. destruct (data_holds _ _ H) as (rest & D & S & C & K). unfold sv_get. rewrite D. cbn [obnd]. rewrite nth_error_app1 by (rewrite map_length; auto).
    rewrite nth_error_map. destruct (nth_error l k) eqn:E; auto.
  Qed.
  Lemma rev_loop_holds : forall l rest : cells, forall k a b, l = map Some (a ++ b) ++ rest -> length a = k -> rev_loop l k = Some (rev a).
  Proof.
    intros l rest. induction k as [|k IH]; intros a b E L.
    - destruct a; [reflexivity|discriminate].
    - destruct (@exists_last _ a) as (a' & x & ->); [destruct a; [discriminate|congruence]|]. rewrite app_length in L. cbn in L. cbn [rev_loop].
      assert (nth_error l k = Some (Some x)) as ->.
      { rewrite E, !map_app. rewrite nth_error_app1 by (rewrite app_length, app_length, !map_length; cbn; lia). rewrite nth_error_app1 by (rewrite app_length, !map_length; cbn; lia).
        rewrite nth_error_app2 by (rewrite map_length; lia). rewrite map_length. replace (k - length a') with 0 by lia. reflexivity. }
      rewrite (IH a' (x :: b)); [|rewrite E, <- app_assoc; reflexivity|lia]. cbn. rewrite rev_app_distr. reflexivity.
  Qed.
  Lemma reversed_holds : forall v l, holds v l -> sv_reversed v = Some (rev l).
  Proof.
    intros v l H. destruct (data_holds _ _ H) as (rest & D & S & C & K). unfold sv_reversed. rewrite D. cbn [obnd]. rewrite S. apply (rev_loop_holds _ rest _ _ []); auto. rewrite app_nil_r. reflexivity.
  Qed.
  (** whole programs *)
  Notation all_hold := (Forall2 holds).
  Lemma hold_nth : forall s r i l, all_hold s r -> nth_error r i = Some l -> exists v, nth_error s i = Some v /\ holds v l.
  Proof.
    intros s r i l H. revert i. induction H; intros [|i] E; cbn in *; try discriminate; eauto. injection E as <-. eauto.
  Qed.
  Lemma hold_upd : forall s r i v l, all_hold s r -> holds v l -> i < length r -> all_hold (upd i v s) (update V i l r).
  Proof.
    intros s r i v l H. revert i. induction H; intros [|i] P L; cbn in *; try lia; constructor; auto. apply IHForall2; auto. lia.
  Qed.
  Lemma hold_app : forall s r v l, all_hold s r -> holds v l -> all_hold (s ++ [v]) (r ++ [l]).
  Proof. intros s r v l H K. apply Forall2_app; auto. Qed.
  Lemma upd_same : forall (A : Type) i (l : list A) x, nth_error l i = Some x -> upd i x l = l.
  Proof. induction i; intros [|y l] x E; cbn in *; try discriminate; [injection E as ->; auto|]. rewrite IHi; auto. Qed.
  Lemma update_same : forall i l x, nth_error l i = Some x -> update V i x l = l.
  Proof. intros i l x E. unfold update. revert i E. induction l as [|y l IH]; intros [|i] E; cbn in *; try discriminate; [injection E as ->; auto|]. rewrite IH; auto. Qed.
  Lemma some_lt : forall (A : Type) (l : list A) i x, nth_error l i = Some x -> i < length l.
  Proof. intros. apply nth_error_Some. congruence. Qed.
  Lemma update_length : forall i l x, i < length l -> length (update V i x l) = length l.
  Proof. intros i l x L. unfold update. rewrite app_length. cbn [length]. rewrite firstn_length, skipn_length. lia. Qed.
  Lemma upd_nth_other : forall (A : Type) (l : list A) i j x, i <> j -> nth_error (upd i x l) j = nth_error l j.
  Proof. induction l as [|y l IH]; intros [|i] [|j] x N0; cbn; auto; try lia. Qed.
  Lemma on1_holds : forall s r i l l' f, all_hold s r -> nth_error r i = Some l -> (forall v, holds v l -> exists v', f v = Some v' /\ holds v' l') ->
    exists s', on1 V s i f = Some s' /\ all_hold s' (update V i l' r).
  Proof.
    intros s r i l l' f H E F. destruct (hold_nth _ _ _ _ H E) as (v & Q & P). destruct (F v P) as (v' & G & P'). unfold on1. rewrite Q. cbn [obnd]. rewrite G. cbn.
    eexists; split; [reflexivity|]. apply hold_upd; auto. eapply some_lt; eauto.
  Qed.
  Lemma step_holds : forall s r o, all_hold s r -> can V r o -> exists s' r', sv_step V dflt N s o = Some s' /\ list_step V r o r' /\ all_hold s' r'.
  Proof.
    intros s r o H (r0 & C). destruct C as [|l|n x|i l E|i l l' E M|i j k l E E'|i j k l l' NE E E' M|i j k l NE E E'|i l x E|i l x E|i l E|i l n E|i a y b x E|i a b l E|i a b c E];
      cbn [sv_step].
    - eexists _, _. split; [reflexivity|]. split; [constructor|]. apply hold_app; auto. apply new_holds.
    - destruct (of_list_holds l) as (v & -> & P). eexists _, _. split; [reflexivity|]. split; [constructor|]. apply hold_app; auto.
    - unfold sv_fill. destruct (of_list_holds (repeat x n)) as (v & -> & P). eexists _, _. split; [reflexivity|]. split; [constructor|]. apply hold_app; auto.
    - destruct (hold_nth _ _ _ _ H E) as (v & -> & P). cbn [obnd]. destruct (copy_holds v l P) as (v' & -> & P'). eexists _, _. split; [reflexivity|]. split; [constructor; eauto|]. apply hold_app; auto.
    - destruct (hold_nth _ _ _ _ H E) as (v & -> & P). cbn [obnd]. destruct (move_holds v l P) as (v' & r' & l2 & -> & P' & P2 & M').
      eexists _, _. split; [reflexivity|]. split; [econstructor; eauto|]. cbn [fst snd]. apply hold_app; auto. apply hold_upd; auto. eapply some_lt; eauto.
    - destruct (Nat.eqb_spec i j) as [->|NE].
      + eexists _, _. split; [reflexivity|]. split; [econstructor; eauto|]. rewrite update_same; auto.
      + destruct (hold_nth _ _ _ _ H E') as (v & -> & P). cbn [obnd].
        destruct (on1_holds s r i k l (fun w => sv_assign V dflt w v) H E) as (s' & -> & Q).
        { intros w W. eapply assign_holds; eauto. destruct W as (? & ? & _); auto. }
        eexists _, _. split; [reflexivity|]. split; [econstructor; eauto|]. auto.
    - destruct (hold_nth _ _ _ _ H E) as (v & Q & P), (hold_nth _ _ _ _ H E') as (w & Q' & P'). unfold on2. rewrite Q, Q'. cbn [obnd].
      destruct (move_assign_holds v w k l P P') as (v1 & w1 & l2 & -> & A & B & M'). eexists _, _. split; [reflexivity|]. split; [econstructor; eauto|]. cbn [fst snd].
      pose proof (some_lt _ _ _ _ E) as L1. pose proof (some_lt _ _ _ _ E') as L2. apply hold_upd; auto; [apply hold_upd; auto | rewrite update_length; auto].
    - destruct (hold_nth _ _ _ _ H E) as (v & Q & P), (hold_nth _ _ _ _ H E') as (w & Q' & P'). unfold on2. rewrite Q, Q'. cbn [obnd].
      destruct (swap_holds v w k l P P') as (v1 & w1 & -> & A & B). eexists _, _. split; [reflexivity|]. split; [econstructor; eauto|]. cbn [fst snd].
      pose proof (some_lt _ _ _ _ E) as L1. pose proof (some_lt _ _ _ _ E') as L2. apply hold_upd; auto; [apply hold_upd; auto | rewrite update_length; auto].
    - destruct (on1_holds s r i l (l ++ [x]) (fun v => sv_push V dflt v x) H E) as (s' & -> & Q); [intros; apply push_holds; auto|]. eexists _, _. split; [reflexivity|]. split; [econstructor; eauto|]. auto.
    - destruct (on1_holds s r i _ l (fun v => Some (sv_pop V v)) H E) as (s' & -> & Q).
      { intros v P. eexists; split; [reflexivity|]. unfold sv_pop. pose proof P as (? & _ & S & _). rewrite S, app_length. cbn. replace (length l + 1 - 1) with (length l) by lia. eapply with_size_holds; eauto. }
      eexists _, _. split; [reflexivity|]. split; [econstructor; eauto|]. auto.
    - destruct (on1_holds s r i _ [] (fun v => Some (sv_clear V v)) H E) as (s' & -> & Q).
      { intros v P. eexists; split; [reflexivity|]. apply (with_size_holds v l [] l); auto. }
      eexists _, _. split; [reflexivity|]. split; [econstructor; eauto|]. auto.
    - destruct (on1_holds s r i l l (fun v => sv_reserve V dflt v n) H E) as (s' & -> & Q).
      { intros v P. unfold sv_reserve. destruct (Nat.ltb_spec (v_cap v) n); [|eauto]. destruct (reallocate_holds v l n P) as (v' & -> & P' & _); eauto. }
      eexists _, _. split; [reflexivity|]. split; [econstructor; eauto|]. rewrite update_same in Q; auto.
    - destruct (on1_holds s r i _ (a ++ x :: b) (fun v => sv_set V v (length a) x) H E) as (s' & -> & Q); [intros; eapply set_holds; eauto|]. eexists _, _. split; [reflexivity|]. split; [econstructor; eauto|]. auto.
    - destruct (on1_holds s r i _ (a ++ l ++ b) (fun v => sv_insert V dflt v (length a) l) H E) as (s' & -> & Q); [intros; apply insert_holds; auto|]. eexists _, _. split; [reflexivity|]. split; [econstructor; eauto|]. auto.
    - destruct (on1_holds s r i _ (a ++ c) (fun v => sv_erase V v (length a) (length a + length b)) H E) as (s' & -> & Q); [intros; apply erase_holds; auto|]. eexists _, _. split; [reflexivity|]. split; [econstructor; eauto|]. auto.
  Qed.

  Lemma hold_views : forall s r, all_hold s r -> views V s r.
  Proof. intros s r H. unfold views. induction H; constructor; auto. apply contents_holds; auto. Qed.
  Lemma reach_holds : forall s, sreach V dflt N s -> exists r, all_hold s r.
  Proof.
    intros s H. induction H as [|s o s' H (r & IH) C E].
    - exists []. constructor.
    - destruct (step_holds s r o IH (C r (hold_views _ _ IH))) as (s2 & r2 & E2 & _ & P). exists r2. congruence.
  Qed.
  Lemma vector_is_list : forall s, sreach V dflt N s -> exists r, views V s r /\
    forall o, can V r o -> exists s' r', sv_step V dflt N s o = Some s' /\ list_step V r o r' /\ views V s' r'.
  Proof.
    intros s H. destruct (reach_holds s H) as (r & P). exists r. split; [apply hold_views; auto|]. intros o C.
    destruct (step_holds s r o P C) as (s' & r' & A & B & D). exists s', r'. split; auto. split; auto. apply hold_views; auto.
  Qed.
  Lemma vector_reads : forall s v, sreach V dflt N s -> In v s -> exists l, sv_contents v = Some l /\ v_size v = length l /\ v_size v <= v_cap v /\
    sv_reversed v = Some (rev l) /\ (forall k, k < length l -> sv_get v k = nth_error l k) /\
    (forall x l', l = x :: l' -> sv_front v = Some x) /\ (forall x l', l = l' ++ [x] -> sv_back v = Some x).
  Proof.
    intros s v H I. destruct (reach_holds s H) as (r & P). clear H.
    assert (X : exists l, holds v l). { induction P as [|a b s r A P IH]; [destruct I|]. destruct I as [->|I]; eauto. }
    destruct X as (l & X). exists l. pose proof X as (rest & A & B & C & D). split; [apply contents_holds; auto|]. split; auto. split; [lia|]. split; [apply reversed_holds; auto|].
    assert (G : forall k, k < length l -> sv_get v k = nth_error l k) by (intros; apply get_holds; auto). split; auto. split.
    - intros x l' ->. unfold sv_front. rewrite G by (cbn; lia). reflexivity.
    - intros x l' ->. unfold sv_back. rewrite B, app_length. cbn. rewrite G by (rewrite app_length; cbn; lia). rewrite nth_error_app2 by lia.
      replace (length l' + 1 - 1 - length l') with 0 by lia. reflexivity.
  Qed.
End SmallVecProofs.
(** emplacing an element of the vector itself *)
Lemma emplace_own : forall V (dflt : V) N s, sreach V dflt N s -> forall i k v x, nth_error s i = Some v -> sv_get v k = Some x -> k < v_size v ->
  sv_step V dflt N s (VEmplaceOwn i k) = if Nat.leb (v_cap v) (v_size v) && v_on_heap v then None else sv_step V dflt N s (VPush i x).
Proof.
  intros V dflt N s H i k v x E G L. cbn [sv_step]. unfold on1. rewrite E. cbn [obnd]. unfold sv_emplace_own. destruct (Nat.leb (v_cap v) (v_size v) && v_on_heap v); auto.
  unfold sv_get in G. destruct (v_data v) as [m|]; [|discriminate]. cbn [obnd] in *. destruct (nth_error m k) as [[y|]|]; try discriminate. injection G as ->. reflexivity.
Qed.
Definition own_history : list (sv_op nat) := [VOfList [5; 6; 7]; VPush 0 8].
Lemma emplace_own_refuted : exists s v, sv_run nat 0 2 [] own_history = Some s /\ nth_error s 0 = Some v /\ sv_get v 0 = Some 5 /\
  sv_step nat 0 2 s (VPush 0 5) <> None /\ sv_step nat 0 2 s (VEmplaceOwn 0 0) = None.
Proof. eexists _, _. repeat split; try reflexivity. vm_compute. discriminate. Qed.
(** crossing from the object to the heap and back: [1;2] (two elements fit), a push, a copy, an erase *)
Definition cross_history : list (sv_op nat) := [VOfList [1; 2]; VPush 0 3; VInsert 0 1 [8; 9]; VNew; VSwap 0 1; VErase 1 0 2].
Lemma cross_contents : option_map (map sv_contents) (sv_run nat 0 2 [] cross_history) = Some [Some []; Some [9; 2; 3]] /\
  option_map (map v_on_heap) (sv_run nat 0 2 [] cross_history) = Some [false; true].
Proof. split; reflexivity. Qed.
Lemma cross_reach : exists s v, sreach nat 0 2 s /\ In v s /\ sv_contents v = Some [1; 2; 3] /\ v_on_heap v = true.
Proof.
  set (v := mk_sv (Some [Some 1; Some 2; Some 3; Some 0]) [Some 1; Some 2] 3 4 true). exists [v], v.
  split; [|split; [left; reflexivity|split; reflexivity]].
  eapply (sr_step nat 0 2 _ (VPush 0 3)); [eapply (sr_step nat 0 2 [] (VOfList [1; 2])); [constructor| |reflexivity] | |reflexivity].
  - intros r _. eexists. constructor.
  - intros r R. inversion R as [|? l ? r' A B]; subst. eexists. econstructor. reflexivity.
Qed.
