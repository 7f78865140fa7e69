(** Commands by name and in order: proofs. *)
From Coq Require Import List String Arith Bool Lia Sorted.
From Verif Require Import AlgModel TensorModel UtilModel UtilSpec UtilProofs ArgModel ArgSpec ArgProofs.
Import ListNotations.
Local Open Scope string_scope.
Local Open Scope nat_scope.
Local Open Scope list_scope.

Section Call.
  Context {A K E X D L : Type}.
  Variable text : A -> option string.
  Variable rd : readers A K E X D L.
  Notation item := (item A).
  Notation given := (given text).
  Notation flagged := (flagged text).
  Notation call := (call text rd).
  Notation same_call := (same_call text).
  Notation well := (well text).
  (** the sorted arguments *)
  Record sorts (items : list item) (s : sorted A) : Prop := {
    st_inputs : so_inputs s = plains items;
    st_strict : strict (so_flags s);
    st_flags : forall n, In n (so_flags s) <-> flagged items n;
    st_params : forall n, lookup n (so_params s) = given items n }.
  Lemma sorting c items : well c items -> exists s, clean_inputs text (param_names c) (flag_names c) (written items) = Value s /\ sorts items s.
  Proof.
    intros W. destruct (sorted_items text (param_names c) (flag_names c) items W) as (s & Q & [A1 A2 A3 A4]). exists s. split; [exact Q|]. constructor; [exact A1|apply A2; constructor| |exact A4].
    intros n. rewrite A3. cbn. intuition.
  Qed.
  Lemma set_given items s n : sorts items s -> is_set s n = match given items n with Some _ => true | None => false end.
  Proof. intros S. unfold is_set. now rewrite (st_params _ _ S). Qed.
  (** names that exclude each other are not the names of parameters a command needs *)
  Definition no_key (c : command) : bool := forallb (fun p => negb (mem (fst p) (keys c)) && negb (mem (snd p) (keys c))) (exclusions c).
  Lemma no_key_all c : no_key c = true. Proof. destruct c; vm_compute; reflexivity. Qed.
  Lemma no_key_of c a b : excluded (exclusions c) a b -> ~ In a (keys c) /\ ~ In b (keys c).
  Proof.
    pose proof (no_key_all c) as N. unfold no_key in N. rewrite forallb_forall in N. intros [H|H]; specialize (N _ H); cbn [fst snd] in N; apply andb_true_iff in N; destruct N as (N1 & N2);
      apply negb_true_iff, mem_out in N1; apply negb_true_iff, mem_out in N2; auto.
  Qed.
  Lemma keys_count c : List.length (keys c) = inputs_required c. Proof. destruct c; reflexivity. Qed.
  Lemma used_given items s n : sorts items s -> (used (so_flags s) (map fst (so_params s)) n <-> flagged items n \/ given items n <> None).
  Proof. intros S. unfold used. rewrite (st_flags _ _ S), lookup_keys, (st_params _ _ S). reflexivity. Qed.
  (** whether names exclude each other *)
  Lemma same_validate c vals i1 i2 s1 s2 : same_call c vals i1 i2 -> sorts i1 s1 -> sorts i2 s2 ->
    (validate (exclusions c) (so_flags s1) (map fst (so_params s1)) = None <-> validate (exclusions c) (so_flags s2) (map fst (so_params s2)) = None).
  Proof.
    intros C S1 S2. rewrite !validate_none.
    assert (G : forall n, ~ In n (keys c) -> (used (so_flags s1) (map fst (so_params s1)) n <-> used (so_flags s2) (map fst (so_params s2)) n)).
    { intros n N. rewrite (used_given i1 s1 n S1), (used_given i2 s2 n S2), (sc_flags _ _ _ _ _ C n), (sc_other _ _ _ _ _ C n N). reflexivity. }
    split; intros H a b Ex Ua Ub; destruct (no_key_of c a b Ex) as (Na & Nb); apply (H a b Ex); apply G; assumption.
  Qed.
  Lemma same_flags c vals i1 i2 s1 s2 : same_call c vals i1 i2 -> sorts i1 s1 -> sorts i2 s2 -> so_flags s1 = so_flags s2.
  Proof.
    intros C S1 S2. apply strict_unique; [exact (st_strict _ _ S1)|exact (st_strict _ _ S2)|]. intros n. now rewrite (st_flags _ _ S1), (st_flags _ _ S2), (sc_flags _ _ _ _ _ C n).
  Qed.
  Definition outcome (o : option (nat * K * request E X D L)) : tout (nat * K * request E X D L) := match o with Some r => Value r | None => Throws end.
  (** both calls, up to what they read *)
  Lemma both c vals i1 i2 : same_call c vals i1 i2 -> exists s1 s2, sorts i1 s1 /\ sorts i2 s2 /\ so_flags s1 = so_flags s2 /\
    ((call c (written i1) = Throws /\ call c (written i2) = Throws) \/
     (call c (written i1) = outcome (bind (bind (nth_error vals 0) (rd_key rd)) (fun k => bind (extra_parse_params rd c s1) (fun r => Some (output_mode s2, k, r)))) /\
      call c (written i2) = outcome (bind (bind (nth_error vals 0) (rd_key rd)) (fun k => bind (extra_parse_inputs rd c s2) (fun r => Some (output_mode s2, k, r)))))).
  Proof.
    intros C. destruct (sc_well _ _ _ _ _ C) as (W1 & W2). destruct (sorting c i1 W1) as (s1 & E1 & S1). destruct (sorting c i2 W2) as (s2 & E2 & S2). exists s1, s2.
    pose proof (same_flags c vals i1 i2 s1 s2 C S1 S2) as Fl. repeat (split; [assumption|]).
    destruct (sc_plain _ _ _ _ _ C) as (P1 & P2). pose proof (sc_count _ _ _ _ _ C) as N. rewrite keys_count in N.
    unfold ArgModel.call. rewrite E1, E2. rewrite (st_inputs _ _ S1), (st_inputs _ _ S2), P1, P2, N. rewrite Nat.ltb_irrefl. cbn [List.length]. change (inputs_required c <? 0) with false. cbv iota.
    pose proof (same_validate c vals i1 i2 s1 s2 C S1 S2) as V.
    destruct (validate (exclusions c) (so_flags s1) (map fst (so_params s1))) as [v1|] eqn:V1; destruct (validate (exclusions c) (so_flags s2) (map fst (so_params s2))) as [v2|] eqn:V2.
    - left. split; reflexivity.
    - exfalso. pose proof (proj2 V eq_refl). discriminate.
    - exfalso. pose proof (proj1 V eq_refl). discriminate.
    - right. assert (Key : nth_error (keys c) 0 = Some "reference_id") by reflexivity. destruct (sc_named _ _ _ _ _ C 0 _ Key) as (G1 & G2).
      assert (T1 : any_param_set c s1 = true).
      { unfold any_param_set. rewrite (set_given i1 s1 "reference_id" S1), G1. destruct vals as [|v vals]; [pose proof (keys_count c) as Q; rewrite <- Q in N; discriminate|]. cbn [nth_error]. apply orb_true_r. }
      assert (T2 : any_param_set c s2 = false).
      { assert (Z : forall n, In n (keys c) -> is_set s2 n = false).
        { intros n H. apply In_nth_error in H. destruct H as (k & H). rewrite (set_given i2 s2 n S2), (proj2 (sc_named _ _ _ _ _ C k n H)). reflexivity. }
        unfold any_param_set. destruct c; rewrite ?Z by (cbn; auto); reflexivity. }
      unfold parse. rewrite T1, T2, (st_inputs _ _ S1), P1, (st_inputs _ _ S2), P2, N, Nat.eqb_refl. split.
      + unfold named. rewrite (st_params _ _ S1), G1. unfold output_mode. rewrite Fl. reflexivity.
      + unfold input at 1. rewrite (st_inputs _ _ S2), P2. reflexivity.
  Qed.
  (** what the two read *)
  Lemma reads_named c vals i1 i2 s1 s2 k n (P : Type) (f : A -> option P) : same_call c vals i1 i2 -> sorts i1 s1 -> sorts i2 s2 -> nth_error (keys c) k = Some n -> named s1 n f = input s2 k f.
  Proof.
    intros C S1 S2 H. unfold named, input. rewrite (st_params _ _ S1), (st_inputs _ _ S2), (proj2 (sc_plain _ _ _ _ _ C)), (proj1 (sc_named _ _ _ _ _ C k n H)). reflexivity.
  Qed.
  Lemma reads_other c vals i1 i2 s1 s2 n : same_call c vals i1 i2 -> sorts i1 s1 -> sorts i2 s2 -> mem n (keys c) = false -> lookup n (so_params s1) = lookup n (so_params s2).
  Proof. intros C S1 S2 H. apply mem_out in H. rewrite (st_params _ _ S1), (st_params _ _ S2). exact (sc_other _ _ _ _ _ C n H). Qed.
  Lemma same_indexing (s1 s2 : sorted A) : so_flags s1 = so_flags s2 -> indexing s1 = indexing s2 /\ expr_type s1 = expr_type s2.
  Proof. intros H. unfold indexing, expr_type. rewrite H. auto. Qed.
  Lemma reads_same c vals i1 i2 s1 s2 : c <> Commutator -> c <> Substituted -> same_call c vals i1 i2 -> sorts i1 s1 -> sorts i2 s2 -> so_flags s1 = so_flags s2 ->
    extra_parse_params rd c s1 = extra_parse_inputs rd c s2.
  Proof.
    intros N1 N2 C S1 S2 Fl. destruct (same_indexing s1 s2 Fl) as (I1 & I2). destruct c; try contradiction; cbn [extra_parse_params extra_parse_inputs].
    - now rewrite (reads_named Raw vals i1 i2 s1 s2 1 "index" _ _ C S1 S2 eq_refl).
    - rewrite (reads_named Moment vals i1 i2 s1 s2 1 "level" _ _ C S1 S2 eq_refl). unfold neighbours. now rewrite (reads_other Moment vals i1 i2 s1 s2 "neighbours" C S1 S2 eq_refl).
    - rewrite I1, I2, (reads_named Localizing vals i1 i2 s1 s2 1 "level" _ _ C S1 S2 eq_refl), (reads_named Localizing vals i1 i2 s1 s2 2 "word" _ _ C S1 S2 eq_refl).
      unfold neighbours. now rewrite (reads_other Localizing vals i1 i2 s1 s2 "neighbours" C S1 S2 eq_refl).
    - now rewrite (reads_named Extended vals i1 i2 s1 s2 1 "level" _ _ C S1 S2 eq_refl), (reads_named Extended vals i1 i2 s1 s2 2 "extensions" _ _ C S1 S2 eq_refl).
    - rewrite (reads_named Values vals i1 i2 s1 s2 1 "data" _ _ C S1 S2 eq_refl). unfold label. now rewrite (reads_other Values vals i1 i2 s1 s2 "label" C S1 S2 eq_refl).
  Qed.
  (** ** the theorems *)
  Lemma t_named c vals i1 i2 : c <> Commutator -> c <> Substituted -> same_call c vals i1 i2 -> call c (written i1) = call c (written i2).
  Proof.
    intros N1 N2 C. destruct (both c vals i1 i2 C) as (s1 & s2 & S1 & S2 & Fl & [(-> & ->)|(-> & ->)]); [reflexivity|]. now rewrite (reads_same c vals i1 i2 s1 s2 N1 N2 C S1 S2 Fl).
  Qed.
  Lemma t_commutator vals i1 i2 : same_call Commutator vals i1 i2 ->
    call Commutator (written i1) = match call Commutator (written i2) with Value (o, k, WantCommutator anti level n e) => Value (o, k, WantCommutator anti 0 n e) | other => other end.
  Proof.
    intros C. destruct (both Commutator vals i1 i2 C) as (s1 & s2 & S1 & S2 & Fl & [(-> & ->)|(-> & ->)]); [reflexivity|]. destruct (same_indexing s1 s2 Fl) as (I1 & I2).
    cbn [extra_parse_params extra_parse_inputs]. rewrite I1, I2, (reads_named Commutator vals i1 i2 s1 s2 1 "level" _ _ C S1 S2 eq_refl), (reads_named Commutator vals i1 i2 s1 s2 2 "word" _ _ C S1 S2 eq_refl), Fl.
    unfold neighbours. rewrite (reads_other Commutator vals i1 i2 s1 s2 "neighbours" C S1 S2 eq_refl).
    destruct (bind (nth_error vals 0) (rd_key rd)) as [k|]; [|reflexivity]. cbn [bind]. destruct (input s2 1 (rd_nat rd)) as [l|]; [|reflexivity]. cbn [bind].
    destruct (input s2 2 _) as [e|]; [|reflexivity]. cbn [bind]. destruct (lookup "neighbours" (so_params s2)) as [a|]; [|reflexivity]. destruct (rd_nat rd a); reflexivity.
  Qed.
  Lemma t_substituted vals i1 i2 : same_call Substituted vals i1 i2 -> forall o k m r, call Substituted (written i2) = Value (o, k, WantSubstituted m r) ->
    call Substituted (written i1) = Value (o, k, WantSubstituted m m).
  Proof.
    intros C o k m r. destruct (both Substituted vals i1 i2 C) as (s1 & s2 & S1 & S2 & Fl & [(-> & ->)|(-> & ->)]); [discriminate|]. cbn [extra_parse_params extra_parse_inputs].
    rewrite (reads_named Substituted vals i1 i2 s1 s2 1 "matrix" _ _ C S1 S2 eq_refl). rewrite (st_params _ _ S1), (proj1 (sc_named _ _ _ _ _ C 2 "rules" eq_refl)).
    unfold input at 2. rewrite (st_inputs _ _ S2), (proj2 (sc_plain _ _ _ _ _ C)).
    destruct (bind (nth_error vals 0) (rd_key rd)) as [k'|]; [|discriminate]. cbn [bind]. destruct (input s2 1 (rd_nat rd)) as [m'|]; [|discriminate]. cbn [bind].
    destruct (nth_error vals 2) as [a|]; [|discriminate]. cbn [bind]. destruct (rd_nat rd a) as [r'|]; [|discriminate]. cbn. intros [= <- <- <- <-]. reflexivity.
  Qed.
  (** a call that is accepted *)
  Lemma accepted c args o k r : call c args = Value (o, k, r) -> exists items s, args = written items /\ well c items /\ sorts items s /\
    validate (exclusions c) (so_flags s) (map fst (so_params s)) = None /\ parse rd c s = Some (o, k, r).
  Proof.
    unfold ArgModel.call. destruct (clean_inputs text (param_names c) (flag_names c) args) as [s| |] eqn:Q; try discriminate. intros H.
    destruct (t_accepted text (param_names c) (flag_names c) args s Q) as (items & -> & W). destruct (sorting c items W) as (s' & Q' & S). rewrite Q' in Q. injection Q as ->. exists items, s.
    destruct (inputs_required c <? List.length (so_inputs s)); [discriminate|]. destruct (validate (exclusions c) (so_flags s) (map fst (so_params s))); [discriminate|].
    destruct (parse rd c s) as [x|]; [|discriminate]. injection H as ->. auto.
  Qed.
  Lemma written_same c items items' : well c items -> well c items' -> written items = written items' -> items = items'.
  Proof.
    intros W. revert items'. induction W as [|i items F W IH]; intros items' W' Q.
    - destruct W' as [|[a v|a|x] items' F' W']; [reflexivity|discriminate|discriminate|discriminate].
    - destruct W' as [|i' items' F' W']; [destruct i; discriminate|]. destruct i as [a v|a|x], i' as [a' v'|a'|x']; cbn [ArgSpec.written flat_map app] in Q; cbn [fits] in F, F'.
      + injection Q as -> -> Q. f_equal. now apply IH.
      + exfalso. injection Q as -> Q. destruct F as (n & T & P). destruct F' as (n' & T' & P' & _). congruence.
      + exfalso. injection Q as -> Q. destruct F as (n & T & P). now destruct (F' n T).
      + exfalso. injection Q as -> Q. destruct F' as (n & T & P). destruct F as (n' & T' & P' & _). congruence.
      + injection Q as -> Q. f_equal. now apply IH.
      + exfalso. injection Q as -> Q. destruct F as (n & T & P & G). now destruct (F' n T).
      + exfalso. injection Q as -> Q. destruct F' as (n & T & P). now destruct (F n T).
      + exfalso. injection Q as -> Q. destruct F' as (n & T & P & G). now destruct (F n T).
      + injection Q as -> Q. f_equal. now apply IH.
  Qed.
  Lemma accepted_items c items o k r : well c items -> call c (written items) = Value (o, k, r) -> exists s, sorts items s /\
    validate (exclusions c) (so_flags s) (map fst (so_params s)) = None /\ parse rd c s = Some (o, k, r).
  Proof.
    intros W H. destruct (accepted c _ o k r H) as (items' & s & Q & W' & S & V & P). rewrite <- (written_same c items items' W W' Q) in *. eauto.
  Qed.
  Lemma t_exclusive c items o k r a b : well c items -> call c (written items) = Value (o, k, r) -> excluded (exclusions c) a b -> flagged items a -> flagged items b -> False.
  Proof.
    intros W H Ex Ha Hb. destruct (accepted_items c items o k r W H) as (s & S & V & _). rewrite validate_none in V. apply (V a b Ex); apply (used_given items s _ S); now left.
  Qed.
  (** either all by name, or all in order *)
  Lemma t_complete c items o k r : well c items -> call c (written items) = Value (o, k, r) ->
    (plains items = [] /\ forall n, In n (keys c) -> given items n <> None) \/ (List.length (plains items) = List.length (keys c) /\ forall n, In n (keys c) -> given items n = None).
  Proof.
    intros W H. destruct (accepted_items c items o k r W H) as (s & S & _ & P). unfold parse in P. destruct (any_param_set c s) eqn:T.
    - left. rewrite (st_inputs _ _ S) in P. destruct (plains items); [|discriminate]. split; [reflexivity|].
      assert (G : forall n (B : Type) (f : A -> option B) x, named s n f = Some x -> given items n <> None) by (intros n B f x; unfold named; rewrite (st_params _ _ S); destruct (given items n); [discriminate|discriminate]).
      destruct (named s "reference_id" (rd_key rd)) as [k'|] eqn:Q0; [|discriminate]. cbn [bind] in P. destruct (extra_parse_params rd c s) as [r'|] eqn:Q1; [|discriminate].
      pose proof (G _ _ _ _ Q0) as G0.
      assert (G1 : forall n, In n (tl (keys c)) -> given items n <> None).
      { destruct c; cbn [extra_parse_params keys tl] in *; intros n Hn.
        - destruct (named s "index" (rd_nat rd)) eqn:Q; [|discriminate]. destruct Hn as [<-|[]]. exact (G _ _ _ _ Q).
        - destruct (named s "level" (rd_nat rd)) eqn:Q; [|discriminate]. destruct Hn as [<-|[]]. exact (G _ _ _ _ Q).
        - destruct (named s "level" (rd_nat rd)) eqn:Q; [|discriminate]. cbn [bind] in Q1. destruct (named s "word" _) eqn:Q2; [|discriminate]. destruct Hn as [<-|[<-|[]]]; [exact (G _ _ _ _ Q)|exact (G _ _ _ _ Q2)].
        - destruct (named s "level" (rd_nat rd)) eqn:Q; [|discriminate]. cbn [bind] in Q1. destruct (named s "word" _) eqn:Q2; [|discriminate]. destruct Hn as [<-|[<-|[]]]; [exact (G _ _ _ _ Q)|exact (G _ _ _ _ Q2)].
        - destruct (named s "level" (rd_nat rd)) eqn:Q; [|discriminate]. cbn [bind] in Q1. destruct (named s "extensions" _) eqn:Q2; [|discriminate]. destruct Hn as [<-|[<-|[]]]; [exact (G _ _ _ _ Q)|exact (G _ _ _ _ Q2)].
        - destruct (named s "data" (rd_data rd)) eqn:Q; [|discriminate]. destruct Hn as [<-|[]]. exact (G _ _ _ _ Q).
        - destruct (named s "matrix" (rd_nat rd)) eqn:Q; [|discriminate]. cbn [bind] in Q1. destruct (lookup "rules" (so_params s)) eqn:Q2; [|discriminate]. destruct Hn as [<-|[<-|[]]]; [exact (G _ _ _ _ Q)|].
          rewrite (st_params _ _ S) in Q2. congruence. }
      intros n [<-|Hn]; [exact G0|now apply G1].
    - right. rewrite (st_inputs _ _ S) in P. rewrite keys_count. destruct (Nat.eqb_spec (List.length (plains items)) (inputs_required c)) as [Q|Q]; [|discriminate]. split; [exact Q|].
      assert (G : forall n, is_set s n = false -> given items n = None) by (intros n; rewrite (set_given items s n S); destruct (given items n); [discriminate|reflexivity]).
      unfold any_param_set in T. apply orb_false_iff in T. destruct T as (T1 & T0).
      intros n [<-|Hn]; [now apply G|]. destruct c; cbn in Hn; repeat (apply orb_false_iff in T1; destruct T1 as (T1 & ?)); repeat (destruct Hn as [<-|Hn]; [now apply G|]); destruct Hn.
  Qed.
  (** the output asked for *)
  Lemma mode_at k n : In (k, n) modes <-> nth_error mode_names (k - 1) = Some n /\ 0 < k.
  Proof.
    change mode_names with ["masks"; "monomial"; "name"; "polynomial"; "properties"; "sequence_string"; "symbol_string"]. unfold modes. split.
    - intros H. cbn [In] in H. repeat (destruct H as [[= <- <-]|H]; [split; [reflexivity|lia]|]). destruct H.
    - intros (H & Lk). destruct k as [|k]; [lia|]. replace (S k - 1) with k in H by lia. do 7 (destruct k as [|k]; [cbn in H; injection H as <-; cbn; tauto|]). cbn in H. destruct k; discriminate.
  Qed.
  Lemma mode_modes_excluded c m n m' n' : In (m, n) modes -> In (m', n') modes -> m <> m' -> excluded (exclusions c) n n'.
  Proof.
    intros H H' N. apply mode_at in H, H'. destruct H as (H & Lm), H' as (H' & Lm'). assert (K0 : excluded (exclude_all mode_names) n n') by (apply (all_excluded mode_names (m - 1) (m' - 1)); [lia|assumption|assumption]).
    unfold excluded in *. unfold exclusions. destruct K0 as [K0|K0]; [left|right]; apply in_or_app; now left.
  Qed.
  Lemma t_mode c items o k r : well c items -> call c (written items) = Value (o, k, r) ->
    (forall m n, In (m, n) modes -> flagged items n -> o = m) /\ ((forall m n, In (m, n) modes -> ~ flagged items n) -> o = 5).
  Proof.
    intros W H. pose proof (t_exclusive c items o k r) as X1. destruct (accepted_items c items o k r W H) as (s & S & _ & P).
    assert (Em : o = output_mode s).
    { unfold parse in P. destruct (any_param_set c s).
      - destruct (so_inputs s); [|discriminate]. destruct (named s "reference_id" (rd_key rd)); [|discriminate]. cbn [bind] in P. destruct (extra_parse_params rd c s); [|discriminate]. cbn in P. now injection P as <- _ _.
      - destruct (_ =? _); [|discriminate]. destruct (input s 0 (rd_key rd)); [|discriminate]. cbn [bind] in P. destruct (extra_parse_inputs rd c s); [|discriminate]. cbn in P. now injection P as <- _ _. }
    assert (Q : match first_intersection_index String.ltb (so_flags s) mode_names with
      | Some i => exists n, nth_error mode_names i = Some n /\ flagged items n
      | None => forall n, In n mode_names -> ~ flagged items n end).
    { assert (Asc : forall l, strict l -> ascending String.ltb l).
      { intros l. induction 1 as [|a l St IH F]; constructor; [exact IH|]. rewrite Forall_forall in *. intros b Hb. destruct (String.ltb b a) eqn:Z; [|reflexivity]. pose proof (ltb_trans _ _ _ (F b Hb) Z) as Z'. now rewrite ltb_irr in Z'. }
      pose proof (intersection_spec String.ltb ltb_weak (so_flags s) (Asc _ (st_strict _ _ S)) mode_names 0 (Asc _ (proj1 (set_strict _)))) as Sp.
      assert (In_ : forall b, in_test String.ltb (so_flags s) b <-> flagged items b).
      { intros b. rewrite <- (st_flags _ _ S). split; [intros (a & Ha & (Z1 & Z2)); now rewrite <- (ltb_total a b Z1 Z2)|intros Hb; exists b; split; [exact Hb|split; apply ltb_irr]]. }
      unfold first_intersection_index. destruct (first_intersection String.ltb (so_flags s) mode_names 0) as [i|].
      - destruct Sp as (j & b & -> & Nb & Tb & _). exists b. split; [exact Nb|now apply In_].
      - intros n Hn. rewrite <- In_. exact (Sp n Hn). }
    unfold output_mode in Em. destruct (first_intersection_index String.ltb (so_flags s) mode_names) as [i|].
    - destruct Q as (n0 & N0 & F0). assert (M0 : In (i + 1, n0) modes) by (apply mode_at; split; [replace (i + 1 - 1) with i by lia; exact N0|lia]). subst o. split.
      + intros m n Hm Hf. destruct (Nat.eq_dec (i + 1) m) as [Z|Z]; [exact Z|]. exfalso. exact (X1 n0 n W H (mode_modes_excluded c _ _ _ _ M0 Hm Z) F0 Hf).
      + intros Z. destruct (Z _ _ M0 F0).
    - subst o. split; [|reflexivity]. intros m n Hm Hf. exfalso. apply (Q n); [|exact Hf]. apply mode_at in Hm. destruct Hm as (Hm & _). now apply nth_error_In in Hm.
  Qed.
End Call.
