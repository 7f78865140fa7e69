(** Imports: what they say about the symbols, and when they are refused. *)
From Coq Require Import List NArith ZArith Arith Bool Lia Field.
From Verif Require Import CoreModel CoreSpec FieldModel FieldProofs SymModel SymSpec SymProofs SymFinalProofs SymMoreProofs PolyModel PolySpec PolyTableProofs BasModel BasSpec BasFinalProofs ImpModel ImpSpec ImpProofs.
Import ListNotations.

Lemma imported_lawful : lawful imported_sctx imported_words.
Proof.
  constructor; cbn [cx_conj cx_moment imported_sctx].
  - intros q [-> | ->]; [now left|now right].
  - auto.
  - auto.
  - intros q [-> | ->]; reflexivity.
  - intros a b [-> | ->] [-> | ->]; cbn; congruence.
  - split; [now left|reflexivity].
  - split; [now right|reflexivity].
  - auto.
  - intros q [-> | ->]; reflexivity.
Qed.

(** tables: made by updates of the flags alone *)
Definition bits_op (o : op) : Prop := match o with OBits _ _ => True | _ => False end.
Definition imported_table (t : table) : Prop := exists l, Forall bits_op l /\ run_ops imported_sctx table_start l = Done t tt.
Lemma bits_ok l : Forall bits_op l -> Forall (op_ok imported_sctx imported_words) l /\ Forall creates l.
Proof. intro F. split; eapply Forall_impl; try exact F; intros [] H; cbn in *; tauto. Qed.
Lemma imported_clean t : imported_table t -> reachable_clean imported_sctx imported_words t.
Proof. intros (l & F & E). exists l. split; [apply bits_ok; exact F|exact E]. Qed.
Lemma imported_good t : imported_table t -> starts t /\ no_null t.
Proof. intros (l & F & E). destruct (bits_ok l F). eapply session_no_null; eauto. apply imported_lawful. Qed.
Lemma run_ops_app c l l' : forall t, run_ops c t (l ++ l') = match run_ops c t l with Done t' _ => run_ops c t' l' | x => x end.
Proof. induction l as [|o l IH]; intro t; cbn; [reflexivity|]. destruct (run_op c t o); auto. Qed.
Lemma imported_more t re im t' b : imported_table t -> merge_bits t re im = Done t' b -> imported_table t'.
Proof.
  intros (l & F & E) M. exists (l ++ [OBits re im]). split; [apply Forall_app; split; [exact F|constructor; [exact I|constructor]]|].
  rewrite run_ops_app, E. cbn. now rewrite M.
Qed.
Lemma imported_start : imported_table table_start.
Proof. exists []. split; [constructor|reflexivity]. Qed.
Lemma imported_ids t i s : imported_table t -> nth_error (t_syms t) i = Some s -> sy_id s = i.
Proof. intros T N. exact (hi_id _ _ t (reachable_hinv _ _ imported_lawful t (clean_reachable _ _ _ (imported_clean t T))) i s N). Qed.

(** the loop over the flags *)
Lemma flag_loop_defined re im todo : forall done ch, (forall s, In s todo -> sy_id s < length re /\ sy_id s < length im) -> snd (flag_loop re im done todo ch) = false.
Proof.
  induction todo as [|s todo IH]; intros done ch H; cbn [flag_loop]; [reflexivity|]. destruct (H s (or_introl eq_refl)) as [A B].
  assert (K : forall d c, snd (flag_loop re im d todo c) = false) by (intros; apply IH; intros; apply H; now right).
  destruct (Nat.eqb (sy_id s) 0); [apply K|]. destruct (nth_error re (sy_id s)) as [r|] eqn:E; [|apply nth_error_None in E; lia].
  destruct (nth_error im (sy_id s)) as [i|] eqn:E'; [|apply nth_error_None in E'; lia].
  destruct r, i; [apply K|destruct (sy_anti s); [reflexivity|apply K]|destruct (sy_herm s); [reflexivity|apply K]|reflexivity].
Qed.
Lemma flag_loop_fails re im todo : forall done ch l, flag_loop re im done todo ch = (l, None, false) ->
  exists s r i, In s todo /\ sy_id s <> 0 /\ nth_error re (sy_id s) = Some r /\ nth_error im (sy_id s) = Some i /\ sy_herm s || negb i = true /\ sy_anti s || negb r = true.
Proof.
  induction todo as [|s todo IH]; intros done ch l H; cbn [flag_loop] in H; [discriminate|].
  assert (K : forall d c, flag_loop re im d todo c = (l, None, false) -> exists s0 r i, In s0 (s :: todo) /\ sy_id s0 <> 0 /\ nth_error re (sy_id s0) = Some r /\ nth_error im (sy_id s0) = Some i /\
    sy_herm s0 || negb i = true /\ sy_anti s0 || negb r = true).
  { intros d c E. apply IH in E. destruct E as (s0 & r & i & A & B). exists s0, r, i. split; [now right|exact B]. }
  destruct (Nat.eqb_spec (sy_id s) 0); [exact (K _ _ H)|]. destruct (nth_error re (sy_id s)) as [r|] eqn:E; [|discriminate].
  destruct (nth_error im (sy_id s)) as [i|] eqn:E'; [|discriminate].
  assert (W : sy_herm s || negb i = true -> sy_anti s || negb r = true -> exists s0 r i, In s0 (s :: todo) /\ sy_id s0 <> 0 /\ nth_error re (sy_id s0) = Some r /\ nth_error im (sy_id s0) = Some i /\
    sy_herm s0 || negb i = true /\ sy_anti s0 || negb r = true).
  { intros P Q. exists s, r, i. split; [now left|]. auto. }
  destruct r, i.
  - exact (K _ _ H).
  - destruct (sy_anti s) eqn:A; [apply W; cbn; now rewrite ?orb_true_r|exact (K _ _ H)].
  - destruct (sy_herm s) eqn:A; [apply W; cbn; now rewrite ?orb_true_r|exact (K _ _ H)].
  - apply W; cbn; now rewrite orb_true_r.
Qed.
Definition grown (t : table) (n : nat) : table := if Nat.ltb (length (t_syms t)) n then fst (create_many t (n - length (t_syms t)) true true) else t.
Lemma grown_syms t n : exists l, t_syms (grown t n) = t_syms t ++ l /\ length l = n - length (t_syms t) /\ forall s, In s l -> sy_herm s = false /\ sy_anti s = false.
Proof.
  unfold grown. destruct (Nat.ltb_spec (length (t_syms t)) n) as [H|H].
  - destruct (create_loop_shape true true (n - length (t_syms t)) t) as (l & A & B & C). exists l. split; [exact A|]. split; [exact B|]. intros s Hs. destruct (C s Hs) as (X & Y & _). auto.
  - exists []. rewrite app_nil_r. cbn. split; [reflexivity|]. split; [lia|intros s []].
Qed.
Lemma grown_ids t n i s : imported_table t -> nth_error (t_syms (grown t n)) i = Some s -> sy_id s = i.
Proof.
  intro T. unfold grown. destruct (Nat.ltb (length (t_syms t)) n); [|now apply imported_ids].
  intro N. refine (hi_id _ _ _ (proj1 (create_loop_hinv imported_sctx imported_words true true _ t _)) i s N).
  exact (reachable_hinv _ _ imported_lawful t (clean_reachable _ _ _ (imported_clean t T))).
Qed.
Lemma merge_cases t re im : imported_table t -> length re = length im -> length (t_syms t) <= length re ->
  (exists t' b, merge_bits t re im = Done t' b) \/
  (exists t' id r i, merge_bits t re im = Throw t' /\ 0 < id /\ id < length re /\ nth_error re id = Some r /\ nth_error im id = Some i /\
     fst (flags_at t id) || negb i = true /\ snd (flags_at t id) || negb r = true).
Proof.
  intros T L L'. unfold merge_bits. cbv zeta. fold (grown t (length re)). destruct (flag_loop re im [] (t_syms (grown t (length re))) false) as [[l x] u] eqn:F.
  destruct (grown_syms t (length re)) as (l1 & S1 & N1 & F1).
  assert (LEN : length (t_syms (grown t (length re))) = length re) by (rewrite S1, app_length, N1; lia).
  assert (U : u = false).
  { change u with (snd (l, x, u)). rewrite <- F. apply flag_loop_defined. intros s Hs. apply In_nth_error in Hs. destruct Hs as [i Hi]. rewrite (grown_ids t _ i s T Hi).
    assert (i < length (t_syms (grown t (length re)))) by (apply nth_error_Some; congruence). lia. }
  subst u. destruct x as [b|]; [left; eauto|]. right. apply flag_loop_fails in F. destruct F as (s & r & i & A & B & C & D & P & Q).
  apply In_nth_error in A. destruct A as [k K]. rewrite (grown_ids t _ k s T K) in *. exists (set_syms (grown t (length re)) l), k, r, i.
  split; [reflexivity|]. split; [lia|]. split; [rewrite <- LEN; apply nth_error_Some; congruence|]. split; [exact C|]. split; [exact D|].
  unfold flags_at. rewrite S1 in K. destruct (le_lt_dec (length (t_syms t)) k) as [G|G].
  - rewrite (proj2 (nth_error_None _ _) G). rewrite nth_error_app2 in K by exact G. destruct (F1 s (nth_error_In _ _ K)) as [E1 E2]. now rewrite E1, E2 in *.
  - rewrite nth_error_app1 in K by exact G. now rewrite K.
Qed.

Section Run.
  Context {R : rfield}.
  Add Field Rfr : (r_field R).
  Add Field Cfr : (cx_field R).
  Notation mono := (mono R).
  Lemma assignment_flags t (v : nat -> cx R) : assignment t v <-> v 0 = c0 /\ v 1 = c1 /\ forall id, (fst (flags_at t id) = true -> cim (v id) = r0 R) /\ (snd (flags_at t id) = true -> cre (v id) = r0 R).
  Proof.
    split.
    - intros [A B C D]. split; [exact A|]. split; [exact B|]. intro id. unfold flags_at. destruct (nth_error (t_syms t) id) as [s|] eqn:E; cbn; [|split; discriminate]. split; [now apply C|now apply D].
    - intros (A & B & C). constructor; [exact A|exact B| |]; intros id s E H; destruct (C id) as [P Q]; unfold flags_at in P, Q; rewrite E in P, Q; cbn in P, Q; auto.
  Qed.
  (** flags and bits together *)
  Lemma merge_means t re im t' b (v : nat -> cx R) : imported_table t -> length re = length im -> length (t_syms t) <= length re -> merge_bits t re im = Done t' b ->
    length (t_syms t') = length re /\ (assignment t' v <-> assignment t v /\ means (re, im) v).
  Proof.
    intros T L L' M. destruct (update_flags _ _ imported_lawful t re im t' b (clean_reachable _ _ _ (imported_clean t T)) M) as (LEN & FL & _).
    rewrite Nat.max_r in LEN by exact L'. split; [exact LEN|]. rewrite !assignment_flags. unfold means. cbn [fst snd]. split.
    - intros (V0 & V1 & H). split; [split; [exact V0|split; [exact V1|intro id; split]]|split; intros id K].
      + destruct id as [|id]; [now rewrite V0|]. intro K. apply (H (S id)). assert (G : S id < length (t_syms t')).
        { rewrite LEN. assert (S id < length (t_syms t)); [|lia]. unfold flags_at in K. apply nth_error_Some. destruct (nth_error (t_syms t) (S id)); [discriminate|cbn in K; discriminate]. }
        destruct (FL id G) as (r & i & _ & _ & _ & E). rewrite E. cbn [fst]. now rewrite K.
      + destruct id as [|id]; [now rewrite V0|]. intro K. apply (H (S id)). assert (G : S id < length (t_syms t')).
        { rewrite LEN. assert (S id < length (t_syms t)); [|lia]. unfold flags_at in K. apply nth_error_Some. destruct (nth_error (t_syms t) (S id)); [discriminate|cbn in K; discriminate]. }
        destruct (FL id G) as (r & i & _ & _ & _ & E). rewrite E. cbn [snd]. now rewrite K.
      + destruct id as [|id]; [now rewrite V0|]. assert (G : S id < length (t_syms t')) by (rewrite LEN; apply nth_error_Some; congruence).
        destruct (FL id G) as (r & i & E1 & E2 & _ & E). apply (H (S id)). rewrite E. cbn [snd]. rewrite E1 in K. injection K as ->. apply orb_true_r.
      + destruct id as [|id]; [now rewrite V0|]. assert (G : S id < length (t_syms t')) by (rewrite LEN, L; apply nth_error_Some; congruence).
        destruct (FL id G) as (r & i & E1 & E2 & _ & E). apply (H (S id)). rewrite E. cbn [fst]. rewrite E2 in K. injection K as ->. apply orb_true_r.
    - intros ((V0 & V1 & H) & A & B). split; [exact V0|]. split; [exact V1|]. intro id. destruct id as [|id]; [rewrite V0; split; reflexivity|].
      destruct (le_lt_dec (length (t_syms t')) (S id)) as [G|G]; [unfold flags_at; rewrite (proj2 (nth_error_None _ _)) by lia; split; discriminate|].
      destruct (FL id G) as (r & i & E1 & E2 & _ & E). rewrite E. cbn [fst snd]. destruct (H (S id)) as [H1 H2]. split; intro K; apply orb_true_iff in K; destruct K as [K|K]; auto.
      + apply B. rewrite E2. f_equal. now destruct i.
      + apply A. rewrite E1. f_equal. now destruct r.
  Qed.

  (** the bits of an import *)
  Lemma fold_max (xs : list mono) : forall n0, n0 <= fold_left (fun n x => Nat.max n (m_id x)) xs n0 /\ forall x, In x xs -> m_id x <= fold_left (fun n x => Nat.max n (m_id x)) xs n0.
  Proof.
    induction xs as [|y xs IH]; intro n0; cbn [fold_left]; [split; [lia|intros x []]|]. destruct (IH (Nat.max n0 (m_id y))) as [A B]. split; [lia|]. intros x [<-|I]; [lia|now apply B].
  Qed.
  Lemma max_symbol_spec t (cells : list mono) : length (t_syms t) <= S (max_symbol t cells) /\ forall x, In x cells -> m_id x < S (max_symbol t cells).
  Proof. unfold max_symbol. destruct (fold_max cells (length (t_syms t) - 1)) as [A B]. split; [lia|]. intros x I. specialize (B x I). lia. Qed.
  Lemma elem_in d (cells : list mono) i j : length cells = d * d -> i < d -> j < d -> In (elem d cells i j) cells.
  Proof. intros L I J. unfold elem. apply nth_In. rewrite L. nia. Qed.
  Lemma entry_elem v d (cells : list mono) i j : entry_value v d cells i j = term_value v (elem d cells i j).
  Proof. unfold entry_value, mono_entry, value, elem, by_columns. cbn [fold_right]. ring. Qed.
  Lemma nth_repeat_false n k b : nth_error (repeat b n) k = Some false <-> k < n /\ b = false.
  Proof.
    revert k. induction n as [|n IH]; intros [|k]; cbn.
    - split; [discriminate|lia].
    - split; [discriminate|lia].
    - split; [intro H; injection H as ->; split; [lia|reflexivity]|intros [_ ->]; reflexivity].
    - rewrite IH. split; intros [A B]; split; auto; lia.
  Qed.
  Lemma real_value v (x : mono) : cim (m_f x) = r0 R -> cim (v (m_id x)) = r0 R -> cconj (term_value v x) = term_value v x.
  Proof.
    intros F H. unfold term_value. rewrite (real_cx _ F). destruct (m_cj x); apply cx_ext; cbn; rewrite ?H; ring.
  Qed.
  Variable v : nat -> cx R.
  Hypothesis V0 : v 0 = c0.
  Lemma import_bits_means pr cplx hermitian d (cells : list mono) t re im : input_ok d cells -> import_bits pr cplx hermitian d cells t = Some (re, im) ->
    length re = S (max_symbol t cells) /\ length im = S (max_symbol t cells) /\ (means (re, im) v <-> imposes pr cplx hermitian d cells (S (max_symbol t cells)) v).
  Proof.
    intros [LC FC] H. unfold import_bits in H. cbv zeta in H. set (n := S (max_symbol t cells)) in *.
    assert (OK : forall i j, i < d -> j < d -> term_ok n (elem d cells i j)).
    { intros i j Hi Hj. pose proof (elem_in d cells i j LC Hi Hj) as I. split; [apply (proj2 (max_symbol_spec t cells)); exact I|]. apply FC. exact I. }
    set (b0 := (repeat true n, repeat (negb pr) n)) in *.
    assert (SZ0 : sized n b0) by (split; apply repeat_length).
    assert (M0 : means b0 v <-> (pr = true -> forall id, id < n -> cim (v id) = r0 R)).
    { unfold means, b0. cbn [fst snd]. split.
      - intros [_ B] -> id L. apply B. apply nth_repeat_false. auto.
      - intro B. split; intros id E; apply nth_repeat_false in E; destruct E as [E1 E2]; [discriminate|]. apply B; [now destruct pr|exact E1]. }
    assert (HM : forall b1, (if hermitian then check_rows cplx d cells (seq 0 d) b0 else Some b0) = Some b1 ->
      sized n b1 /\ (means b1 v <-> (pr = true -> forall id, id < n -> cim (v id) = r0 R) /\ (hermitian = true -> forall i, i < d -> diagonal_real v d cells cplx i /\ row_ok v d cells cplx i))).
    { intros b1 E. destruct hermitian.
      - destruct (check_rows_means v V0 n d cells OK cplx (seq 0 d) b0 b1) as [S1 M1]; [intros i I; apply in_seq in I; lia|exact SZ0|exact E|]. split; [exact S1|]. rewrite M1, M0. split.
        + intros [A B]. split; [exact A|]. intros _ i Hi. apply B, in_seq. lia.
        + intros [A B]. split; [exact A|]. intros i Hi. apply in_seq in Hi. apply B; [reflexivity|lia].
      - apply some_inj in E. subst b1. split; [exact SZ0|]. rewrite M0. split; [intro; split; [assumption|discriminate]|tauto]. }
    destruct (if hermitian then check_rows cplx d cells (seq 0 d) b0 else Some b0) as [[re1 im1]|]; [|discriminate]. specialize (HM _ eq_refl). destruct HM as [[S1 S2] M1]. cbn [fst snd] in S1, S2.
    apply some_inj in H. injection H as -> H. split; [exact S1|].
    assert (IL : length im = n) by (rewrite <- H; destruct (negb cplx && negb pr); [rewrite fold_unset_length; exact S2|exact S2]). split; [exact IL|].
    assert (M2 : means (re, im) v <-> means (re, im1) v /\ (cplx = false -> pr = false -> forall x, In x cells -> cim (v (m_id x)) = r0 R)).
    { rewrite <- H. unfold means. cbn [fst snd]. destruct cplx, pr; cbn [negb andb]; try (split; [intros [A B]; repeat split; auto; discriminate|tauto]).
      assert (FB : forall x : mono, In x cells -> m_id x < length im1) by (intros x I; rewrite S2; apply (proj2 (max_symbol_spec t cells)); exact I). split.
      - intros [A B]. split; [split; [exact A|intros id E; apply B; apply fold_unset_false; [exact FB|now left]]|]. intros _ _ x I. apply B. apply fold_unset_false; [exact FB|right; now exists x].
      - intros [[A B] C]. split; [exact A|]. intros id E. apply (fold_unset_false m_id) in E; [|exact FB]. destruct E as [E|(x & I & <-)]; auto. }
    rewrite M2, M1. unfold imposes.
    assert (DIAG : forall i, i < d -> (cim (v (m_id (elem d cells i i))) = r0 R <-> cconj (term_value v (elem d cells i i)) = term_value v (elem d cells i i))).
    { intros i Hi. destruct (OK i i Hi Hi) as (_ & F & Z). split; [now apply real_value|]. intro E. destruct (Nat.eq_dec (m_id (elem d cells i i)) 0) as [Q|Q]; [rewrite Q, V0; reflexivity|].
      set (x := elem d cells i i) in *. assert (NF : cre (m_f x) <> r0 R) by (intro K; apply Q, Z; apply cx_ext; [exact K|exact F]).
      unfold term_value in E. rewrite (real_cx _ F) in E. apply (rmul_zero (cre (m_f x))); [|exact NF].
      apply (neg_zero (r1 R)); [exact (r1_neq_0 R)|]. destruct (m_cj x); apply (f_equal cim) in E; cbn in E.
      - match type of E with ?l = ?r => transitivity r; [ring|rewrite <- E; ring] end.
      - match type of E with ?l = ?r => transitivity l; [ring|rewrite E; ring] end. }
    assert (FLIP : forall i j, opposite true v (elem d cells i j) (elem d cells j i) -> opposite true v (elem d cells j i) (elem d cells i j)).
    { intros i j E. unfold opposite in *. rewrite E. now rewrite cconj_conj. }
    assert (ALL : (forall i j, i < d -> j < d -> entry_value v d cells j i = cconj (entry_value v d cells i j)) <->
      forall i, i < d -> diagonal_real v d cells true i /\ row_ok v d cells true i).
    { split.
      - intros A i Hi. split; [intros _; apply DIAG; [exact Hi|]; rewrite <- entry_elem; symmetry; now apply A|]. intros j J1 J2. unfold opposite. rewrite <- !entry_elem. now apply A.
      - intros A i j Hi Hj. rewrite !entry_elem. destruct (lt_eq_lt_dec i j) as [[L|E]|L].
        + exact (proj2 (A i Hi) j L Hj).
        + subst j. symmetry. apply DIAG; [exact Hi|]. now apply (A i Hi).
        + exact (FLIP j i (proj2 (A j Hj) i L Hi)). }
    destruct cplx.
    - split.
      + intros [[A B] _]. split; [exact A|]. split; [discriminate|]. intro HH. apply ALL. now apply B.
      + intros (A & _ & B). split; [split; [exact A|]|discriminate]. intro HH. apply ALL. now apply B.
    - assert (REAL : ((pr = true -> forall id, id < n -> cim (v id) = r0 R) /\ (false = false -> pr = false -> forall x, In x cells -> cim (v (m_id x)) = r0 R)) <->
        ((pr = true -> forall id, id < n -> cim (v id) = r0 R) /\ (false = false -> forall x, In x cells -> cim (v (m_id x)) = r0 R))).
      { split; intros [A B]; (split; [exact A|]); [|auto]. intros _ x I. destruct pr; [|now apply B]. apply A; [reflexivity|]. apply (proj2 (max_symbol_spec t cells)); exact I. }
      assert (SYM : (forall x, In x cells -> cim (v (m_id x)) = r0 R) ->
        ((forall i, i < d -> diagonal_real v d cells false i /\ row_ok v d cells false i) <-> forall i j, i < d -> j < d -> entry_value v d cells j i = cconj (entry_value v d cells i j))).
      { intro RL. assert (CV : forall i j, i < d -> j < d -> cconj (term_value v (elem d cells i j)) = term_value v (elem d cells i j)).
        { intros i j Hi Hj. apply real_value; [apply (OK i j Hi Hj)|]. apply RL. now apply elem_in. }
        rewrite ALL. split; intros A i Hi; destruct (A i Hi) as [A1 A2]; split.
        - intros _. apply RL. now apply elem_in.
        - intros j J1 J2. unfold opposite. rewrite CV by assumption. now apply A2.
        - discriminate.
        - intros j J1 J2. pose proof (A2 j J1 J2) as Q. unfold opposite in *. rewrite Q. now apply CV. }
      split.
      + intros [[A B] C]. destruct (proj1 REAL (Logic.conj A C)) as [A' C']. split; [exact A|]. split; [exact C'|]. intro HH. apply SYM; [now apply C'|now apply B].
      + intros (A & C & B). destruct (proj2 REAL (Logic.conj A C)) as [_ C']. split; [split; [exact A|]|exact C']. intro HH. apply SYM; [now apply C|now apply B].
  Qed.
  Lemma import_bits_none pr cplx hermitian d (cells : list mono) t : import_bits pr cplx hermitian d cells t = None -> hermitian = true /\ mismatch d cells.
  Proof.
    unfold import_bits. cbv zeta. destruct hermitian; [|discriminate]. destruct (check_rows cplx d cells (seq 0 d) _) as [[re im]|] eqn:E; [discriminate|]. intros _. split; [reflexivity|].
    apply check_rows_none in E. destruct E as (i & j & bt & _ & L & L' & P). exists i, j. split; [exact L|]. split; [exact L'|]. exact (check_pair_none _ _ _ _ P).
  Qed.
End Run.
