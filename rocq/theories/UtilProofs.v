(** Proofs for the small utilities. *)
From Coq Require Import List ZArith Arith Bool Lia Sorted.
From Verif Require Import AlgModel TensorModel TensorFinalProofs UtilModel UtilSpec.
Import ListNotations.

(* ------------------------------------------------------------ integer power *)
Section Ipow.
  Open Scope Z_scope.
  Lemma shift_half e : Z.shiftr e 1 = e / 2. Proof. now rewrite Z.shiftr_div_pow2. Qed.
  Lemma half_step e : e = 2 * (e / 2) + (if Z.odd e then 1 else 0).
  Proof. pose proof (Zdiv2_odd_eqn e) as H. rewrite Z.div2_div in H. exact H. Qed.
  Lemma pow_step b e : 0 <= e -> b ^ e = (b * b) ^ (e / 2) * (if Z.odd e then b else 1).
  Proof.
    intro H. rewrite (half_step e) at 1. assert (0 <= e / 2) by (apply Z.div_pos; lia).
    rewrite Z.pow_add_r by (destruct (Z.odd e); lia). rewrite Z.pow_mul_r by lia. rewrite Z.pow_2_r. destruct (Z.odd e); lia.
  Qed.
  Lemma mod_mul_mod w a b : 0 < w -> ((a mod w) * b) mod w = (a * b) mod w. Proof. intro. now rewrite Z.mul_mod_idemp_l by lia. Qed.
  Lemma mod_pow w a n : 0 < w -> 0 <= n -> ((a mod w) ^ n) mod w = (a ^ n) mod w.
  Proof.
    intros W H. revert n H. apply natlike_ind; [reflexivity|]. intros n H IH. rewrite !Z.pow_succ_r by lia.
    rewrite Z.mul_mod by lia. rewrite IH. rewrite Z.mod_mod by lia. now rewrite <- Z.mul_mod by lia.
  Qed.
  Lemma loop_unsigned w fuel : 0 <= w -> forall base exp out, 0 < exp -> exp < 2 ^ Z.of_nat fuel -> out mod 2 ^ w = out ->
    ipow_loop fuel false w base exp out = Ret (Value ((out * base ^ exp) mod 2 ^ w)).
  Proof.
    intro W. assert (P : 0 < 2 ^ w) by (apply Z.pow_pos_nonneg; lia).
    induction fuel as [|fuel IH]; intros base exp out H F O; [cbn in F; lia|].
    cbn [ipow_loop]. set (out' := if Z.odd exp then (out * base) mod 2 ^ w else out).
    assert (E : (if Z.odd exp then int_mul false w out base else Value out) = Value out') by (unfold out', int_mul; now destruct (Z.odd exp)).
    rewrite E. clear E. rewrite shift_half.
    assert (O' : out' mod 2 ^ w = out'). { unfold out'. destruct (Z.odd exp); [apply Z.mod_mod; lia|exact O]. }
    assert (V : (out' * (base * base) ^ (exp / 2)) mod 2 ^ w = (out * base ^ exp) mod 2 ^ w).
    { rewrite (pow_step base exp) by lia. unfold out'. destruct (Z.odd exp).
      - rewrite mod_mul_mod by lia. f_equal. ring.
      - f_equal. ring. }
    destruct (Z.eqb_spec (exp / 2) 0) as [Z0|N0].
    - rewrite Z0 in V. rewrite Z.pow_0_r, Z.mul_1_r in V. now rewrite <- V, O'.
    - unfold int_mul at 1. assert (0 <= exp / 2) by (apply Z.div_pos; lia). rewrite IH; [|lia| |exact O'].
      + rewrite <- V. do 2 f_equal. rewrite Z.mul_mod by lia. rewrite mod_pow by lia. now rewrite <- Z.mul_mod by lia.
      + apply Z.div_lt_upper_bound; [lia|]. rewrite Nat2Z.inj_succ, Z.pow_succ_r in F by lia. exact F.
  Qed.
  Lemma ipow_unsigned w fuel base exp : 1 <= w -> fits false w base -> 0 <= exp -> exp < 2 ^ Z.of_nat fuel ->
    ipow fuel false w base exp = Ret (Value (base ^ exp mod 2 ^ w)).
  Proof.
    unfold fits. intros W B H F. unfold ipow. assert (2 ^ 1 <= 2 ^ w) by (apply Z.pow_le_mono_r; lia).
    destruct (Z.eqb_spec exp 0) as [->|N0]; [rewrite Z.pow_0_r, Z.mod_small by lia; reflexivity|].
    destruct (Z.eqb_spec exp 1) as [->|N1]; [rewrite Z.pow_1_r, Z.mod_small by lia; reflexivity|].
    destruct (Z.eqb_spec base 0) as [->|B0]; [rewrite Z.pow_0_l, Z.mod_0_l by lia; reflexivity|].
    destruct (Z.eqb_spec base 1) as [->|B1]; [rewrite Z.pow_1_l, Z.mod_small by lia; reflexivity|].
    cbn [andb]. rewrite loop_unsigned; [now rewrite Z.mul_1_l|lia|lia|exact F|]. apply Z.mod_small; lia.
  Qed.
  (* signed: all intermediate values are bounded by the result *)
  Lemma in_range w p : 1 <= w -> 0 <= p < 2 ^ (w - 1) -> (Z.leb (- 2 ^ (w - 1)) p && Z.ltb p (2 ^ (w - 1)))%bool = true.
  Proof. intros W H. apply andb_true_intro. split; [apply Z.leb_le|apply Z.ltb_lt]; lia. Qed.
  Lemma loop_signed w fuel : 1 <= w -> forall base exp out, 1 < base -> 0 < out -> 0 < exp -> exp < 2 ^ Z.of_nat fuel -> out * base ^ exp < 2 ^ (w - 1) ->
    ipow_loop fuel true w base exp out = Ret (Value (out * base ^ exp)).
  Proof.
    intro W. induction fuel as [|fuel IH]; intros base exp out B O H F L; [cbn in F; lia|].
    cbn [ipow_loop]. set (out' := if Z.odd exp then out * base else out). rewrite (pow_step base exp) in * by lia.
    assert (N : 0 <= exp / 2) by (apply Z.div_pos; lia). assert (P : 0 < (base * base) ^ (exp / 2)) by (apply Z.pow_pos_nonneg; nia).
    assert (O' : 0 < out') by (unfold out'; destruct (Z.odd exp); nia).
    assert (V : out * ((base * base) ^ (exp / 2) * (if Z.odd exp then base else 1)) = out' * (base * base) ^ (exp / 2)) by (unfold out'; destruct (Z.odd exp); ring).
    rewrite V in *. assert (L' : out' < 2 ^ (w - 1)) by nia.
    assert (E : (if Z.odd exp then int_mul true w out base else Value out) = Value out').
    { unfold out', int_mul in *. destruct (Z.odd exp); [|reflexivity]. now rewrite in_range by lia. }
    rewrite E. clear E. rewrite shift_half. destruct (Z.eqb_spec (exp / 2) 0) as [Z0|N0].
    - rewrite Z0, Z.pow_0_r, Z.mul_1_r. reflexivity.
    - assert (Q : base * base <= (base * base) ^ (exp / 2)). { rewrite <- (Z.pow_1_r (base * base)) at 1. apply Z.pow_le_mono_r; nia. }
      unfold int_mul at 1. rewrite in_range by nia. apply IH; try nia. apply Z.div_lt_upper_bound; [lia|]. rewrite Nat2Z.inj_succ, Z.pow_succ_r in F by lia. exact F.
  Qed.
  Lemma ipow_signed w fuel base exp : 2 <= w -> fits true w base -> 0 <= exp -> exp < 2 ^ Z.of_nat fuel -> - 2 ^ (w - 1) < base ^ exp < 2 ^ (w - 1) ->
    ipow fuel true w base exp = Ret (Value (base ^ exp)).
  Proof.
    unfold fits. intros W B H F L. unfold ipow.
    destruct (Z.eqb_spec exp 0) as [->|N0]; [reflexivity|].
    destruct (Z.eqb_spec exp 1) as [->|N1]; [now rewrite Z.pow_1_r|].
    destruct (Z.eqb_spec base 0) as [->|B0]; [now rewrite Z.pow_0_l by lia|].
    destruct (Z.eqb_spec base 1) as [->|B1]; [now rewrite Z.pow_1_l by lia|].
    assert (M : (- base) ^ exp = if Z.odd exp then - base ^ exp else base ^ exp).
    { destruct (Z.odd exp) eqn:Od.
      - apply Z.pow_opp_odd. now apply Z.odd_spec.
      - apply Z.pow_opp_even. apply Z.even_spec. rewrite <- Z.negb_odd. now rewrite Od. }
    assert (A : Z.abs (base ^ exp) = Z.abs base ^ exp) by apply Z.abs_pow.
    destruct (Z.ltb_spec base 0) as [Neg|Pos]; cbn [andb].
    - assert (L' : (- base) ^ exp < 2 ^ (w - 1)) by (rewrite M; destruct (Z.odd exp); lia).
      destruct (Z.eqb_spec base (- 2 ^ (w - 1))) as [->|NE].
      { exfalso. rewrite Z.opp_involutive in L'. assert (2 ^ (w - 1) ^ 1 <= (2 ^ (w - 1)) ^ exp); [|rewrite Z.pow_1_r in *; lia].
        rewrite Z.pow_1_r. rewrite <- (Z.pow_1_r (2 ^ (w - 1))) at 1. apply Z.pow_le_mono_r; [apply Z.pow_pos_nonneg; lia|lia]. }
      destruct (Z.eqb_spec base (-1)) as [->|NM].
      + assert (forall fuel e out, 0 < e -> e < 2 ^ Z.of_nat fuel -> out = 1 -> ipow_loop fuel true w 1 e out = Ret (Value 1)).
        { clear - W. assert (2 ^ 1 <= 2 ^ (w - 1)) by (apply Z.pow_le_mono_r; lia).
          assert (I : int_mul true w 1 1 = Value 1) by (unfold int_mul; now rewrite in_range by lia).
          induction fuel as [|fuel IH]; intros e out He F ->; [cbn in F; lia|]. cbn [ipow_loop]. rewrite I, shift_half.
          replace (if Z.odd e then Value 1 else Value 1) with (Value 1) by (now destruct (Z.odd e)).
          destruct (Z.eqb_spec (e / 2) 0); [reflexivity|]. assert (0 <= e / 2) by (apply Z.div_pos; lia). apply IH; [lia| |reflexivity].
          apply Z.div_lt_upper_bound; [lia|]. rewrite Nat2Z.inj_succ, Z.pow_succ_r in F by lia. exact F. }
        change (- -1) with 1 in *. rewrite H0 by lia. cbn [bind tbind]. rewrite Z.pow_1_l in M by lia. do 2 f_equal. destruct (Z.odd exp); lia.
      + rewrite loop_signed by lia. cbn [bind tbind]. rewrite Z.mul_1_l, M. do 2 f_equal. destruct (Z.odd exp); lia.
    - rewrite loop_signed by lia. now rewrite Z.mul_1_l.
  Qed.
End Ipow.

(* ------------------------------------------------------------ least rotation *)
Lemma nth_skip {A} (l : list A) i k d : nth k (skipn i l) d = nth (i + k) l d.
Proof. revert l. induction i as [|i IH]; intros l; [reflexivity|]. destruct l; [now destruct k|]. cbn. apply IH. Qed.
Lemma nth_first {A} (l : list A) i k d : k < i -> nth k (firstn i l) d = nth k l d.
Proof. revert l k. induction i as [|i IH]; intros l k H; [lia|]. destruct l; [reflexivity|]. destruct k; [reflexivity|]. cbn. apply IH. lia. Qed.
Lemma rotation_length data i : i < length data -> length (rotation data i) = length data.
Proof. intro H. unfold rotation. rewrite app_length, skipn_length, firstn_length. lia. Qed.
Lemma rotation_nth data i k : i < length data -> k < length data -> nth ((k + i) mod length data) data 0%Z = nth k (rotation data i) 0%Z.
Proof.
  intros I K. unfold rotation. destruct (Nat.ltb_spec (k + i) (length data)) as [L|L].
  - rewrite Nat.mod_small by exact L. rewrite app_nth1 by (rewrite skipn_length; lia). rewrite nth_skip. f_equal. lia.
  - rewrite app_nth2 by (rewrite skipn_length; lia). rewrite skipn_length. replace ((k + i) mod length data) with (k + i - length data).
    + rewrite nth_first by lia. f_equal. lia.
    + apply Nat.mod_unique with 1; lia.
Qed.
Fixpoint lessb (x y : list Z) : bool :=
  match x, y with
  | [], [] => false | [], _ :: _ => true | _ :: _, [] => false
  | a :: x', b :: y' => if Z.ltb a b then true else if Z.ltb b a then false else lessb x' y'
  end.
Lemma lessb_spec x y : lessb x y = true <-> list_less x y.
Proof.
  revert y. induction x as [|a x IH]; intros [|b y]; cbn.
  - split; [discriminate|intro H; inversion H].
  - split; [constructor|reflexivity].
  - split; [discriminate|intro H; inversion H].
  - destruct (Z.ltb_spec a b) as [L|L]; [split; [intros _; now constructor|reflexivity]|].
    destruct (Z.ltb_spec b a) as [L'|L'].
    + split; [discriminate|]. intro H; inversion H; subst; lia.
    + assert (a = b) by lia. subst b. rewrite IH. split; [now constructor|]. intro H; inversion H; subst; [lia|assumption].
Qed.
Lemma list_less_trans x y z : list_less x y -> list_less y z -> list_less x z.
Proof.
  intro H. revert z. induction H; intros z K; inversion K; subst; first [apply less_end|apply less_head; lia|apply less_tail; auto].
Qed.
Lemma list_less_irr x : ~ list_less x x.
Proof. induction x as [|a x IH]; intro H; inversion H; subst; [lia|auto]. Qed.
Lemma list_less_total x y : length x = length y -> list_less x y \/ x = y \/ list_less y x.
Proof.
  revert y. induction x as [|a x IH]; intros [|b y] L; try discriminate; [auto|].
  destruct (Z.lt_trichotomy a b) as [H|[->|H]].
  - left. now constructor.
  - destruct (IH y) as [H|[->|H]]; [now injection L|left; now constructor|auto|right; right; now constructor].
  - right; right. now constructor.
Qed.
Lemma skipn_cons {A} (l : list A) i d : i < length l -> skipn i l = nth i l d :: skipn (S i) l.
Proof. revert l. induction i as [|i IH]; intros [|a l] H; cbn in *; try lia; [reflexivity|]. apply IH. lia. Qed.
Lemma rotation_less_spec data lhs rhs : lhs < length data -> rhs < length data ->
  rotation_less (length data) data 0 lhs rhs = lessb (rotation data lhs) (rotation data rhs).
Proof.
  intros L H.
  assert (G : forall left index, index + left = length data -> rotation_less left data index lhs rhs = lessb (skipn index (rotation data lhs)) (skipn index (rotation data rhs))).
  { induction left as [|left IH]; intros index E; cbn [rotation_less].
    - rewrite !skipn_all2 by (rewrite rotation_length by assumption; lia). reflexivity.
    - rewrite !rotation_nth by lia. rewrite (skipn_cons (rotation data lhs) index 0%Z), (skipn_cons (rotation data rhs) index 0%Z) by (rewrite rotation_length by assumption; lia).
      cbn [lessb]. rewrite IH by lia. reflexivity. }
  now rewrite (G (length data) 0 eq_refl).
Qed.
Lemma least_rotation_spec data : data <> [] -> let i := least_rotation data in i < length data /\
  (forall j, j < length data -> ~ list_less (rotation data j) (rotation data i)) /\ (forall j, j < i -> list_less (rotation data i) (rotation data j)).
Proof.
  intro NE. cbv zeta. set (n := length data). assert (N : 0 < n) by (destruct data; [congruence|cbn in n; lia]).
  assert (G : forall m, m <= n - 1 -> let i := fold_left (fun best alt => if rotation_less (length data) data 0 alt best then alt else best) (seq 1 m) 0 in
    i <= m /\ (forall j, j <= m -> ~ list_less (rotation data j) (rotation data i)) /\ (forall j, j < i -> list_less (rotation data i) (rotation data j))).
  { induction m as [|m IH]; intro M; cbv zeta.
    - cbn. repeat split; [lia| |lia]. intros j Hj. replace j with 0 by lia. apply list_less_irr.
    - rewrite seq_S, fold_left_app. cbn [fold_left]. destruct (IH ltac:(lia)) as (A & B & C). set (i := fold_left _ (seq 1 m) 0) in *.
      rewrite rotation_less_spec by (fold n; lia). destruct (lessb _ _) eqn:E.
      + apply lessb_spec in E. change (1 + m) with (S m) in *. split; [lia|]. split.
        * intros j Hj. assert (j = S m \/ j <= m) as [->|Lj] by lia; [apply list_less_irr|]. intro K. apply (B j Lj). eapply list_less_trans; eauto.
        * intros j Hj. destruct (Nat.lt_trichotomy j i) as [K|[->|K]]; [eapply list_less_trans; eauto|exact E|].
          destruct (list_less_total (rotation data (S m)) (rotation data j)) as [Q|[Q|Q]]; [rewrite !rotation_length by (fold n; lia); reflexivity|exact Q| |].
          -- exfalso. apply (B j ltac:(lia)). now rewrite <- Q.
          -- exfalso. apply (B j ltac:(lia)). eapply list_less_trans; eauto.
      + split; [lia|]. split; [|exact C]. intros j Hj. assert (j = S m \/ j <= m) as [->|Lj] by lia; [|now apply B]. intro K. apply lessb_spec in K. change (1 + m) with (S m) in E. congruence. }
  destruct (G (n - 1) (le_n _)) as (A & B & C). unfold least_rotation. fold n. fold n in A, B, C. repeat split; [lia| |exact C]. intros j Hj. apply B. lia.
Qed.

(* ------------------------------------------------------------ first intersection *)
Section Inter.
  Context {A : Type}.
  Variable less : A -> A -> bool.
  Hypothesis WO : weak_order less.
  Lemma less_equiv a b c : less a b = true -> less c b = false -> less a c = true \/ equiv less a c.
  Proof.
    intros H K. destruct (less a c) eqn:E; [now left|]. destruct (less c a) eqn:E'; [|right; now split].
    rewrite (wo_trans _ WO c a b E' H) in K. discriminate.
  Qed.
  (* an element before everything in an ascending list *)
  Lemma below a b l : less a b = true -> ascending less (b :: l) -> Forall (fun c => less a c = true) (b :: l).
  Proof.
    intros H S. constructor; [exact H|]. apply StronglySorted_inv in S as [_ F]. eapply Forall_impl; [|exact F]. cbn. intros c K.
    destruct (less_equiv a b c H K) as [E|E]; [exact E|]. destruct (less b c) eqn:Q; [now rewrite (wo_trans _ WO a b c H Q)|].
    assert (T : equiv less c b) by now split. destruct (wo_equiv _ WO a c b E T) as [T1 _]. congruence.
  Qed.
  Definition first_match (test match_ : list A) (index : nat) (r : option nat) : Prop :=
    match r with
    | Some i => exists k b, i = index + k /\ nth_error match_ k = Some b /\ in_test less test b /\ forall j c, j < k -> nth_error match_ j = Some c -> ~ in_test less test c
    | None => forall c, In c match_ -> ~ in_test less test c
    end.
  Lemma intersection_spec test : ascending less test -> forall match_ index, ascending less match_ -> first_match test match_ index (first_intersection less test match_ index).
  Proof.
    induction test as [|a test IH]; intro ST.
    - intros m index _. cbn. intros c _ (a & [] & _).
    - apply StronglySorted_inv in ST as ST'. destruct ST' as [ST1 FT]. specialize (IH ST1).
      intro m. induction m as [|b m IHm]; intros index SM; cbn [first_intersection].
      + cbn. intros c [].
      + destruct (less a b) eqn:AB.
        * specialize (IH (b :: m) index SM). pose proof (below a b m AB SM) as BL. rewrite Forall_forall in BL.
          assert (EX : forall c, In c (b :: m) -> in_test less (a :: test) c -> in_test less test c).
          { intros c Hc (x & [<-|Hx] & E); [|now exists x]. destruct E as [E _]. rewrite (BL c Hc) in E. discriminate. }
          destruct (first_intersection less test (b :: m) index) as [i|]; cbn [first_match] in *.
          -- destruct IH as (k & y & -> & Ny & (x & Hx & Ex) & Ho). exists k, y. split; [reflexivity|]. split; [exact Ny|]. split; [exists x; split; [now right|exact Ex]|].
             intros j c Hj Nc T. apply (Ho j c Hj Nc). apply EX; [eapply nth_error_In; exact Nc|exact T].
          -- intros c Hc T. apply (IH c Hc). now apply EX.
        * destruct (less b a) eqn:BA.
          -- apply StronglySorted_inv in SM as [SM1 _]. specialize (IHm (S index) SM1).
             assert (NB : ~ in_test less (a :: test) b).
             { intros (x & Hx & E1 & E2). pose proof (below b a test BA ST) as BL. rewrite Forall_forall in BL. rewrite (BL x Hx) in E2. discriminate. }
             change ((fix over (match_ : list A) (index : nat) {struct match_} : option nat := match match_ with [] => None | b :: match' => if less a b then first_intersection less test match_ index else if less b a then over match' (S index) else Some index end) m (S index))
               with (first_intersection less (a :: test) m (S index)).
             destruct (first_intersection less (a :: test) m (S index)) as [i|]; cbn [first_match] in *.
             ++ destruct IHm as (k & y & -> & Ny & Ty & Ho). exists (S k), y. split; [lia|]. split; [exact Ny|]. split; [exact Ty|].
                intros [|j] c Hj Nc; [cbn in Nc; injection Nc as <-; exact NB|]. apply (Ho j c); [lia|exact Nc].
             ++ intros c [<-|Hc]; [exact NB|now apply IHm].
          -- cbn [first_match]. exists 0, b. split; [lia|]. split; [reflexivity|]. split; [exists a; split; [now left|now split]|]. intros j c Hj. lia.
  Qed.
End Inter.

(* ------------------------------------------------------------ merging maps *)
Lemma filter_le {A} (f g : A -> bool) l : (forall x, In x l -> f x = true -> g x = true) -> length (filter f l) <= length (filter g l).
Proof.
  intro H. induction l as [|a l IH]; [reflexivity|]. cbn. pose proof (H a (or_introl eq_refl)) as Ha. specialize (IH (fun x Hx => H x (or_intror Hx))).
  destruct (f a), (g a); cbn; try lia; try discriminate (Ha eq_refl).
Qed.
Lemma filter_lt {A} (f g : A -> bool) l x : In x l -> f x = false -> g x = true -> (forall x, In x l -> f x = true -> g x = true) -> length (filter f l) < length (filter g l).
Proof.
  induction l as [|a l IH]; intros Hx F G H; [destruct Hx|]. cbn. pose proof (filter_le f g l (fun x Hx => H x (or_intror Hx))) as LE. pose proof (H a (or_introl eq_refl)) as Ha.
  destruct Hx as [->|Hx]; [rewrite F, G; cbn; lia|]. specialize (IH Hx F G (fun x Hx => H x (or_intror Hx))). destruct (f a), (g a); cbn; try lia; try discriminate (Ha eq_refl).
Qed.
Section MergeProofs.
  Context {V : Type}.
  Implicit Types m l r : list (Z * V).
  Lemma insert_find k v m : keys_ascend m -> keys_ascend (map_insert k v m) /\ length (map_insert k v m) <= S (length m) /\
    (forall x, In x (map fst (map_insert k v m)) <-> x = k \/ In x (map fst m)) /\
    forall x, find_key x (map_insert k v m) = match find_key x m with Some y => Some y | None => if Z.eqb x k then Some v else None end.
  Proof.
    unfold keys_ascend. induction m as [|[k' v'] m IH]; cbn [map map_insert fst]; intro S.
    - split; [repeat constructor|]. split; [cbn; lia|]. split; [cbn; intuition|]. intro x. reflexivity.
    - apply StronglySorted_inv in S as [S F]. destruct (IH S) as (A & Ln & B & C). rewrite Forall_forall in F.
      destruct (Z.ltb_spec k k') as [L|L]; [|destruct (Z.eqb_spec k k') as [->|NE]]; cbn [map fst length find_key].
      + assert (F' : forall x, In x (map fst m) -> (k < x)%Z) by (intros x H; specialize (F x H); lia).
        split; [constructor; [constructor; [exact S|now apply Forall_forall]|constructor; [exact L|now apply Forall_forall]]|]. split; [lia|]. split; [cbn; intuition|].
        intro x. destruct (Z.eqb_spec x k) as [->|N].
        * destruct (Z.eqb_spec k k'); [lia|]. assert (Q : find_key k m = None); [|now rewrite Q].
          clear - F'. induction m as [|[j w] m IH]; [reflexivity|]. cbn in *. destruct (Z.eqb_spec k j) as [->|]; [specialize (F' j (or_introl eq_refl)); lia|]. apply IH. auto.
        * destruct (Z.eqb x k'); [reflexivity|]. now destruct (find_key x m).
      + split; [constructor; [exact S|now apply Forall_forall]|]. split; [lia|]. split; [cbn; intuition|]. intro x. destruct (Z.eqb x k'); [reflexivity|]. now destruct (find_key x m).
      + split; [constructor; [exact A|apply Forall_forall; intros x H; apply B in H as [->|H]; [lia|now apply F]]|]. split; [lia|]. split; [intro x; cbn; rewrite B; intuition|].
        intro x. rewrite C. destruct (Z.eqb_spec x k'); reflexivity.
  Qed.
  (* how many keys an iterator still has to pass *)
  Definition ahead (it : option Z) m : nat := match it with None => 0 | Some h => length (filter (fun p => Z.leb h (fst p)) m) end.
  Lemma ahead_bound it m : ahead it m <= length m.
  Proof. destruct it as [h|]; cbn; [|lia]. induction m as [|p m IH]; cbn; [lia|]. destruct (Z.leb h (fst p)); cbn; lia. Qed.
  Lemma next_spec h m k : map_next h m = Some k -> (h < k)%Z /\ In k (map fst m).
  Proof.
    induction m as [|[k' v] m IH]; cbn; [discriminate|]. destruct (Z.ltb_spec h k') as [L|L]; intro E; [injection E as <-; auto|]. destruct (IH E). auto.
  Qed.
  Lemma next_ahead h m : In h (map fst m) -> ahead (map_next h m) m < ahead (Some h) m.
  Proof.
    intro H. apply in_map_iff in H as ([h' v] & E & Hp). cbn in E. subst h'. destruct (map_next h m) as [k|] eqn:N; cbn [ahead].
    - apply next_spec in N as [L _]. apply filter_lt with (h, v); cbn; [exact Hp|apply Z.leb_gt; lia|apply Z.leb_refl|].
      intros [j w] _ Q. cbn in *. apply Z.leb_le in Q. apply Z.leb_le. lia.
    - assert (Q : In (h, v) (filter (fun p => Z.leb h (fst p)) m)) by (apply filter_In; split; [exact Hp|apply Z.leb_refl]).
      destruct (filter _ m); [destruct Q|cbn; lia].
  Qed.
  Lemma to_size_t_inj s a b : fits s 64 a -> fits s 64 b -> to_size_t a = to_size_t b -> a = b.
  Proof.
    unfold fits, to_size_t. intros A B E. destruct s.
    - assert (Q : forall x, (- 2 ^ (64 - 1) <= x < 2 ^ (64 - 1))%Z -> (x = (if Z.ltb (x mod 2 ^ 64) (2 ^ 63) then x mod 2 ^ 64 else x mod 2 ^ 64 - 2 ^ 64))%Z).
      { clear. intros x H. destruct (Z.ltb_spec x 0) as [L|L].
        - assert (M : (x mod 2 ^ 64 = x + 2 ^ 64)%Z) by (symmetry; apply Z.mod_unique with (-1)%Z; lia). rewrite M. destruct (Z.ltb_spec (x + 2 ^ 64) (2 ^ 63)); lia.
        - rewrite Z.mod_small by lia. destruct (Z.ltb_spec x (2 ^ 63)); lia. }
      rewrite (Q a A), (Q b B), E. reflexivity.
    - rewrite !Z.mod_small in E by lia. exact E.
  Qed.
  Definition pointed (it : option Z) m : Prop := match it with None => True | Some h => In h (map fst m) end.
  Lemma merge_loop_spec s fuel : forall l it r N, keys_ascend l -> one_type s l -> keys_ascend r -> one_type s r -> pointed it l ->
    length l + length r <= N -> length r * S N + ahead it l <= fuel ->
    exists m, merge_loop fuel l it r = Ret m /\ keys_ascend m /\ forall x, find_key x m = match find_key x l with Some v => Some v | None => find_key x r end.
  Proof.
    induction fuel as [|fuel IH]; intros l it r N KL TL KR TR PT BN F.
    - destruct r as [|p r]; [|cbn in F; lia]. exists l. cbn. split; [reflexivity|]. split; [exact KL|]. intro x. now destruct (find_key x l).
    - destruct r as [|[k v] r]; [exists l; cbn; split; [reflexivity|]; split; [exact KL|]; intro x; now destruct (find_key x l)|].
      assert (KR' : keys_ascend r) by (unfold keys_ascend in *; cbn in KR; now apply StronglySorted_inv in KR).
      pose proof (Forall_inv TR) as Tk. cbn [fst] in Tk. apply Forall_inv_tail in TR as TR'. cbn [length] in BN, F.
      destruct (insert_find k v l KL) as (I1 & I2 & I3 & I4).
      assert (TI : one_type s (map_insert k v l)).
      { apply Forall_forall. intros p Hp. apply (in_map fst) in Hp. apply I3 in Hp as [->|Hp]; [exact Tk|]. apply in_map_iff in Hp as (q & <- & Hq). unfold one_type in TL. rewrite Forall_forall in TL. now apply TL. }
      assert (INS : forall it', pointed it' (map_insert k v l) -> exists m, merge_loop fuel (map_insert k v l) it' r = Ret m /\ keys_ascend m /\
        forall x, find_key x m = match find_key x l with Some w => Some w | None => find_key x ((k, v) :: r) end).
      { intros it' P'. pose proof (ahead_bound it' (map_insert k v l)) as AB. destruct (IH (map_insert k v l) it' r N I1 TI KR' TR' P') as (m & E & K & FK).
        - lia.
        - cbn [Nat.mul] in F. lia.
        - exists m. split; [exact E|]. split; [exact K|]. intro x. rewrite FK, I4. cbn [find_key]. destruct (find_key x l); [reflexivity|]. now destruct (Z.eqb x k). }
      cbn [merge_loop]. destruct it as [h|]; [|apply INS; exact I].
      assert (NX : ahead (map_next h l) l < ahead (Some h) l) by (now apply next_ahead).
      assert (PN : pointed (map_next h l) l). { destruct (map_next h l) as [j|] eqn:Q; [|exact I]. now apply next_spec in Q. }
      destruct (Z.ltb_spec (to_size_t h) (to_size_t k)) as [L|L]; [|destruct (Z.ltb_spec (to_size_t k) (to_size_t h)) as [L'|L']].
      + apply (IH l (map_next h l) ((k, v) :: r) N); auto. cbn [length]. lia.
      + apply INS. cbn. apply I3. now left.
      + assert (h = k). { apply (to_size_t_inj s); [|exact Tk|lia]. cbn in PT. apply in_map_iff in PT as (q & <- & Hq). unfold one_type in TL. rewrite Forall_forall in TL. now apply TL. } subst h.
        destruct (IH l (map_next k l) r N KL TL KR' TR' PN) as (m & E & K & FK); [lia|cbn [Nat.mul] in F; lia|].
        exists m. split; [exact E|]. split; [exact K|]. intro x. rewrite FK. cbn [find_key]. destruct (find_key x l) eqn:Q; [reflexivity|].
        destruct (Z.eqb_spec x k) as [->|]; [|reflexivity]. exfalso. cbn in PT. clear - PT Q. induction l as [|[j w] l IHl]; [destruct PT|]. cbn in *. destruct (Z.eqb_spec k j) as [->|]; [discriminate|]. destruct PT; [congruence|auto].
  Qed.
  Lemma merge_spec s fuel l r : keys_ascend l -> one_type s l -> keys_ascend r -> one_type s r -> (length r + 1) * (length l + length r + 1) <= fuel ->
    exists m, linear_map_merge fuel l r = Ret m /\ keys_ascend m /\ forall x, find_key x m = match find_key x l with Some v => Some v | None => find_key x r end.
  Proof.
    intros KL TL KR TR F. apply (merge_loop_spec s fuel l (map_begin l) r (length l + length r)); auto.
    - destruct l as [|[k v] l]; cbn; auto.
    - pose proof (ahead_bound (map_begin l) l). nia.
  Qed.
End MergeProofs.

(* ------------------------------------------------------------ chunks *)
Section ChunkProofs.
  Context {A : Type}.
  Variable data : list A.
  Lemma last_nth (l : list nat) : last l 0 = nth (length l - 1) l 0.
  Proof.
    induction l as [|a l IH]; [reflexivity|]. destruct l as [|b l]; [reflexivity|]. change (last (a :: b :: l) 0) with (last (b :: l) 0). rewrite IH. cbn [length]. replace (S (S (length l)) - 1) with (S (S (length l) - 1)) by lia. reflexivity.
  Qed.
  Lemma sorted_nth (l : list nat) i j : StronglySorted le l -> i <= j -> j < length l -> nth i l 0 <= nth j l 0.
  Proof.
    intro S. revert i j. induction S as [|a l S IH F]; intros i j H L; [cbn in L; lia|]. destruct i as [|i], j as [|j]; cbn in *; try lia.
    - rewrite Forall_forall in F. apply F, nth_In. lia.
    - apply IH; lia.
  Qed.
  (* where the chunk ends *)
  Definition stop (indices : list nat) (i : nat) : nat := if Nat.ltb (S i) (length indices) then nth (S i) indices 0 else length data.
  Lemma chunk_spec indices i : starts_ok data indices -> i < length indices ->
    chunk_at data indices i = Value (slice data (nth i indices 0) (stop indices i)) /\ nth i indices 0 <= stop indices i /\ stop indices i <= length data.
  Proof.
    intros [S F] H. rewrite Forall_forall in F. unfold chunk_at, chunk_size, stop. cbn [Nat.add].
    assert (B : nth i indices 0 <= length data) by (apply F, nth_In; exact H).
    destruct (Nat.ltb_spec (Datatypes.S i) (length indices)) as [L|L].
    - assert (M : nth i indices 0 <= nth (Datatypes.S i) indices 0) by (apply sorted_nth; [exact S|lia|exact L]).
      assert (B' : nth (Datatypes.S i) indices 0 <= length data) by (apply F, nth_In; exact L).
      destruct (Nat.leb_spec (nth i indices 0 + (nth (Datatypes.S i) indices 0 - nth i indices 0)) (length data)); [|lia]. repeat split; auto.
    - destruct (Nat.eqb_spec (Datatypes.S i) (length indices)) as [E|E]; [|lia]. rewrite last_nth, <- E. replace (Datatypes.S i - 1) with i by lia.
      destruct (Nat.leb_spec (nth i indices 0 + (length data - nth i indices 0)) (length data)); [|lia]. repeat split; auto.
  Qed.
  Lemma slice_app i j k : i <= j -> j <= k -> slice data i j ++ slice data j k = slice data i k.
  Proof.
    intros H K. unfold slice. assert (Q : forall n (l : list A), skipn (n + i) l = skipn n (skipn i l)).
    { intros n. generalize i. clear. induction i as [|i IH]; intro l; [now rewrite Nat.add_0_r|]. rewrite Nat.add_succ_r. destruct l; [now rewrite !skipn_nil|]. cbn. apply IH. }
    replace (skipn j data) with (skipn (j - i) (skipn i data)) by (rewrite <- Q; now replace (j - i + i) with j by lia).
    generalize (skipn i data). intro l. replace (k - i) with ((j - i) + (k - j)) by lia. generalize (j - i), (k - j). clear. intros n m.
    revert l. induction n as [|n IH]; intro l; [reflexivity|]. destruct l as [|a l]; [now rewrite skipn_nil, !firstn_nil|]. cbn. now rewrite IH.
  Qed.
  Lemma chunks_spec indices : starts_ok data indices -> indices <> [] ->
    exists l, all_chunks data indices = Value l /\ length l = length indices /\ concat l = skipn (hd 0 indices) data /\
      forall i, i < length indices -> nth i l [] = slice data (nth i indices 0) (stop indices i).
  Proof.
    intros OK NE. exists (map (fun i => slice data (nth i indices 0) (stop indices i)) (seq 0 (length indices))).
    split; [apply tmap_value; intros i Hi; apply in_seq in Hi; apply chunk_spec; [exact OK|lia]|].
    split; [now rewrite map_length, seq_length|]. split.
    - assert (G : forall n s, s + n = length indices -> 0 < n -> concat (map (fun i => slice data (nth i indices 0) (stop indices i)) (seq s n)) = slice data (nth s indices 0) (length data)).
      { induction n as [|n IH]; intros s E P; [lia|]. cbn [seq map concat]. destruct (chunk_spec indices s OK ltac:(lia)) as (_ & A1 & A2). unfold stop in *. destruct n as [|n].
        - destruct (Nat.ltb_spec (S s) (length indices)); [lia|]. cbn. apply app_nil_r.
        - destruct (Nat.ltb_spec (S s) (length indices)); [|lia]. rewrite IH by lia. apply slice_app; [exact A1|exact A2]. }
      rewrite G; [|reflexivity|destruct indices; [congruence|cbn; lia]]. unfold slice. replace (nth 0 indices 0) with (hd 0 indices) by now destruct indices.
      apply firstn_all2. rewrite skipn_length. lia.
    - intros i Hi. rewrite (nth_indep _ [] (slice data (nth 0 indices 0) (stop indices 0))) by (now rewrite map_length, seq_length).
      rewrite (map_nth (fun i => slice data (nth i indices 0) (stop indices i)) (seq 0 (length indices)) 0 i). now rewrite seq_nth by exact Hi.
  Qed.
End ChunkProofs.

(* ------------------------------------------------------------ Kronecker powers *)
Section KronProofs.
  Context {T : Type}.
  Variable mul : T -> T -> T.
  Variable one : T.
  Hypothesis MA : forall a b c, mul a (mul b c) = mul (mul a b) c.
  Hypothesis M1 : forall a, mul one a = a.
  Hypothesis M1' : forall a, mul a one = a.
  Notation kron := (kronecker mul).
  Notation same := (@same_matrix T).
  Notation power := (tensor_power mul one).
  Lemma same_refl a : same a a. Proof. unfold same_matrix. auto. Qed.
  Lemma same_sym a b : same a b -> same b a.
  Proof. intros (E & F & G). repeat split; auto. intros i j Hi Hj. symmetry. apply G; lia. Qed.
  Lemma same_trans a b c : same a b -> same b c -> same a c.
  Proof. intros (E & F & G) (E' & F' & G'). repeat split; try congruence. intros i j Hi Hj. rewrite G, G'; auto; lia. Qed.
  Lemma div_lt a b c : a < b * c -> a / c < b. Proof. intro H. apply Nat.div_lt_upper_bound; lia. Qed.
  Lemma mod_lt a b c : a < b * c -> a mod c < c. Proof. intro H. apply Nat.mod_upper_bound. lia. Qed.
  Lemma kron_same a a' b b' : same a a' -> same b b' -> same (kron a b) (kron a' b').
  Proof.
    intros (E & F & G) (E' & F' & G'). unfold same_matrix, kronecker. cbn. rewrite <- E, <- F, <- E', <- F'. repeat split; auto.
    intros i j Hi Hj. rewrite G by (now apply div_lt). rewrite G' by (eapply mod_lt; eassumption). reflexivity.
  Qed.
  Lemma kron_assoc a b c : same (kron a (kron b c)) (kron (kron a b) c).
  Proof.
    unfold same_matrix, kronecker. cbn. split; [lia|]. split; [lia|]. intros i j Hi Hj. rewrite MA.
    assert (Q : forall n p q, n < p * (q) -> True) by auto. clear Q.
    assert (D : forall n x y z, n < x * (y * z) -> n / (y * z) = n / z / y /\ n mod (y * z) / z = (n / z) mod y /\ n mod (y * z) mod z = n mod z).
    { intros n x y z H. assert (y <> 0 /\ z <> 0) as [Y Z] by nia. split; [rewrite Nat.div_div by auto; f_equal; lia|].
      rewrite (Nat.mul_comm y z). rewrite Nat.mod_mul_r by auto. pose proof (Nat.mod_upper_bound n z Z). split.
      - rewrite (Nat.mul_comm z), Nat.div_add by exact Z. rewrite (Nat.div_small (n mod z)) by assumption. reflexivity.
      - rewrite (Nat.mul_comm z), Nat.mod_add by exact Z. apply Nat.mod_mod. exact Z. }
    destruct (D i _ _ _ Hi) as (A1 & A2 & A3), (D j _ _ _ Hj) as (B1 & B2 & B3). now rewrite A1, A2, A3, B1, B2, B3.
  Qed.
  Lemma unit_l a : same (kron (unit_matrix one) a) a.
  Proof.
    unfold same_matrix, kronecker, unit_matrix. cbn. split; [lia|]. split; [lia|]. intros i j Hi Hj. rewrite M1.
    now rewrite !Nat.mod_small by lia.
  Qed.
  Lemma unit_r a : same (kron a (unit_matrix one)) a.
  Proof.
    unfold same_matrix, kronecker, unit_matrix. cbn [mx_rows mx_cols mx_entry]. split; [lia|]. split; [lia|]. intros i j Hi Hj. now rewrite M1', !Nat.div_1_r.
  Qed.
  Lemma power_add a n m : same (kron (power a n) (power a m)) (power a (n + m)).
  Proof.
    induction n as [|n IH]; cbn [tensor_power Nat.add]; [apply unit_l|].
    eapply same_trans; [apply same_sym, kron_assoc|]. apply kron_same; [apply same_refl|exact IH].
  Qed.
  Lemma power_one a : same (power a 1) a. Proof. apply unit_r. Qed.
  Lemma loop_spec fuel : forall output pow2 p base n m, (0 <= p < 2 ^ Z.of_nat fuel)%Z -> same output (power base n) -> same pow2 (power base m) ->
    exists r, kronecker_loop kron fuel output pow2 p = Ret r /\ same r (power base (n + 2 * m * Z.to_nat p)).
  Proof.
    induction fuel as [|fuel IH]; intros output pow2 p base n m P SO SP; cbn [kronecker_loop].
    - cbn in P. replace p with 0%Z by lia. cbn. exists output. split; [reflexivity|]. now replace (n + (m + (m + 0)) * 0) with n by lia.
    - destruct (Z.eqb_spec p 0) as [->|NZ]; [exists output; split; [reflexivity|]; cbn [Z.to_nat]; now replace (n + 2 * m * 0) with n by lia|].
      assert (S2 : same (kron pow2 pow2) (power base (m + m))) by (eapply same_trans; [apply kron_same; exact SP|apply power_add]).
      assert (P' : (0 <= Z.shiftr p 1 < 2 ^ Z.of_nat fuel)%Z).
      { rewrite shift_half. split; [apply Z.div_pos; lia|]. apply Z.div_lt_upper_bound; [lia|]. rewrite Nat2Z.inj_succ, Z.pow_succ_r in P by lia. lia. }
      pose proof (half_step p) as HS. rewrite <- shift_half in HS.
      destruct (Z.odd p).
      + destruct (IH (kron output (kron pow2 pow2)) (kron pow2 pow2) (Z.shiftr p 1) base (n + (m + m)) (m + m) P') as (r & E & S); [|exact S2|].
        * eapply same_trans; [apply kron_same; [exact SO|exact S2]|apply power_add].
        * exists r. split; [exact E|]. replace (n + 2 * m * Z.to_nat p) with (n + (m + m) + 2 * (m + m) * Z.to_nat (Z.shiftr p 1)); [exact S|].
          assert (Q : Z.to_nat p = 2 * Z.to_nat (Z.shiftr p 1) + 1) by lia. rewrite Q. ring.
      + destruct (IH output (kron pow2 pow2) (Z.shiftr p 1) base n (m + m) P' SO S2) as (r & E & S). exists r. split; [exact E|].
        replace (n + 2 * m * Z.to_nat p) with (n + 2 * (m + m) * Z.to_nat (Z.shiftr p 1)); [exact S|].
        assert (Q : Z.to_nat p = 2 * Z.to_nat (Z.shiftr p 1)) by lia. rewrite Q. ring.
  Qed.
  Lemma kronecker_power_spec fuel base p : (0 <= p < 2 ^ Z.of_nat fuel)%Z ->
    exists r, kronecker_power kron (unit_matrix one) fuel base p = Ret r /\ same r (power base (Z.to_nat p)).
  Proof.
    intro P. unfold kronecker_power. destruct (Z.eqb_spec p 1) as [->|N1]; [exists base; split; [reflexivity|apply same_sym, power_one]|].
    destruct (Z.eqb_spec p 0) as [->|N0]; [exists (unit_matrix one); split; [reflexivity|apply same_refl]|].
    pose proof (half_step p) as HS. rewrite <- shift_half in HS.
    assert (P' : (0 <= Z.shiftr p 1 < 2 ^ Z.of_nat fuel)%Z) by (rewrite shift_half; split; [apply Z.div_pos; lia|]; apply Z.le_lt_trans with p; [|lia]; apply Z.div_le_upper_bound; lia).
    destruct (loop_spec fuel (if Z.odd p then base else unit_matrix one) base (Z.shiftr p 1) base (if Z.odd p then 1 else 0) 1 P') as (r & E & S).
    - destruct (Z.odd p); [apply same_sym, power_one|apply same_refl].
    - apply same_sym, power_one.
    - exists r. split; [exact E|]. replace (Z.to_nat p) with ((if Z.odd p then 1 else 0) + 2 * 1 * Z.to_nat (Z.shiftr p 1)); [exact S|]. destruct (Z.odd p); lia.
  Qed.
End KronProofs.

(* ------------------------------------------------------------ the smallest value *)
Lemma ipow_least_refuted : exists base exp, fits true 64 base /\ fits true 64 (base ^ exp) /\ (0 <= exp)%Z /\ ipow 64 true 64 base exp = Ret Undefined.
Proof. exists (-2)%Z, 63%Z. vm_compute. repeat split; discriminate. Qed.
Lemma ltb_weak : weak_order Z.ltb.
Proof.
  constructor; [apply Z.ltb_irrefl|intros a b c H K; apply Z.ltb_lt in H, K; apply Z.ltb_lt; lia|].
  intros a b c [H1 H2] [K1 K2]. apply Z.ltb_ge in H1, H2, K1, K2. split; apply Z.ltb_ge; lia.
Qed.
