(** The list of lengths that have to be made. *)
From Coq Require Import List Arith NArith Bool Lia Sorted.
From Verif Require Import CoreModel AlgModel RepModel.
Import ListNotations.
Local Open Scope N_scope.

(** * Powers of two *)
Lemma popcount_pos_ge p : (1 <= popcount_pos p)%nat.
Proof. induction p; cbn; lia. Qed.
Lemma popcount_one n : (popcount n =? 1)%nat = true <-> exists k, n = 2 ^ k.
Proof.
  rewrite Nat.eqb_eq. split.
  - destruct n as [|p]; [discriminate|]. cbn. intros H. induction p as [p IH|p IH|].
    + exfalso. cbn in H. pose proof (popcount_pos_ge p). lia.
    + cbn in H. destruct (IH H) as [k Hk]. exists (k + 1). rewrite N.pow_add_r, <- Hk. cbn. lia.
    + exists 0. reflexivity.
  - intros [k ->]. induction k as [|k IH] using N.peano_ind; [reflexivity|]. rewrite N.pow_succ_r'. destruct (2 ^ k) as [|p]; [discriminate|exact IH].
Qed.
Lemma pow_floor k : bit_floor (2 ^ k) = 2 ^ k.
Proof. unfold bit_floor. destruct (2 ^ k) as [|p] eqn:E; [reflexivity|]. rewrite <- E. rewrite N.log2_pow2 by lia. reflexivity. Qed.
Lemma floor_spec n : 0 < n -> bit_floor n = 2 ^ N.log2 n /\ 2 ^ N.log2 n <= n < 2 * 2 ^ N.log2 n.
Proof. intros H. destruct (N.log2_spec n H) as [A B]. rewrite N.pow_succ_r' in B. split; [|lia]. unfold bit_floor. destruct n; [lia|reflexivity]. Qed.
Lemma lxor_floor n : 0 < n -> N.lxor n (bit_floor n) = n - bit_floor n.
Proof.
  intros H. destruct (floor_spec n H) as [-> _]. symmetry. apply N.sub_nocarry_ldiff || idtac.
  rewrite N.sub_nocarry_ldiff.
  - apply N.bits_inj. intros i. rewrite N.ldiff_spec, N.lxor_spec, N.pow2_bits_eqb. destruct (N.eqb_spec (N.log2 n) i) as [<-|Ne]; [rewrite N.bit_log2 by lia; reflexivity|]. now rewrite xorb_false_r, andb_true_r.
  - apply N.bits_inj. intros i. rewrite N.ldiff_spec, N.pow2_bits_eqb, N.bits_0. destruct (N.eqb_spec (N.log2 n) i) as [<-|Ne]; [now rewrite N.bit_log2 by lia|reflexivity].
Qed.
Lemma floor_unique n k : 2 ^ k <= n < 2 * 2 ^ k -> bit_floor n = 2 ^ k.
Proof. intros H. assert (0 < 2 ^ k) by (apply N.neq_0_lt_0, N.pow_nonzero; lia). destruct (floor_spec n) as [-> _]; [lia|]. f_equal. apply N.log2_unique; [lia|]. rewrite N.pow_succ_r'. lia. Qed.
Lemma half_pow k : N.shiftr (2 ^ N.succ k) 1 = 2 ^ k.
Proof. rewrite N.shiftr_div_pow2, N.pow_succ_r'. change (2 ^ 1) with 2. rewrite N.mul_comm. now rewrite N.div_mul by lia. Qed.
(** the two ways of splitting a length *)
Inductive split_at (n : N) : N -> N -> Prop :=
| at_pow k : n = 2 ^ N.succ k -> split_at n (2 ^ k) (2 ^ k)
| at_sum k r : n = 2 ^ k + r -> 1 <= r < 2 ^ k -> split_at n (2 ^ k) r.
Lemma not_pow n : 2 <= n -> (popcount n =? 1)%nat = false -> exists k r, n = 2 ^ k + r /\ 1 <= r < 2 ^ k /\ bit_floor n = 2 ^ k /\ N.lxor n (bit_floor n) = r.
Proof.
  intros H P. destruct (floor_spec n) as [Q [A B]]; [lia|]. exists (N.log2 n), (n - 2 ^ N.log2 n). rewrite lxor_floor, Q by lia. repeat split; try lia.
  assert (X : n <> 2 ^ N.log2 n); [|lia]. intros C. assert (Y : (popcount n =? 1)%nat = true) by (apply popcount_one; now exists (N.log2 n)). congruence.
Qed.
Lemma is_pow n : 2 <= n -> (popcount n =? 1)%nat = true -> exists k, n = 2 ^ N.succ k.
Proof. intros H P. apply popcount_one in P. destruct P as [k ->]. destruct k as [|k]; [cbn in H; lia|]. exists (N.pred (Npos k)). f_equal. lia. Qed.
Lemma parents_split n : 2 <= n -> split_at n (fst (parents n)) (snd (parents n)).
Proof.
  intros H. unfold parents. destruct (popcount n =? 1)%nat eqn:P; cbn [fst snd].
  - destruct (is_pow n H P) as [k ->]. rewrite half_pow. now constructor.
  - destruct (not_pow n H P) as [k [r [E [R [F X]]]]]. rewrite X, F. now constructor.
Qed.
Lemma parents_sum n : 2 <= n -> fst (parents n) + snd (parents n) = n /\ 1 <= snd (parents n) <= fst (parents n) /\ fst (parents n) < n.
Proof.
  intros H. destruct (parents_split n H) as [k E|k r E R]; [|lia]. assert (0 < 2 ^ k) by (apply N.neq_0_lt_0, N.pow_nonzero; lia). rewrite N.pow_succ_r' in E. lia.
Qed.

(** * The list, longest first *)
Definition ok_list (n : N) (l : list N) : Prop :=
  hd_error l = Some n /\ StronglySorted (fun a b => b < a) l /\ Forall (fun w => 2 <= w) l /\
  (forall w, In w l -> (fst (parents w) = 1 \/ In (fst (parents w)) l) /\ (snd (parents w) = 1 \/ In (snd (parents w)) l)) /\ (bit_floor n = 1 \/ In (bit_floor n) l).
Fixpoint powers (a : N) (n : nat) : list N := match n with O => [] | S n' => 2 ^ (a + N.of_nat n') :: powers a n' end.
(** the powers of two above [r]: 2^k down to the first above r *)
Lemma halvings_spec r : 1 <= r -> forall n k out fuel, k = N.log2 r + N.of_nat n -> (n < fuel)%nat ->
  halvings fuel (2 ^ k) r out = Ret (out ++ powers (N.succ (N.log2 r)) n).
Proof.
  intros Hr. destruct (N.log2_spec r) as [La Lb]; [lia|]. induction n as [|n IH]; intros k out fuel Hk Hf; (destruct fuel as [|fuel]; [lia|]); cbn [halvings powers].
  - assert (Q : (r <? 2 ^ k) = false). { apply N.ltb_ge. rewrite Hk. rewrite N.add_0_r. exact La. } rewrite Q. now rewrite app_nil_r.
  - assert (Ek : k = N.succ (N.log2 r + N.of_nat n)) by lia. assert (Q : (r <? 2 ^ k) = true). { apply N.ltb_lt. rewrite Ek. eapply N.lt_le_trans; [exact Lb|]. apply N.pow_le_mono_r; lia. }
    rewrite Q. rewrite Ek, half_pow. rewrite (IH (N.log2 r + N.of_nat n) _ fuel eq_refl ltac:(lia)). rewrite <- app_assoc. cbn. now rewrite <- N.add_succ_l.
Qed.
Lemma powers_in a n x : In x (powers a n) <-> exists i, (i < n)%nat /\ x = 2 ^ (a + N.of_nat i).
Proof.
  induction n as [|n IH]; cbn [powers In]; [split; [contradiction|intros [i [H _]]; lia]|]. rewrite IH. split.
  - intros [<-|[i [H ->]]]; [exists n; split; [lia|reflexivity]|exists i; split; [lia|reflexivity]].
  - intros [i [H ->]]. destruct (Nat.eq_dec i n) as [->|Ne]; [now left|right; exists i; split; [lia|reflexivity]].
Qed.
Lemma powers_sorted a : forall n, StronglySorted (fun x y => y < x) (powers a n).
Proof. induction n as [|n IH]; cbn; constructor; [exact IH|]. apply Forall_forall. intros x I. apply powers_in in I. destruct I as [i [H ->]]. apply N.pow_lt_mono_r; lia. Qed.
Lemma sorted_app (l m : list N) : StronglySorted (fun a b => b < a) l -> StronglySorted (fun a b => b < a) m -> (forall x y, In x l -> In y m -> y < x) -> StronglySorted (fun a b => b < a) (l ++ m).
Proof.
  intros Sl Sm H. induction l as [|a l IH]; [exact Sm|]. inversion_clear Sl as [|? ? S1 F1]. cbn. constructor; [apply IH; [exact S1|]; intros x y Ix; apply H; now right|].
  apply Forall_forall. intros x I. apply in_app_or in I. destruct I as [I|I]; [rewrite Forall_forall in F1; now apply F1|]. apply (H a x); [now left|exact I].
Qed.
Lemma ok_below n l : ok_list n l -> forall w, In w l -> w <= n.
Proof. intros [Hh [Hs _]] w I. destruct l as [|a l]; [discriminate|]. injection Hh as ->. destruct I as [->|I]; [lia|]. inversion_clear Hs as [|? ? _ F]. rewrite Forall_forall in F. specialize (F w I). lia. Qed.
Lemma pow_pos k : 1 <= 2 ^ k. Proof. assert (2 ^ k <> 0) by (apply N.pow_nonzero; lia). lia. Qed.
Lemma parents_pow k : parents (2 ^ N.succ k) = (2 ^ k, 2 ^ k).
Proof. unfold parents. assert (P : (popcount (2 ^ N.succ k) =? 1)%nat = true) by (apply popcount_one; now exists (N.succ k)). now rewrite P, half_pow. Qed.
(** the fuel of the outer loop: one more for each bit *)
Lemma loop_spec : forall m n, N.log2 n < N.of_nat m -> 2 <= n -> exists l, ok_list n l /\ forall out fuel, (m <= fuel)%nat -> decompose_loop fuel n out = Ret (out ++ l).
Proof.
  induction m as [|m IH]; intros n Hm Hn; [lia|]. destruct (popcount n =? 1)%nat eqn:P.
  - destruct (is_pow n Hn P) as [k E]. subst n. destruct (N.eq_dec k 0) as [->|Nk].
    + exists [2]. split; [|intros out [|fuel] Hf; [lia|reflexivity]]. split; [reflexivity|]. split; [constructor; [constructor|constructor]|]. split; [constructor; [lia|constructor]|]. split; [|right; now left]. intros w [<-|[]]. split; now left.
    + assert (Hk : exists j, k = N.succ j) by (exists (N.pred k); lia). destruct Hk as [j ->]. assert (H2 : 2 <= 2 ^ N.succ j) by (rewrite N.pow_succ_r'; pose proof (pow_pos j); lia).
      destruct (IH (2 ^ N.succ j)) as [l [Hl R]]; [rewrite N.log2_pow2 in * by lia; lia|exact H2|]. exists (2 ^ N.succ (N.succ j) :: l). split.
      * pose proof (ok_below _ _ Hl) as Bl. destruct Hl as [Hh [Hs [Hb [Hp Hf]]]]. assert (Ih : In (2 ^ N.succ j) l) by (destruct l; [discriminate|injection Hh as ->; now left]).
        split; [reflexivity|]. split; [constructor; [exact Hs|]; apply Forall_forall; intros w I; specialize (Bl w I); rewrite (N.pow_succ_r' 2 (N.succ j)); lia|]. split; [constructor; [exact Hn|exact Hb]|]. split; [|right; rewrite pow_floor; now left].
        intros w [<-|I]; [rewrite parents_pow; cbn [fst snd]; split; right; now right|]. destruct (Hp w I) as [[A|A] [B|B]]; split; auto; right; now right.
      * intros out [|fuel] Hf; [lia|]. cbn [decompose_loop]. rewrite P, half_pow. assert (Q : (1 <? 2 ^ N.succ j) = true) by (apply N.ltb_lt; lia). rewrite Q, R by lia. now rewrite <- app_assoc.
  - destruct (not_pow n Hn P) as [k [r [E [Hr [F X]]]]]. assert (Lr : N.log2 r < k) by (apply N.log2_lt_pow2; lia). assert (Ln : N.log2 n = k) by (apply N.log2_unique; [lia|]; rewrite N.pow_succ_r'; lia).
    set (c := N.to_nat (k - N.log2 r)). assert (Ek : k = N.log2 r + N.of_nat c) by (unfold c; lia). set (ps := powers (N.succ (N.log2 r)) (c)).
    destruct (N.log2_spec r) as [La Lb]; [lia|].
    assert (Ip : forall i, N.log2 r < i <= k -> In (2 ^ i) ps). { intros i Hi. apply powers_in. exists (N.to_nat (i - N.log2 r - 1)). unfold c. split; [lia|]. f_equal. lia. }
    assert (Op : forall x, In x ps -> exists i, x = 2 ^ N.succ i /\ N.log2 r <= i /\ N.succ i <= k). { intros x I. apply powers_in in I. destruct I as [i [Hi ->]]. exists (N.log2 r + N.of_nat i). split; [f_equal; lia|]. unfold c in Hi. lia. }
    assert (Hps : Forall (fun w => 2 <= w) ps). { apply Forall_forall. intros x I. destruct (Op x I) as [i [-> _]]. rewrite N.pow_succ_r'. pose proof (pow_pos i). lia. }
    assert (Dp : forall x y, In x ps -> y <= r -> y < x). { intros x y I Hy. destruct (Op x I) as [i [-> [Hi _]]]. eapply N.le_lt_trans; [exact Hy|]. eapply N.lt_le_trans; [exact Lb|]. apply N.pow_le_mono_r; lia. }
    assert (Fl : bit_floor r = 2 ^ N.log2 r) by (apply floor_spec; lia).
    assert (Pn : parents n = (2 ^ k, r)). { unfold parents. now rewrite P, X, F. }
    assert (Un : forall x, In x ps -> x < n). { intros x I. destruct (Op x I) as [i [-> [_ Hi]]]. apply N.le_lt_trans with (2 ^ k); [apply N.pow_le_mono_r; lia|lia]. }
    assert (Wk : exists l, (r = 1 /\ l = [] \/ 2 <= r /\ ok_list r l) /\ forall out fuel, (m <= fuel)%nat -> (if 1 <? r then decompose_loop fuel r out else Ret out) = Ret (out ++ l)).
    { destruct (1 <? r) eqn:Q; [apply N.ltb_lt in Q|apply N.ltb_ge in Q].
      - destruct (IH r) as [l [Hl R]]; [lia|lia|]. exists l. split; [right; split; [lia|exact Hl]|exact R].
      - exists []. split; [left; split; [lia|reflexivity]|]. intros out fuel _. now rewrite app_nil_r. }
    destruct Wk as [l [Hl R]]. exists (n :: ps ++ l). split.
    + assert (Bl : forall y, In y l -> y <= r). { intros y I. destruct Hl as [[_ ->]|[_ Hl]]; [contradiction|]. now apply (ok_below r l Hl). }
      assert (Fr : 2 ^ N.log2 r = 1 \/ In (2 ^ N.log2 r) l). { destruct Hl as [[-> _]|[_ [_ [_ [_ [_ Hf]]]]]]; [now left|]. now rewrite Fl in Hf. }
      assert (Rr : r = 1 \/ In r l). { destruct Hl as [[-> _]|[_ [Hh _]]]; [now left|right]. destruct l; [discriminate|]. injection Hh as ->. now left. }
      split; [reflexivity|]. split; [|split; [|split]].
      * constructor.
        -- apply sorted_app; [apply powers_sorted|destruct Hl as [[_ ->]|[_ [_ [Hs _]]]]; [constructor|exact Hs]|]. intros x y Ix Iy. apply Dp; [exact Ix|now apply Bl].
        -- apply Forall_forall. intros x I. apply in_app_or in I. destruct I as [I|I]; [now apply Un|]. specialize (Bl x I). lia.
      * constructor; [exact Hn|]. apply Forall_app. split; [exact Hps|]. destruct Hl as [[_ ->]|[_ [_ [_ [Hb _]]]]]; [constructor|exact Hb].
      * intros w [<-|I].
        -- rewrite Pn. cbn [fst snd]. split; [right; right; apply in_or_app; left; apply Ip; lia|]. destruct Rr as [->|Rr]; [now left|right; right; apply in_or_app; now right].
        -- apply in_app_or in I. destruct I as [I|I].
           ++ destruct (Op w I) as [i [-> [Hi Hk]]]. rewrite parents_pow. cbn [fst snd]. assert (Z : 2 ^ i = 1 \/ In (2 ^ i) (n :: ps ++ l)); [|now split].
              destruct (N.eq_dec i (N.log2 r)) as [->|Ne]; [destruct Fr as [Fr|Fr]; [now left|right; right; apply in_or_app; now right]|]. right. right. apply in_or_app. left. apply Ip. lia.
           ++ destruct Hl as [[_ ->]|[_ [_ [_ [_ [Hp _]]]]]]; [contradiction|]. destruct (Hp w I) as [A B]. split; [destruct A as [A|A]|destruct B as [B|B]]; auto; right; right; apply in_or_app; now right.
      * right. right. apply in_or_app. left. rewrite F. apply Ip. lia.
    + intros out [|fuel] Hf; [lia|]. cbn [decompose_loop]. rewrite P, X, F. rewrite (halvings_spec r ltac:(lia) c k (out ++ [n]) (S fuel) Ek) by (unfold c; lia). rewrite R by lia. now rewrite <- !app_assoc.
Qed.
(** * The list, shortest first *)
Definition good_list (n : N) (l : list N) : Prop :=
  StronglySorted N.lt l /\ (exists front, l = front ++ [n]) /\ Forall (fun w => 2 <= w) l /\
  forall w, In w l -> (fst (parents w) = 1 \/ In (fst (parents w)) l) /\ (snd (parents w) = 1 \/ In (snd (parents w)) l).
Lemma sorted_rev l : StronglySorted (fun a b => b < a) l -> StronglySorted N.lt (rev l).
Proof.
  induction l as [|a l IH]; intros H; [constructor|]. inversion_clear H as [|? ? S1 F1]. cbn. specialize (IH S1). rewrite Forall_forall in F1. assert (B : forall x, In x (rev l) -> x < a) by (intros x I; apply F1; now apply in_rev).
  revert IH B. generalize (rev l). intros m. induction m as [|b m IHm]; intros Sm B; [constructor; constructor|]. inversion_clear Sm as [|? ? S2 F2]. cbn. constructor; [apply IHm; [exact S2|]; intros x I; apply B; now right|].
  apply Forall_app. split; [exact F2|]. constructor; [apply B; now left|constructor].
Qed.
Lemma decompose_spec n : 2 <= n -> exists l, good_list n l /\ forall fuel, (N.size_nat n <= fuel)%nat -> decompose fuel n = Ret l.
Proof.
  intros Hn. destruct (loop_spec (N.size_nat n) n) as [l [[Hh [Hs [Hb [Hp _]]]] R]]; [|exact Hn|].
  - destruct n as [|p]; [lia|]. change (N.size_nat (N.pos p)) with (Pos.size_nat p). assert (E : forall q, N.of_nat (Pos.size_nat q) = N.pos (Pos.size q)) by (induction q as [q IH|q IH|]; cbn [Pos.size_nat Pos.size]; lia).
    rewrite E. destruct p as [p|p|]; cbn [N.log2 Pos.size]; lia.
  - exists (rev l). split.
    + split; [now apply sorted_rev|]. split; [destruct l as [|a l]; [discriminate|]; injection Hh as ->; now exists (rev l)|]. split; [now apply Forall_rev|]. intros w I. apply in_rev in I. destruct (Hp w I) as [A B]. rewrite <- !in_rev. now split.
    + intros fuel Hf. unfold decompose. assert (Q : (n <=? 1) = false) by (apply N.leb_gt; lia). rewrite Q, R by exact Hf. reflexivity.
Qed.
