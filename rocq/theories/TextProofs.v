(** Proofs about texts: joining, numbers, names by letters. *)
From Coq Require Import NArith ZArith Arith Bool Ascii String DecimalString Decimal DecimalNat List Lia.
From Verif Require Import CoreModel AlgModel LocModel InfModel TextModel TextSpec.
Import ListNotations.
Local Open Scope list_scope.

(** * Splitting *)
Definition stops (P : ascii -> bool) (r : text) : Prop := match r with [] => True | c :: _ => P c = false end.
Lemma span (P : ascii -> bool) a : forall a' r r', forallb P a = true -> forallb P a' = true -> stops P r -> stops P r' -> a ++ r = a' ++ r' -> a = a' /\ r = r'.
Proof.
  induction a as [|x a IH]; intros [|y a'] r r' Ha Ha' S S' E; cbn in *.
  - auto.
  - apply andb_prop in Ha'. subst r. cbn in S. destruct Ha' as [H _]. congruence.
  - apply andb_prop in Ha. subst r'. cbn in S'. destruct Ha as [H _]. congruence.
  - apply andb_prop in Ha. apply andb_prop in Ha'. injection E as -> E. destruct (IH a' r r' (proj2 Ha) (proj2 Ha') S S' E) as [-> ->]. auto.
Qed.
Definition lacks (c : ascii) (a : text) : Prop := forallb (fun x => negb (Ascii.eqb x c)) a = true.
Lemma lacks_app c a b : lacks c a -> lacks c b -> lacks c (a ++ b).
Proof. unfold lacks. rewrite forallb_app. now intros -> ->. Qed.
Lemma lacks_by (P : ascii -> bool) c a : forallb P a = true -> P c = false -> lacks c a.
Proof.
  intros H Pc. unfold lacks. apply forallb_forall. intros x I. rewrite forallb_forall in H. specialize (H x I).
  destruct (Ascii.eqb_spec x c) as [->|]; [congruence|reflexivity].
Qed.
Lemma split_at c a a' r r' : lacks c a -> lacks c a' -> a ++ c :: r = a' ++ c :: r' -> a = a' /\ r = r'.
Proof.
  intros H H' E. destruct (span _ a a' (c :: r) (c :: r') H H') as [-> E']; auto; cbn; try (rewrite Ascii.eqb_refl; reflexivity).
  injection E' as ->. auto.
Qed.
Lemma lacks_at c a a' r : lacks c a -> a = a' ++ c :: r -> False.
Proof. intros H ->. unfold lacks in H. rewrite forallb_app in H. cbn in H. rewrite Ascii.eqb_refl in H. cbn in H. now rewrite andb_false_r in H. Qed.
Lemma join_cons c a b l : join [c] (a :: b :: l) = a ++ c :: join [c] (b :: l). Proof. reflexivity. Qed.
Lemma join_inj c : forall l l', Forall (lacks c) l -> Forall (lacks c) l' -> l <> [] -> l' <> [] -> join [c] l = join [c] l' -> l = l'.
Proof.
  induction l as [|a l IH]; intros [|a' l'] F F' N N' E; try congruence.
  inversion F; inversion F'; subst. destruct l as [|b l]; destruct l' as [|b' l'].
  - cbn in E. now subst.
  - rewrite join_cons in E. cbn [join] in E. exfalso. eapply (lacks_at c a); eauto.
  - rewrite join_cons in E. cbn [join] in E. exfalso. eapply (lacks_at c a'); eauto.
  - rewrite !join_cons in E. destruct (split_at c a a' _ _ H1 H5 E) as [-> E2]. f_equal. apply IH; auto; discriminate.
Qed.

(** * Numbers *)
Lemma digits_uint d : forallb is_digit (tx (NilEmpty.string_of_uint d)) = true.
Proof. induction d; cbn; auto. Qed.
Lemma dec_digits n : forallb is_digit (dec n) = true.
Proof. unfold dec, NilZero.string_of_uint. destruct (Nat.to_uint n) eqn:E; [reflexivity|apply digits_uint..]. Qed.
Lemma tx_inj a b : tx a = tx b -> a = b.
Proof. intros E. rewrite <- (string_of_list_ascii_of_string a), <- (string_of_list_ascii_of_string b). unfold tx in E. now rewrite E. Qed.
Lemma dec_inj m n : dec m = dec n -> m = n.
Proof.
  intros E. apply tx_inj in E.
  assert (H : forall k, NilZero.uint_of_string (NilZero.string_of_uint (Nat.to_uint k)) = Some (Nat.to_uint k)).
  { intros k. apply NilZero.usu. intros Z. pose proof (Unsigned.of_to k) as O. rewrite Z in O. cbn in O. subst k. discriminate Z. }
  pose proof (H m) as Hm. rewrite E, H in Hm. injection Hm as Hm. rewrite <- (Unsigned.of_to m), <- (Unsigned.of_to n). now rewrite Hm.
Qed.
Lemma dec_nonempty n : dec n <> [].
Proof.
  unfold dec, NilZero.string_of_uint. destruct (Nat.to_uint n) eqn:E; cbn; try discriminate. 
Qed.
Lemma dec_digit d : d < 10 -> exists c, dec d = [c].
Proof. intros H. do 10 (destruct d as [|d]; [eexists; reflexivity|]). lia. Qed.

(** * Names by letters *)
Lemma letter_code u k : (k < 26)%N -> nat_of_ascii (letter u k) = (if u then 65 else 97) + N.to_nat k.
Proof.
  intros H. unfold letter, nat_of_ascii. rewrite N_ascii_embedding by (destruct u; lia). destruct u; lia.
Qed.
Lemma letter_cased u k : (k < 26)%N -> cased u (letter u k).
Proof. intros H. unfold cased. rewrite (letter_code u k H). destruct u; lia. Qed.
Lemma cased_letter u c : cased u c -> exists k, (k < 26)%N /\ letter u k = c.
Proof.
  intros H. exists (N.of_nat (nat_of_ascii c - (if u then 65 else 97))). unfold cased in H. split; [destruct u; lia|].
  unfold letter. rewrite <- (ascii_nat_embedding c) at 2. unfold ascii_of_nat. f_equal. destruct u; lia.
Qed.
Lemma letter_inj u j k : (j < 26)%N -> (k < 26)%N -> letter u j = letter u k -> j = k.
Proof. intros J K E. pose proof (f_equal nat_of_ascii E) as H. rewrite !letter_code in H by assumption. lia. Qed.

Fixpoint offs (l : nat) : N := match l with O => 0%N | S k => (26 * offs k + 26)%N end.
Lemma pow_s j : (26 ^ N.of_nat (S j) = 26 * 26 ^ N.of_nat j)%N. Proof. now rewrite Nat2N.inj_succ, N.pow_succ_r'. Qed.
Lemma offs_pow l : (25 * offs l + 26 = 26 ^ N.of_nat (S l))%N.
Proof.
  induction l as [|l IH]; [reflexivity|]. rewrite (Nat2N.inj_succ (S l)), N.pow_succ_r', <- IH. cbn [offs]. lia.
Qed.
Lemma level_offs l : level_offset l = offs l.
Proof.
  unfold level_offset. pose proof (offs_pow l) as H. rewrite Nat2N.inj_succ, N.pow_succ_r' in H.
  replace (26 * (26 ^ N.of_nat l - 1))%N with (offs l * 25)%N by lia. now apply N.div_mul.
Qed.
Lemma log26_spec : forall fuel x, (1 <= x)%N -> (x < 2 ^ N.of_nat fuel)%N -> (26 ^ N.of_nat (log26 fuel x) <= x < 26 ^ N.of_nat (S (log26 fuel x)))%N.
Proof.
  induction fuel as [|f IH]; intros x X B.
  - cbn in B. lia.
  - cbn [log26]. destruct (N.ltb_spec x 26) as [L|G].
    + cbn. lia.
    + rewrite Nat2N.inj_succ, N.pow_succ_r' in B.
      assert (D : (x / 26 < 2 ^ N.of_nat f)%N) by (apply N.div_lt_upper_bound; lia).
      assert (D1 : (1 <= x / 26)%N) by (apply N.div_le_lower_bound; lia).
      destruct (IH _ D1 D) as [Lo Hi]. set (k := log26 f (x / 26)) in *.
      rewrite !pow_s in *.
      pose proof (N.div_mod' x 26). pose proof (N.mod_lt x 26 ltac:(lia)). clear IH D D1 B. clearbody k. generalize dependent (26 ^ N.of_nat k)%N. generalize dependent (x mod 26)%N. generalize dependent (x / 26)%N. intros; lia.
Qed.
Lemma size_bound x : (x < 2 ^ N.of_nat (N.size_nat x))%N.
Proof. destruct x as [|p]; [reflexivity|]. cbn [N.size_nat].
  pose proof (N.size_gt (Npos p)) as H. cbn [N.size] in H.
  assert (E : N.of_nat (Pos.size_nat p) = Npos (Pos.size p)).
  { clear. induction p as [p IH|p IH|]; [| |reflexivity]; cbn [Pos.size_nat Pos.size]; rewrite Nat2N.inj_succ, IH; reflexivity. }
  now rewrite E.
Qed.
Lemma name_length_spec id : exists n, name_length id = S n /\ (offs n <= id < offs (S n))%N.
Proof.
  unfold name_length. set (x := ((id * 25 + 26) / 26)%N). exists (log26 (N.size_nat x) x). split; [reflexivity|].
  assert (X : (1 <= x)%N) by (apply N.div_le_lower_bound; lia).
  destruct (log26_spec _ x X (size_bound x)) as [Lo Hi]. set (n := log26 _ x) in *. clearbody n.
  pose proof (N.div_mod' (id * 25 + 26) 26) as D. fold x in D. pose proof (N.mod_lt (id * 25 + 26) 26 ltac:(lia)) as M.
  pose proof (offs_pow n) as P1. pose proof (offs_pow (S n)) as P2. rewrite !pow_s in *. cbn [offs] in *.
  generalize dependent (26 ^ N.of_nat n)%N. clearbody x. generalize dependent ((id * 25 + 26) mod 26)%N. intros; lia.
Qed.
Lemma letters_length u : forall n b, length (letters u n b) = n.
Proof. induction n as [|n IH]; intros b; [reflexivity|]. cbn [letters]. rewrite app_length, IH. cbn. lia. Qed.
Lemma letters_cased u : forall n b, Forall (cased u) (letters u n b).
Proof.
  induction n as [|n IH]; intros b; [constructor|]. cbn [letters]. apply Forall_app. split; [apply IH|]. constructor; [|constructor].
  apply letter_cased. apply N.mod_lt. lia.
Qed.
Lemma letters_inj u : forall n b b', (b < 26 ^ N.of_nat n)%N -> (b' < 26 ^ N.of_nat n)%N -> letters u n b = letters u n b' -> b = b'.
Proof.
  induction n as [|n IH]; intros b b' B B' E; [cbn in *; lia|]. cbn [letters] in E. apply app_inj_tail in E. destruct E as [E1 E2].
  apply letter_inj in E2; [|apply N.mod_lt; lia..]. rewrite Nat2N.inj_succ, N.pow_succ_r' in B, B'.
  apply IH in E1; [|apply N.div_lt_upper_bound; lia..].
  rewrite (N.div_mod' b 26), (N.div_mod' b' 26). congruence.
Qed.
Lemma letters_surj u : forall t, Forall (cased u) t -> exists b, (b < 26 ^ N.of_nat (length t))%N /\ letters u (length t) b = t.
Proof.
  induction t as [|c t IH] using rev_ind; intros F; [exists 0%N; split; [reflexivity|reflexivity]|].
  apply Forall_app in F. destruct F as [F1 F2]. inversion F2; subst. destruct (IH F1) as [b [B E]]. destruct (cased_letter u c H1) as [k [K E2]].
  exists (b * 26 + k)%N. rewrite app_length. cbn [length]. rewrite Nat.add_1_r. cbn [letters].
  rewrite Nat2N.inj_succ, N.pow_succ_r'. split; [lia|].
  rewrite N.div_add_l by lia. rewrite (N.div_small k) by lia. rewrite N.add_0_r, E. f_equal.
  rewrite N.add_comm, N.mod_add by lia. rewrite N.mod_small by lia. now rewrite E2.
Qed.
Lemma alphabetic_app : forall a b c d, length a = length b -> alphabetic (a ++ c) (b ++ d) <-> alphabetic a b \/ (a = b /\ alphabetic c d).
Proof.
  induction a as [|x a IH]; intros [|y b] c d Hl; cbn in Hl; try discriminate; cbn.
  - intuition.
  - injection Hl as Hl. rewrite (IH b c d Hl). split.
    + intros [H|[-> [H|[-> H]]]]; auto.
    + intros [[H|[-> H]]|[E H]]; auto. injection E as -> ->. auto.
Qed.
Lemma letters_order u : forall n b b', (b < 26 ^ N.of_nat n)%N -> (b' < 26 ^ N.of_nat n)%N -> (alphabetic (letters u n b) (letters u n b') <-> (b < b')%N).
Proof.
  induction n as [|n IH]; intros b b' B B'; [cbn in *; lia|]. cbn [letters]. rewrite alphabetic_app by now rewrite !letters_length.
  rewrite Nat2N.inj_succ, N.pow_succ_r' in B, B'.
  assert (D : (b / 26 < 26 ^ N.of_nat n)%N) by (apply N.div_lt_upper_bound; lia). assert (D' : (b' / 26 < 26 ^ N.of_nat n)%N) by (apply N.div_lt_upper_bound; lia).
  rewrite (IH _ _ D D'). pose proof (N.div_mod' b 26). pose proof (N.div_mod' b' 26). pose proof (N.mod_lt b 26 ltac:(lia)) as M. pose proof (N.mod_lt b' 26 ltac:(lia)) as M'.
  cbn [alphabetic]. rewrite !letter_code by assumption.
  set (q := (b / 26)%N) in *. set (q' := (b' / 26)%N) in *. set (r := (b mod 26)%N) in *. set (r' := (b' mod 26)%N) in *. clearbody q q' r r'. clear IH. split.
  - intros [G|[G [K|[_ []]]]]; [lia|]. apply letters_inj in G; [|assumption..]. lia.
  - intros G. destruct (N.lt_ge_cases q q') as [K|K]; [auto|]. right. assert (E : q = q') by lia. split; [now rewrite E|]. left. lia.
Qed.
Lemma offs_step n : (offs (S n) = offs n + 26 ^ N.of_nat (S n))%N.
Proof. pose proof (offs_pow n). cbn [offs]. lia. Qed.
Lemma offs_mono m n : m <= n -> (offs m <= offs n)%N.
Proof. induction 1; [lia|]. rewrite offs_step. lia. Qed.
(** the general form of a name *)
Lemma alpha_form u id : exists n, alpha u id = letters u (S n) (id - offs n) /\ (offs n <= id)%N /\ (id - offs n < 26 ^ N.of_nat (S n))%N.
Proof.
  unfold alpha. destruct (N.ltb_spec id 26) as [L|G].
  - exists 0. cbn [offs letters app]. rewrite N.sub_0_r, N.mod_small by assumption. repeat split; [lia|exact L].
  - destruct (name_length_spec id) as [n [E [Lo Hi]]]. rewrite E. replace (S n - 1) with n by lia. rewrite level_offs. exists n. rewrite offs_step in Hi. repeat split; lia.
Qed.
Lemma alpha_cased u id : alpha u id <> [] /\ Forall (cased u) (alpha u id).
Proof.
  destruct (alpha_form u id) as [n [E _]]. rewrite E. split; [|apply letters_cased]. intros Z. pose proof (letters_length u (S n) (id - offs n)) as H. rewrite Z in H. discriminate.
Qed.
Lemma alpha_surj u t : t <> [] -> Forall (cased u) t -> exists id, alpha u id = t.
Proof.
  intros N F. destruct (letters_surj u t F) as [b [B E]]. destruct (length t) as [|n] eqn:El; [destruct t; [congruence|discriminate]|].
  exists (offs n + b)%N. destruct (alpha_form u (offs n + b)) as [m [-> [Lo Hi]]].
  assert (m = n) as ->.
  { destruct (Nat.lt_trichotomy m n) as [H|[H|H]]; auto; exfalso.
    - pose proof (offs_mono (S m) n H) as M. rewrite offs_step in M. lia.
    - pose proof (offs_mono (S n) m H) as M. rewrite offs_step in M. lia. }
  replace (offs n + b - offs n)%N with b by lia. exact E.
Qed.
Lemma alpha_order u i j : earlier (alpha u i) (alpha u j) <-> (i < j)%N.
Proof.
  destruct (alpha_form u i) as [m [-> [Lo Hi]]]. destruct (alpha_form u j) as [n [-> [Lo' Hi']]]. unfold earlier. rewrite !letters_length. split.
  - intros [H|[H G]].
    + assert (S m <= n) as H' by lia. pose proof (offs_mono (S m) n H') as M. rewrite offs_step in M. lia.
    + injection H as ->. apply letters_order in G; [|assumption..]. lia.
  - intros H. destruct (Nat.lt_trichotomy m n) as [K|[->|K]].
    + left. lia.
    + right. split; [reflexivity|]. apply letters_order; [assumption..|lia].
    + exfalso. pose proof (offs_mono (S n) m K) as M. rewrite offs_step in M. lia.
Qed.
Lemma alphabetic_irrefl t : ~ alphabetic t t.
Proof. induction t as [|x t IH]; cbn; [auto|]. intros [H|[_ H]]; [lia|auto]. Qed.
Lemma alpha_inj u i j : alpha u i = alpha u j -> i = j.
Proof.
  intros E. destruct (N.lt_trichotomy i j) as [H|[H|H]]; auto; exfalso; apply (alpha_order u) in H; rewrite E in H; destruct H as [H|[_ H]]; try lia; now apply alphabetic_irrefl in H.
Qed.
Lemma cased_is u c : cased u c -> is_letter c = true.
Proof.
  unfold cased, is_letter, between. intros H. apply orb_true_iff. destruct u; [left|right]; apply andb_true_iff; rewrite !Nat.leb_le; lia.
Qed.
Lemma alpha_letters u id : forallb is_letter (alpha u id) = true.
Proof. apply forallb_forall. intros x I. destruct (alpha_cased u id) as [_ F]. rewrite Forall_forall in F. eapply cased_is, F, I. Qed.
