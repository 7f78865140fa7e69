(** Trees of objects. *)
From Coq Require Import ZArith Arith Bool List Lia Sorted FinFun.
From Verif Require Import RecModel RecSpec.
Import ListNotations.
Local Open Scope list_scope.

Section Rec.
  Variable T : Type.
  Implicit Types (t s : rtree T) (x : T) (p q : list Z).

  Lemma rtree_ind' (P : rtree T -> Prop) : (forall x o ks, Forall P ks -> P (RNode x o ks)) -> forall t, P t.
  Proof.
    intro H. fix IH 1. intros [x o ks]. apply H. induction ks as [|k ks IHk]; constructor; [apply IH|exact IHk].
  Qed.
  Lemma signed_inj i j : word64 i -> word64 j -> to_signed i = to_signed j -> i = j.
  Proof.
    unfold word64, to_signed, w64. change (2 ^ 64)%Z with 18446744073709551616%Z. change (2 ^ 63)%Z with 9223372036854775808%Z.
    destruct (i <? _)%Z eqn:A, (j <? _)%Z eqn:B; rewrite ?Z.ltb_lt, ?Z.ltb_ge in *; lia.
  Qed.
  Lemma child_some t i k : child_of t i = Some k <-> k < length (r_kids t) /\ to_signed i = (Z.of_nat k - r_offset t)%Z.
  Proof.
    unfold child_of, num_children. split.
    - destruct (_ && _) eqn:E; [|discriminate]. apply andb_true_iff in E as [A B]. apply Z.leb_le in A. apply Z.ltb_lt in B. intro H. injection H as <-. lia.
    - intros [A B]. rewrite B. replace ((- r_offset t <=? Z.of_nat k - r_offset t)%Z) with true by (symmetry; apply Z.leb_le; lia).
      replace ((Z.of_nat k - r_offset t + r_offset t <? Z.of_nat (length (r_kids t)))%Z) with true by (symmetry; apply Z.ltb_lt; lia). cbn. f_equal. lia.
  Qed.
  Lemma child_inj t i j k : word64 i -> word64 j -> child_of t i = Some k -> child_of t j = Some k -> i = j.
  Proof. intros A B H H'. apply child_some in H as [_ H], H' as [_ H']. apply signed_inj; trivial. congruence. Qed.
  Lemma child_kid t i k : child_of t i = Some k -> exists s, nth_error (r_kids t) k = Some s.
  Proof. intro H. apply child_some in H as [H _]. destruct (nth_error (r_kids t) k) eqn:E; eauto. apply nth_error_None in E. lia. Qed.
  Lemma nth_replace {A} (l : list A) : forall k a, k < length l -> nth_error (replace_nth k a l) k = Some a.
  Proof. induction l as [|b l IH]; intros [|k] a H; cbn in *; [lia|lia|reflexivity|apply IH; lia]. Qed.
  Lemma nth_replace_other {A} (l : list A) : forall k j a, k <> j -> nth_error (replace_nth k a l) j = nth_error l j.
  Proof. induction l as [|b l IH]; intros [|k] [|j] a H; cbn; trivial; [contradiction|apply IH; congruence]. Qed.
  Lemma replace_length {A} (l : list A) : forall k a, length (replace_nth k a l) = length l.
  Proof. induction l as [|b l IH]; intros [|k] a; cbn; trivial. now rewrite IH. Qed.

  (** writing *)
  Lemma set_defined p x : forall t, (exists t', set p x t = Some t') <-> (exists y, object_at t p = Some y).
  Proof.
    induction p as [|i p IH]; intro t; unfold object_at in *; cbn [set subtree].
    - split; intros _; [exists (r_object t)|exists (set_here x t)]; reflexivity.
    - destruct (child_of t i) as [k|] eqn:C; [|split; intros [? H]; discriminate]. destruct (nth_error (r_kids t) k) as [s|]; [|split; intros [? H]; discriminate].
      rewrite <- (IH s). destruct (set p x s) as [s'|]; split; intros [? H]; try discriminate; eauto.
  Qed.
  Lemma set_child p x t t' i (k : nat) r : set (i :: p) x t = Some t' -> child_of t' r = child_of t r.
  Proof.
    cbn [set]. destruct (child_of t i) as [k'|]; [|discriminate]. destruct (nth_error (r_kids t) k') as [s|]; [|discriminate].
    destruct (set p x s) as [s'|]; [|discriminate]. intro H. injection H as <-. unfold child_of, num_children. cbn [r_offset r_kids]. now rewrite replace_length.
  Qed.
  Lemma set_same p x : forall t t', set p x t = Some t' -> object_at t' p = Some x.
  Proof.
    induction p as [|i p IH]; intros t t' H.
    - cbn in H. injection H as <-. destruct t. reflexivity.
    - pose proof (set_child p x t t' i 0 i H) as C. unfold object_at in *. cbn [subtree]. rewrite C. cbn [set] in H.
      destruct (child_of t i) as [k|] eqn:Ci; [|discriminate]. destruct (nth_error (r_kids t) k) as [s|] eqn:N; [|discriminate].
      destruct (set p x s) as [s'|] eqn:S; [|discriminate]. injection H as <-. cbn [r_kids]. rewrite nth_replace by (apply nth_error_Some; congruence).
      now apply (IH s).
  Qed.
  Lemma set_other p x : forall t t' q, Forall word64 p -> Forall word64 q -> p <> q -> set p x t = Some t' -> object_at t' q = object_at t q.
  Proof.
    induction p as [|i p IH]; intros t t' q Wp Wq D H.
    - cbn in H. injection H as <-. destruct q as [|j q]; [contradiction|]. destruct t. reflexivity.
    - destruct q as [|j q].
      + unfold object_at. cbn [subtree option_map]. f_equal. cbn [set] in H. destruct (child_of t i) as [k|]; [|discriminate]. destruct (nth_error (r_kids t) k) as [s|]; [|discriminate].
        destruct (set p x s); [|discriminate]. injection H as <-. reflexivity.
      + inversion Wp; subst. inversion Wq; subst. pose proof (set_child p x t t' i 0 j H) as C. unfold object_at in *. cbn [subtree]. rewrite C. cbn [set] in H.
        destruct (child_of t i) as [k|] eqn:Ci; [|discriminate]. destruct (nth_error (r_kids t) k) as [s|] eqn:N; [|discriminate].
        destruct (set p x s) as [s'|] eqn:S; [|discriminate]. injection H as <-. cbn [r_kids]. destruct (child_of t j) as [k'|] eqn:Cj; [|reflexivity].
        destruct (Nat.eq_dec k k') as [E|E].
        * subst k'. rewrite nth_replace by (apply nth_error_Some; congruence). rewrite N. apply IH; trivial. assert (i = j) by (apply (child_inj t i j k); trivial). congruence.
        * now rewrite nth_replace_other.
  Qed.

  (** visiting *)
  Section Loop.
    Variable f : rtree T -> list (list Z * T).
    Variable o : Z.
    Fixpoint nloop (c : Z) (ks : list (rtree T)) : list (list Z * T) :=
      match ks with [] => [] | k :: r => map (fun px => (((c - o) mod w64)%Z :: fst px, snd px)) (f k) ++ nloop (c + 1) r end.
  End Loop.
  Fixpoint nodes (t : rtree T) : list (list Z * T) := let (x, o, ks) := t in ([], x) :: nloop nodes o 0 ks.
  Definition under (st : list Z) (px : list Z * T) : list Z * T := (st ++ fst px, snd px).
  Lemma pop_snoc (st : list Z) i : pop (st ++ [i]) = st.
  Proof. unfold pop. rewrite removelast_last. destruct (st ++ [i]) eqn:E; [|reflexivity]. destruct st; discriminate. Qed.
  Lemma visit_nodes t : forall st, do_visit t st = (map (under st) (nodes t), pop st).
  Proof.
    induction t as [x o ks IH] using rtree_ind'. intro st. cbn [do_visit nodes].
    assert (L : forall c,
      (fix loop (c : Z) (ks : list (rtree T)) (st : list Z) {struct ks} : list (list Z * T) * list Z :=
         match ks with
         | [] => ([], st)
         | k :: ks' => let (v, st1) := do_visit k (st ++ [((c - o) mod w64)%Z]) in let (v', st2) := loop (c + 1)%Z ks' st1 in (v ++ v', st2)
         end) c ks st = (map (under st) (nloop nodes o c ks), st)).
    { induction IH as [|k ks Hk _ IHk]; intro c; [reflexivity|]. rewrite Hk, pop_snoc, IHk. cbn [nloop]. rewrite map_app, map_map. f_equal. f_equal.
      apply map_ext. intros [p y]. unfold under. cbn. now rewrite <- app_assoc. }
    rewrite L. cbn [map]. unfold under at 2. cbn [fst snd]. now rewrite app_nil_r.
  Qed.
  Lemma visit_eq t : visit t = nodes t.
  Proof. unfold visit. rewrite visit_nodes. cbn [fst]. rewrite <- map_id. apply map_ext. now intros [p x]. Qed.
  Lemma nloop_in f o ks : forall c p x, In (p, x) (nloop f o c ks) <->
    exists j k q, nth_error ks j = Some k /\ p = ((c + Z.of_nat j - o) mod w64)%Z :: q /\ In (q, x) (f k).
  Proof.
    induction ks as [|k ks IH]; intros c p x; cbn [nloop].
    - split; [intros []|]. intros ([|j] & k & q & H & _); discriminate.
    - rewrite in_app_iff, in_map_iff, IH. split.
      + intros [([q y] & E & I)|(j & k' & q & N & E & I)].
        * injection E as <- <-. exists 0, k, q. cbn. rewrite Z.add_0_r. auto.
        * exists (S j), k', q. split; [exact N|]. split; [|exact I]. rewrite E. do 3 f_equal. lia.
      + intros ([|j] & k' & q & N & E & I).
        * left. cbn in N. injection N as <-. exists (q, x). split; [|exact I]. cbn. rewrite E. cbn. now rewrite Z.add_0_r.
        * right. exists j, k', q. split; [exact N|]. split; [|exact I]. rewrite E. do 3 f_equal. lia.
  Qed.
  Lemma small61 : (2 ^ 61 = 2305843009213693952 /\ 2 ^ 63 = 9223372036854775808 /\ w64 = 18446744073709551616)%Z. Proof. repeat split. Qed.
  Lemma word_mod a : word64 (a mod w64)%Z.
  Proof. unfold word64. change (2 ^ 64)%Z with w64. apply Z.mod_pos_bound. reflexivity. Qed.
  Lemma signed_mod a : (- 2 ^ 62 <= a <= 2 ^ 62)%Z -> to_signed (a mod w64) = a.
  Proof.
    intro H. unfold to_signed. destruct small61 as (_ & -> & E). change (2 ^ 62)%Z with 4611686018427387904%Z in H. rewrite E.
    destruct (Z_lt_dec a 0) as [L|L].
    - replace (a mod 18446744073709551616)%Z with (a + 18446744073709551616)%Z.
      + destruct (_ <? _)%Z eqn:Q; [apply Z.ltb_lt in Q; lia|lia].
      + apply Z.mod_unique with (-1)%Z; lia.
    - rewrite Z.mod_small by lia. destruct (_ <? _)%Z eqn:Q; [reflexivity|]. apply Z.ltb_ge in Q. lia.
  Qed.
  Lemma nodes_in t : modest t -> forall p x, In (p, x) (nodes t) <-> Forall word64 p /\ object_at t p = Some x.
  Proof.
    induction t as [y o ks IH] using rtree_ind'. intros M p x. inversion M as [? ? ? Mo Ml Mk]; subst. cbn [nodes In]. rewrite nloop_in. unfold object_at.
    assert (Ch : forall j, j < length ks -> to_signed ((0 + Z.of_nat j - o) mod w64) = (Z.of_nat j - o)%Z).
    { intros j Hj. rewrite signed_mod; [lia|]. destruct small61 as (E & _ & _). rewrite E in *. change (2 ^ 62)%Z with 4611686018427387904%Z. lia. }
    destruct p as [|i p].
    - cbn. split.
      + intros [H|(j & k & q & _ & H & _)]; [injection H as ->; auto|discriminate].
      + intros [_ H]. left. congruence.
    - cbn [subtree]. split.
      + intros [H|(j & k & q & N & E & I)]; [discriminate|]. injection E as -> ->. assert (Hj : j < length ks) by (apply nth_error_Some; congruence).
        rewrite (proj2 (child_some (RNode y o ks) _ j)) by (split; [exact Hj|now apply Ch]). cbn [r_kids]. rewrite N.
        rewrite Forall_forall in IH, Mk. apply nth_error_In in N. apply (IH k N (Mk k N)) in I as [W I]. split; [constructor; [apply word_mod|exact W]|exact I].
      + intros [W H]. right. inversion W; subst. destruct (child_of (RNode y o ks) i) as [k|] eqn:C; [|discriminate]. cbn [r_kids] in H.
        destruct (nth_error ks k) as [s|] eqn:N; [|discriminate]. apply child_some in C as [Hk C]. cbn [r_kids r_offset] in *. exists k, s, p. split; [exact N|]. split.
        * f_equal. apply signed_inj; [assumption|apply word_mod|]. now rewrite Ch.
        * rewrite Forall_forall in IH, Mk. apply nth_error_In in N. apply (IH s N (Mk s N)). auto.
  Qed.
  Lemma NoDup_app' {A} (a b : list A) : NoDup a -> NoDup b -> (forall z, In z a -> ~ In z b) -> NoDup (a ++ b).
  Proof.
    induction 1 as [|z a Hz _ IH]; intros Nb D; [exact Nb|]. cbn. constructor.
    - rewrite in_app_iff. intros [H|H]; [contradiction|]. apply (D z); [now left|exact H].
    - apply IH; [exact Nb|]. intros y Hy. apply D. now right.
  Qed.
  Lemma nodes_once t : modest t -> NoDup (map fst (nodes t)).
  Proof.
    induction t as [y o ks IH] using rtree_ind'. intro M. inversion M as [? ? ? Mo Ml Mk]; subst. cbn [nodes map fst]. constructor.
    - intro H. apply in_map_iff in H as ([p x] & E & H). cbn in E. subst p. apply nloop_in in H as (j & k & q & _ & E & _). discriminate.
    - assert (G : forall c, (0 <= c)%Z -> (c + Z.of_nat (length ks) <= 2 ^ 61)%Z -> NoDup (map fst (nloop nodes o c ks))); [|apply G; lia].
      clear Ml M. revert Mk. induction IH as [|k ks Hk _ IHk]; intros Mk c C L; cbn [nloop]; [constructor|]. inversion Mk; subst. rewrite map_app, map_map. cbn [length] in L. apply NoDup_app'.
      + cbn [fst]. rewrite <- (map_map fst (fun p => ((c - o) mod w64)%Z :: p)). apply FinFun.Injective_map_NoDup; [intros a b E; now injection E|]. now apply Hk.
      + apply IHk; trivial; lia.
      + intros p I I'. apply in_map_iff in I as ([q x] & <- & _). apply in_map_iff in I' as ([q' x'] & E & I'). cbn [fst] in E. subst q'.
        apply nloop_in in I' as (j & k' & q' & N & E & _). injection E as E _. assert (j < length ks) by (apply nth_error_Some; congruence).
        destruct small61 as (E61 & _ & _). rewrite E61 in *.
        assert (R : forall a, (- 2305843009213693952 <= a <= 4611686018427387904)%Z -> to_signed (a mod w64) = a) by (intros a Ha; apply signed_mod; change (2 ^ 62)%Z with 4611686018427387904%Z; lia).
        apply (f_equal to_signed) in E. rewrite !R in E by lia. lia.
  Qed.
  Lemma visit_all t p x : modest t -> (In (p, x) (visit t) <-> Forall word64 p /\ object_at t p = Some x).
  Proof. intro M. rewrite visit_eq. now apply nodes_in. Qed.
  Lemma visit_once t : modest t -> NoDup (map fst (visit t)).
  Proof. intro M. rewrite visit_eq. now apply nodes_once. Qed.

  (** shapes *)
  Lemma wide_at w d x : forall p, (Z.of_nat w < 2 ^ 63)%Z -> Forall word64 p ->
    (object_at (wide w d x) p = Some x <-> length p <= d /\ Forall (fun i => (i < Z.of_nat w)%Z) p) /\ (object_at (wide w d x) p = Some x \/ object_at (wide w d x) p = None).
  Proof.
    induction d as [|d IH]; intros p W Wp; unfold object_at in *; destruct p as [|i p]; cbn [wide subtree length].
    - cbn. split; [split; auto|auto].
    - inversion Wp; subst. destruct (child_of _ i) as [k|] eqn:C; [apply child_some in C as [C _]; cbn in C; lia|]. split; [|auto]. split; [discriminate|]. intros [H _]. lia.
    - cbn. split; [split; auto; intros _; split; [lia|constructor]|auto].
    - inversion Wp as [|? ? Wi Wp']; subst. destruct (child_of _ i) as [k|] eqn:C.
      + apply child_some in C as [Hk C]. cbn [r_kids r_offset] in *. rewrite repeat_length in Hk. rewrite nth_error_repeat by exact Hk.
        destruct (IH p W Wp') as [I1 I2]. split; [|exact I2]. rewrite I1. rewrite Forall_cons_iff.
        assert (i < Z.of_nat w)%Z; [|split; intros; intuition lia].
        unfold to_signed in C. unfold word64 in Wi. change (2 ^ 64)%Z with w64 in Wi. destruct (i <? 2 ^ 63)%Z eqn:Q; [lia|]. lia.
      + split; [|auto]. split; [discriminate|]. intros [_ H]. inversion H as [|? ? Hi _]; subst. exfalso.
        assert (child_of (RNode x 0 (repeat (wide w d x) w)) i = Some (Z.to_nat i)); [|congruence]. apply child_some. cbn [r_kids r_offset]. rewrite repeat_length.
        unfold word64 in Wi. split; [lia|]. unfold to_signed. rewrite (proj2 (Z.ltb_lt i (2 ^ 63)%Z)) by lia. lia.
  Qed.

  Fixpoint cloop (d : nat) x (cs : list nat) (next : Z) : list (rtree T) :=
    match cs with [] => [] | c :: rest => repeat (chunky d rest x (next - Z.of_nat c)) c ++ cloop d x rest (next - Z.of_nat c) end.
  Lemma chunky_nil d x o : chunky d [] x o = RNode x o []. Proof. now destruct d. Qed.
  Lemma chunky_S d cs x o : chunky (S d) cs x o = RNode x o (cloop d x cs o).
  Proof.
    cbn [chunky]. f_equal. revert o. induction cs as [|c cs IH]; intro o; [reflexivity|]. cbn [cloop]. rewrite IH. f_equal. destruct cs; [now rewrite chunky_nil|reflexivity].
  Qed.
  Lemma cloop_nth d x cs : forall next k, nth_error (cloop d x cs next) k =
    match chunk_of cs k with None => None | Some j => Some (chunky d (skipn (S j) cs) x (next - Z.of_nat (total (firstn (S j) cs)))) end.
  Proof.
    induction cs as [|c cs IH]; intros next k; cbn [cloop chunk_of]; [now destruct k|]. destruct (k <? c) eqn:E; [apply Nat.ltb_lt in E|apply Nat.ltb_ge in E].
    - rewrite nth_error_app1 by now rewrite repeat_length. rewrite nth_error_repeat by exact E. cbn [skipn firstn total fold_right]. do 2 f_equal. lia.
    - rewrite nth_error_app2 by now rewrite repeat_length. rewrite repeat_length, IH. destruct (chunk_of cs (k - c)) as [j|]; [|reflexivity]. cbn [option_map].
      change (skipn (S (S j)) (c :: cs)) with (skipn (S j) cs). change (firstn (S (S j)) (c :: cs)) with (c :: firstn (S j) cs). cbn [total fold_right]. do 2 f_equal. unfold total. lia.
  Qed.
  Lemma cloop_length d x cs : forall next, length (cloop d x cs next) = total cs.
  Proof. induction cs as [|c cs IH]; intro next; [reflexivity|]. cbn [cloop total fold_right]. rewrite app_length, repeat_length, IH. reflexivity. Qed.
  Lemma chunk_total cs : forall k, chunk_of cs k = None <-> total cs <= k.
  Proof.
    induction cs as [|c cs IH]; intro k; cbn [chunk_of total fold_right]; [split; auto; lia|]. destruct (k <? c) eqn:E; [apply Nat.ltb_lt in E|apply Nat.ltb_ge in E].
    - split; [discriminate|lia].
    - specialize (IH (k - c)). unfold total in IH. destruct (chunk_of cs (k - c)); cbn; split; intro H; try discriminate; try lia.
      + assert (Some n = None) by (apply IH; lia). discriminate.
      + destruct IH as [IH _]. specialize (IH eq_refl). lia.
      + reflexivity.
  Qed.
  Definition chunk_from (start : nat) (cs : list nat) (i : nat) : option nat := if i <? start then None else chunk_of cs (i - start).
  Lemma chunk_skip cs : forall j i, j < length cs ->
    (exists c, chunk_of cs i = Some c /\ j < c) <-> (total (firstn (S j) cs) <= i /\ exists c, chunk_of (skipn (S j) cs) (i - total (firstn (S j) cs)) = Some c).
  Proof.
    induction cs as [|c cs IH]; intros j i J; [cbn in J; lia|]. cbn [length] in J. cbn [chunk_of]. destruct j as [|j].
    - cbn [firstn skipn total fold_right]. rewrite Nat.add_0_r. destruct (i <? c) eqn:E; [apply Nat.ltb_lt in E|apply Nat.ltb_ge in E].
      + split; [intros (a & H & L); injection H as <-; lia|intros [H _]; lia].
      + split.
        * intros (a & H & L). split; [exact E|]. destruct (chunk_of cs (i - c)); [eauto|discriminate].
        * intros (_ & a & ->). exists (S a). split; [reflexivity|lia].
    - change (skipn (S (S j)) (c :: cs)) with (skipn (S j) cs). change (total (firstn (S (S j)) (c :: cs))) with (c + total (firstn (S j) cs)).
      destruct (i <? c) eqn:E; [apply Nat.ltb_lt in E|apply Nat.ltb_ge in E].
      + split; [intros (a & H & L); injection H as <-; lia|intros [H _]; lia].
      + specialize (IH j (i - c) ltac:(lia)). rewrite Nat.sub_add_distr. split.
        * intros (a & H & L). destruct (chunk_of cs (i - c)) as [b|]; [|discriminate]. injection H as <-. destruct (proj1 IH) as [A B]; [exists b; split; [reflexivity|lia]|]. split; [lia|exact B].
        * intros [A B]. destruct (proj2 IH) as (b & Hb & L); [split; [lia|exact B]|]. exists (S b). rewrite Hb. split; [reflexivity|lia].
  Qed.
  Lemma chunk_skip_value cs : forall j i c, chunk_of cs i = Some c -> j < c -> chunk_of (skipn (S j) cs) (i - total (firstn (S j) cs)) = Some (c - S j).
  Proof.
    induction cs as [|a cs IH]; intros j i c H L; [discriminate|]. cbn [chunk_of] in H. destruct (i <? a); [injection H as <-; lia|].
    destruct (chunk_of cs (i - a)) as [b|] eqn:B; [|discriminate]. injection H as <-. destruct j as [|j].
    - cbn [firstn skipn total fold_right]. rewrite Nat.add_0_r, B. f_equal. lia.
    - change (skipn (S (S j)) (a :: cs)) with (skipn (S j) cs). change (total (firstn (S (S j)) (a :: cs))) with (a + total (firstn (S j) cs)).
      rewrite Nat.sub_add_distr. rewrite (IH j (i - a) b B) by lia. f_equal.
  Qed.
  Lemma chunk_length cs : forall i c, chunk_of cs i = Some c -> c < length cs.
  Proof.
    induction cs as [|a cs IH]; intros i c H; [discriminate|]. cbn [chunk_of length] in *. destruct (i <? a); [injection H as <-; lia|].
    destruct (chunk_of cs (i - a)) as [b|] eqn:B; [|discriminate]. injection H as <-. apply IH in B. lia.
  Qed.
  Definition monotonic_from (start : nat) (cs : list nat) (l : list nat) : Prop := exists js, map (chunk_from start cs) l = map Some js /\ StronglySorted lt js.
  Lemma sorted_shift k js : StronglySorted lt (map (fun j => k + j) js) <-> StronglySorted lt js.
  Proof.
    induction js as [|j js IH]; cbn; [split; constructor|]. split; intro H; inversion H as [|? ? S F]; subst; constructor; try (now apply IH);
      rewrite Forall_forall in *; intros y Hy.
    - specialize (F (k + y) (in_map _ _ _ Hy)). lia.
    - apply in_map_iff in Hy as (z & <- & Hz). specialize (F z Hz). lia.
  Qed.
  Lemma cons_eq {A} (a b : A) l m : a :: l = b :: m -> a = b /\ l = m. Proof. intro H. now injection H. Qed.
  Lemma mono_cons start cs i l : monotonic_from start cs (i :: l) <->
    exists j, chunk_from start cs i = Some j /\ monotonic_from (start + total (firstn (S j) cs)) (skipn (S j) cs) l.
  Proof.
    unfold monotonic_from. split.
    - intros (js & M & So). destruct js as [|j js]; [discriminate|]. apply cons_eq in M as [M0 M]. exists j. split; [exact M0|]. inversion So as [|? ? So' F]; subst.
      exists (map (fun c => c - S j) js). split.
      + revert js M F So So'. induction l as [|a l IH]; intros js M F So So'; destruct js as [|c js]; try discriminate; [reflexivity|]. cbn [map] in *. apply cons_eq in M as [Ma M].
        inversion F; subst. inversion So'; subst. f_equal.
        * unfold chunk_from in *. destruct (a <? start) eqn:Q; [discriminate|]. apply Nat.ltb_ge in Q.
          assert (J : j < length cs) by (destruct (i <? start); [discriminate|]; now apply chunk_length in M0).
          destruct (proj1 (chunk_skip cs j (a - start) J)) as [A _]; [eauto|]. rewrite (proj2 (Nat.ltb_ge _ _)) by lia. rewrite Nat.sub_add_distr. now apply chunk_skip_value.
        * apply IH; trivial. inversion So; subst. constructor; trivial.
      + assert (E : js = map (fun c => S j + c) (map (fun c => c - S j) js)).
        { rewrite map_map. rewrite <- (map_id js) at 1. apply map_ext_in. intros c Hc. rewrite Forall_forall in F. specialize (F c Hc). lia. }
        apply (sorted_shift (S j)). now rewrite <- E.
    - intros (j & M0 & js & M & So). assert (J : j < length cs) by (unfold chunk_from in M0; destruct (i <? start); [discriminate|]; now apply chunk_length in M0).
      exists (j :: map (fun c => S j + c) js). split.
      + cbn [map]. rewrite M0. f_equal. clear So. revert js M. induction l as [|a l IH]; intros js M; destruct js as [|c js]; try discriminate; [reflexivity|]. cbn [map] in *. apply cons_eq in M as [Ma M].
        f_equal; [|now apply IH]. unfold chunk_from in *. destruct (a <? start + total (firstn (S j) cs)) eqn:Q in Ma; [discriminate Ma|]. apply Nat.ltb_ge in Q.
        rewrite (proj2 (Nat.ltb_ge _ _)) by lia. rewrite Nat.sub_add_distr in Ma.
        destruct (proj2 (chunk_skip cs j (a - start) J)) as (b & Hb & L); [split; [lia|eauto]|]. rewrite (chunk_skip_value cs j _ b Hb L) in Ma. injection Ma as Ma. rewrite Hb. f_equal. lia.
      + constructor; [now apply sorted_shift|]. rewrite Forall_forall. intros y Hy. apply in_map_iff in Hy as (z & <- & _). lia.
  Qed.
  Lemma total_split j cs : total cs = total (firstn j cs) + total (skipn j cs).
  Proof. rewrite <- (firstn_skipn j cs) at 1. unfold total. generalize (skipn j cs). intro b. induction (firstn j cs) as [|a l IH]; cbn; [reflexivity|]. rewrite IH. lia. Qed.
  Lemma chunky_at d x : forall start cs l, (Z.of_nat (start + total cs) < 2 ^ 63)%Z -> Forall (fun i => word64 (Z.of_nat i)) l ->
    (object_at (chunky d cs x (- Z.of_nat start)) (map Z.of_nat l) = Some x <-> length l <= d /\ monotonic_from start cs l) /\
    (object_at (chunky d cs x (- Z.of_nat start)) (map Z.of_nat l) = Some x \/ object_at (chunky d cs x (- Z.of_nat start)) (map Z.of_nat l) = None).
  Proof.
    induction d as [|d IH]; intros start cs l B W; unfold object_at in *; destruct l as [|i l]; cbn [map subtree length].
    - cbn. split; [|auto]. split; [|auto]. intros _. split; [lia|]. exists []. split; constructor.
    - destruct (child_of _ _) as [k|] eqn:C; [apply child_some in C as [C _]; cbn in C; lia|]. split; [|auto]. split; [discriminate|]. intros [H _]. lia.
    - rewrite chunky_S. cbn. split; [|auto]. split; [|auto]. intros _. split; [lia|]. exists []. split; constructor.
    - inversion W as [|? ? Wi Wl]; subst. rewrite mono_cons. rewrite chunky_S.
      assert (Ch : child_of (RNode x (- Z.of_nat start) (cloop d x cs (- Z.of_nat start))) (Z.of_nat i) = if (start <=? i) && (i <? start + total cs) then Some (i - start) else None).
      { destruct ((start <=? i) && (i <? start + total cs)) eqn:E.
        - apply andb_true_iff in E as [E1 E2]. apply Nat.leb_le in E1. apply Nat.ltb_lt in E2. apply child_some. cbn [r_kids r_offset]. rewrite cloop_length. split; [lia|].
          unfold to_signed. rewrite (proj2 (Z.ltb_lt _ _)) by lia. lia.
        - destruct (child_of _ _) as [k|] eqn:C; [|reflexivity]. apply child_some in C as [Hk C]. cbn [r_kids r_offset] in *. rewrite cloop_length in Hk. exfalso.
          unfold to_signed in C. unfold word64 in Wi. change (2 ^ 64)%Z with w64 in Wi. destruct (Z.of_nat i <? 2 ^ 63)%Z; [|lia].
          apply andb_false_iff in E as [E|E]; [apply Nat.leb_gt in E|apply Nat.ltb_ge in E]; lia. }
      rewrite Ch. cbn [r_kids]. unfold chunk_from. destruct ((start <=? i) && (i <? start + total cs)) eqn:E.
      + apply andb_true_iff in E as [E1 E2]. apply Nat.leb_le in E1. apply Nat.ltb_lt in E2. rewrite (proj2 (Nat.ltb_ge i start)) by lia. rewrite cloop_nth.
        destruct (chunk_of cs (i - start)) as [j|] eqn:J; [|apply chunk_total in J; lia].
        replace (- Z.of_nat start - Z.of_nat (total (firstn (S j) cs)))%Z with (- Z.of_nat (start + total (firstn (S j) cs)))%Z by lia.
        destruct (IH (start + total (firstn (S j) cs)) (skipn (S j) cs) l) as [I1 I2]; [rewrite <- Nat.add_assoc, <- total_split; exact B|exact Wl|].
        split; [|exact I2]. rewrite I1. split.
        * intros [L M]. split; [lia|]. exists j. auto.
        * intros [L (j' & Ej & M)]. injection Ej as <-. split; [lia|exact M].
      + split; [|auto]. split; [discriminate|]. intros [_ (j & H & _)]. exfalso. destruct (i <? start) eqn:Q; [discriminate|]. apply Nat.ltb_ge in Q.
        assert (~ total cs <= i - start) by (intro Q'; apply chunk_total in Q'; congruence).
        apply andb_false_iff in E as [E|E]; [apply Nat.leb_gt in E|apply Nat.ltb_ge in E]; lia.
  Qed.
  Lemma monotonic_zero cs l : monotonic_from 0 cs l <-> monotonic cs l.
  Proof. unfold monotonic_from, monotonic. assert (E : map (chunk_from 0 cs) l = map (chunk_of cs) l) by (apply map_ext; intro i; unfold chunk_from; cbn; now rewrite Nat.sub_0_r). now rewrite E. Qed.
End Rec.
