(** The layout of inflation scenarios. *)
From Coq Require Import List NArith ZArith Arith Bool Lia Permutation.
From Verif Require Import CoreModel AlgModel InfModel InfSpec.
Import ListNotations.

(** * The network *)
Lemma sources_same srcs o : sources_of srcs o = sources srcs o.
Proof.
  unfold sources_of, sources. apply filter_ext. intros s. unfold influences.
  destruct (in_dec Nat.eq_dec o (nth s srcs [])) as [I|I].
  - apply existsb_exists. exists o. split; [assumption|apply Nat.eqb_refl].
  - destruct (existsb (Nat.eqb o) (nth s srcs [])) eqn:E; [|reflexivity].
    apply existsb_exists in E. destruct E as [x [J X]]. apply Nat.eqb_eq in X. subst. contradiction.
Qed.
Lemma sources_bound srcs o s : In s (sources srcs o) -> s < length srcs.
Proof. unfold sources. rewrite filter_In, in_seq. lia. Qed.
Lemma sources_nodup srcs o : NoDup (sources srcs o).
Proof. apply NoDup_filter, seq_NoDup. Qed.

Definition alone srcs o : nat := match sources srcs o with [] => 1 | _ => 0 end.
Fixpoint loners srcs (o n : nat) : nat := match n with 0 => 0 | S n' => alone srcs o + loners srcs (S o) n' end.
Lemma loners_end srcs n : forall o, loners srcs o (S n) = loners srcs o n + alone srcs (o + n).
Proof.
  induction n as [|n IH]; intros o; [cbn [loners]; rewrite !Nat.add_0_r; lia|].
  change (loners srcs o (S (S n))) with (alone srcs o + loners srcs (S o) (S n)). rewrite IH. cbn [loners].
  replace (o + S n) with (S o + n) by lia. lia.
Qed.
Definition the_obs srcs (o next k : nat) : observable :=
  match sources srcs o with [] => mk_obs k [next] true | ss => mk_obs k ss false end.
Lemma make_obs_spec srcs : forall outcomes o next,
  length (fst (make_obs srcs o next outcomes)) = length outcomes /\
  snd (make_obs srcs o next outcomes) = next + loners srcs o (length outcomes) /\
  forall i d, i < length outcomes -> nth i (fst (make_obs srcs o next outcomes)) d
                                     = the_obs srcs (o + i) (next + loners srcs o i) (nth i outcomes 0).
Proof.
  induction outcomes as [|k rest IH]; intros o next.
  - split; [reflexivity|]. split; [cbn; lia|]. cbn. lia.
  - cbn [make_obs]. rewrite sources_same.
    destruct (sources srcs o) as [|s0 ss] eqn:SS.
    + specialize (IH (S o) (S next)). destruct (make_obs srcs (S o) (S next) rest) as [obs nx]. cbn [fst snd] in *.
      destruct IH as [A [B Cc]]. split; [cbn; lia|]. split.
      * cbn [length loners]. unfold alone. rewrite SS, B. lia.
      * intros [|i] d I; cbn [nth].
        -- cbn [loners]. rewrite !Nat.add_0_r. unfold the_obs. now rewrite SS.
        -- rewrite Cc by (cbn in I; lia). cbn [loners]. unfold alone. rewrite SS.
           replace (S o + i) with (o + S i) by lia. replace (S next + loners srcs (S o) i) with (next + (1 + loners srcs (S o) i)) by lia.
           reflexivity.
    + specialize (IH (S o) next). destruct (make_obs srcs (S o) next rest) as [obs nx]. cbn [fst snd] in *.
      destruct IH as [A [B Cc]]. split; [cbn; lia|]. split.
      * cbn [length loners]. unfold alone. rewrite SS, B. lia.
      * intros [|i] d I; cbn [nth].
        -- cbn [loners]. rewrite !Nat.add_0_r. unfold the_obs. now rewrite SS.
        -- rewrite Cc by (cbn in I; lia). cbn [loners]. unfold alone. rewrite SS.
           replace (S o + i) with (o + S i) by lia. reflexivity.
Qed.

Section Net.
  Variables (outcomes : list nat) (srcs : list (list nat)) (nt : network).
  Hypothesis MK : make_network outcomes srcs = Some nt.
  Lemma net_explicit : nt_explicit nt = length srcs.
  Proof.
    unfold make_network in MK. destruct (in_bounds _ _); [|discriminate]. destruct (make_obs _ _ _ _) as [obs nx].
    injection MK as <-. reflexivity.
  Qed.
  Lemma net_length : length (nt_obs nt) = length outcomes.
  Proof.
    unfold make_network in MK. destruct (in_bounds _ _); [|discriminate].
    pose proof (make_obs_spec srcs outcomes 0 (length srcs)) as [A _].
    destruct (make_obs _ _ _ _) as [obs nx]. injection MK as <-. exact A.
  Qed.
  Lemma net_implicit : nt_implicit nt = loners srcs 0 (length outcomes).
  Proof.
    unfold make_network in MK. destruct (in_bounds _ _); [|discriminate].
    pose proof (make_obs_spec srcs outcomes 0 (length srcs)) as [_ [A _]].
    destruct (make_obs _ _ _ _) as [obs nx]. injection MK as <-. cbn in *. lia.
  Qed.
  Lemma net_obs i d : i < length outcomes ->
    nth i (nt_obs nt) d = the_obs srcs i (length srcs + loners srcs 0 i) (nth i outcomes 0).
  Proof.
    intros I. unfold make_network in MK. destruct (in_bounds _ _); [|discriminate].
    pose proof (make_obs_spec srcs outcomes 0 (length srcs)) as [_ [_ A]].
    destruct (make_obs _ _ _ _) as [obs nx]. injection MK as <-. cbn in *. now rewrite A.
  Qed.
End Net.
Lemma network_made outcomes srcs : well_formed outcomes srcs <-> make_network outcomes srcs <> None.
Proof.
  unfold make_network, well_formed. split.
  - intros W. assert (in_bounds (length outcomes) srcs = true) as ->.
    { apply forallb_forall. intros s I. apply forallb_forall. intros o J. apply Nat.ltb_lt. eauto. }
    destruct (make_obs _ _ _ _). discriminate.
  - intros N s o I J. destruct (in_bounds (length outcomes) srcs) eqn:E; [|congruence].
    unfold in_bounds in E. rewrite forallb_forall in E. specialize (E s I). rewrite forallb_forall in E. apply Nat.ltb_lt. auto.
Qed.

(** * Index vectors *)
Fixpoint flat (L : nat) (xs : list nat) : nat := match xs with [] => 0 | x :: r => x + L * flat L r end.
Lemma flatten_flat L xs : forall base, flatten_from L base xs = base * flat L xs.
Proof. induction xs as [|x r IH]; intros base; cbn; [lia|]. rewrite IH. nia. Qed.
Lemma flatten_is L xs : flatten_index L xs = flat L xs.
Proof. unfold flatten_index. rewrite flatten_flat. lia. Qed.
Lemma unflatten_length L k : forall v, length (unflatten L k v) = k.
Proof. induction k as [|k IH]; intros v; cbn; [reflexivity|]. now rewrite IH. Qed.
Lemma unflatten_index_length L k v : length (unflatten_index L k v) = k.
Proof. unfold unflatten_index. destruct (Nat.eqb L 0); [apply repeat_length|apply unflatten_length]. Qed.
Lemma flat_unflatten L k : 0 < L -> forall v, v < L ^ k -> flat L (unflatten L k v) = v.
Proof.
  intros P. induction k as [|k IH]; intros v B; [cbn in *; lia|].
  cbn [unflatten flat]. rewrite IH.
  - pose proof (Nat.div_mod v L). lia.
  - apply Nat.div_lt_upper_bound; [lia|]. now rewrite Nat.pow_succ_r' in B.
Qed.
Lemma unflatten_flat L k : forall xs, length xs = k -> (forall i, In i xs -> i < L) -> unflatten L k (flat L xs) = xs.
Proof.
  induction k as [|k IH]; intros [|x r] E B; cbn in E; try discriminate; [reflexivity|].
  cbn [unflatten flat]. pose proof (B x (or_introl eq_refl)) as X.
  assert ((x + L * flat L r) mod L = x) as ->.
  { rewrite Nat.mul_comm, Nat.mod_add by lia. now apply Nat.mod_small. }
  assert ((x + L * flat L r) / L = flat L r) as ->.
  { rewrite Nat.mul_comm, Nat.div_add by lia. rewrite Nat.div_small by assumption. lia. }
  rewrite IH; [reflexivity|lia|]. intros i I. apply B. now right.
Qed.
Lemma unflatten_bound L k : 0 < L -> forall v i, In i (unflatten L k v) -> i < L.
Proof.
  intros P. induction k as [|k IH]; intros v i; cbn [unflatten]; [intros []|].
  intros [<-|I]; [apply Nat.mod_upper_bound; lia|eauto].
Qed.
Lemma flat_bound L : forall xs, (forall i, In i xs -> i < L) -> flat L xs < L ^ length xs.
Proof.
  induction xs as [|x r IH]; intros B; [cbn; lia|].
  cbn [flat length]. rewrite Nat.pow_succ_r'. pose proof (B x (or_introl eq_refl)).
  assert (flat L r < L ^ length r) by (apply IH; intros; apply B; now right). nia.
Qed.
Lemma flat_app L : forall a b, flat L (a ++ b) = flat L a + L ^ length a * flat L b.
Proof. induction a as [|x a IH]; intros b; cbn; [lia|]. rewrite IH. nia. Qed.
(** the last index counts most *)
Lemma flat_order L : forall a b, length a = length b -> (forall i, In i a -> i < L) -> (forall i, In i b -> i < L) ->
  (lex_less (rev a) (rev b) <-> flat L a < flat L b).
Proof.
  intros a. induction a as [|x a IH] using rev_ind; intros b E A B.
  - destruct b; [|discriminate]. cbn. lia.
  - destruct b as [|y b _] using rev_ind; [rewrite app_length in E; cbn in E; lia|].
    rewrite !app_length in E. cbn in E. rewrite !rev_app_distr. cbn [rev app lex_less].
    rewrite !flat_app. cbn [flat]. rewrite !Nat.mul_0_r, !Nat.add_0_r.
    rewrite (IH b) by (try lia; intros i I; first [apply A; apply in_or_app; left; exact I | apply B; apply in_or_app; left; exact I]).
    assert (flat L a < L ^ length a) by (apply flat_bound; intros; apply A; apply in_or_app; now left).
    assert (flat L b < L ^ length b) by (apply flat_bound; intros; apply B; apply in_or_app; now left).
    replace (length b) with (length a) in * by lia. remember (L ^ length a) as P.
    remember (flat L a) as fa. remember (flat L b) as fb. clear - H H0.
    split.
    + intros [Hx|[-> Hx]]; nia.
    + intros Q. destruct (lt_eq_lt_dec x y) as [[Z|Z]|Z]; [now left|right; subst; split; [reflexivity|lia]|exfalso; nia].
Qed.

(** * Blocks *)
Lemma blocks_nth {A} (f : nat -> nat -> A) k d : forall n s v a, v < n -> a < k ->
  nth (v * k + a) (flat_map (fun v => map (f v) (seq 0 k)) (seq s n)) d = f (s + v) a.
Proof.
  induction n as [|n IH]; intros s v a V K; [lia|].
  cbn [seq flat_map]. destruct v as [|v].
  - cbn [Nat.mul Nat.add]. rewrite app_nth1 by (now rewrite map_length, seq_length).
    rewrite Nat.add_0_r. rewrite nth_indep with (d' := f s 0) by (now rewrite map_length, seq_length).
    rewrite map_nth with (d := 0). now rewrite seq_nth.
  - rewrite app_nth2 by (rewrite map_length, seq_length; lia). rewrite map_length, seq_length.
    replace (S v * k + a - k) with (v * k + a) by lia. rewrite IH by lia. now replace (S s + v) with (s + S v) by lia.
Qed.
Lemma blocks_length {A} (f : nat -> nat -> A) k : forall n s, length (flat_map (fun v => map (f v) (seq 0 k)) (seq s n)) = n * k.
Proof. induction n as [|n IH]; intros s; [reflexivity|]. cbn [seq flat_map]. rewrite app_length, IH, map_length, seq_length. lia. Qed.

(** * The tables *)
Definition offs (f : observable -> nat) (obs : list observable) (i : nat) : nat := list_sum (map f (firstn i obs)).
Lemma offs_S f o obs i : offs f (o :: obs) (S i) = f o + offs f obs i. Proof. reflexivity. Qed.
Lemma offs_all f obs : offs f obs (length obs) = list_sum (map f obs). Proof. unfold offs. now rewrite firstn_all. Qed.
Definition d_obs : observable := mk_obs 0 [] true.
Lemma offs_next f : forall obs i, i < length obs -> offs f obs (S i) = offs f obs i + f (nth i obs d_obs).
Proof.
  induction obs as [|o obs IH]; intros i I; [cbn in I; lia|]. destruct i as [|i]; [unfold offs; cbn; lia|].
  rewrite !offs_S. rewrite IH by (cbn in I; lia). cbn [nth]. lia.
Qed.
Lemma offs_mono f obs : forall i j, i <= j -> j <= length obs -> offs f obs i <= offs f obs j.
Proof. intros i j H. induction H as [|j H IH]; intros J; [lia|]. rewrite offs_next by lia. specialize (IH ltac:(lia)). lia. Qed.
Lemma offs_find f : forall obs x, x < list_sum (map f obs) -> exists i r, i < length obs /\ r < f (nth i obs d_obs) /\ x = offs f obs i + r.
Proof.
  induction obs as [|o obs IH]; intros x X; [cbn in X; lia|].
  change (list_sum (map f (o :: obs))) with (f o + list_sum (map f obs)) in X.
  destruct (lt_dec x (f o)) as [l|g].
  - exists 0, x. split; [cbn; lia|]. split; [exact l|]. reflexivity.
  - destruct (IH (x - f o)) as [i [r [A [B Cc]]]]; [lia|]. exists (S i), r.
    split; [cbn; lia|]. split; [exact B|]. rewrite offs_S. lia.
Qed.

Lemma inflate_spec nt L : forall obs id nop ncp,
  let '(ios, infos, index) := inflate_from nt L id nop ncp obs in
  length ios = length obs /\
  (forall i, i < length obs -> nth i ios no_obs =
     mk_icobs (nth i obs d_obs) (nop + offs (count_operators L) obs i) (ncp + offs (count_copies L) obs i)
              (make_copies nt L (nop + offs (count_operators L) obs i) (nth i obs d_obs))) /\
  length infos = list_sum (map (count_operators L) obs) /\
  (forall i v a, i < length obs -> v < count_copies L (nth i obs d_obs) -> a < operators (nth i obs d_obs) ->
     nth (offs (count_operators L) obs i + (v * operators (nth i obs d_obs) + a)) infos no_info = mk_opinfo (id + i) v a (projective (nth i obs d_obs))) /\
  length index = list_sum (map (count_copies L) obs) /\
  (forall i v, i < length obs -> v < count_copies L (nth i obs d_obs) -> nth (offs (count_copies L) obs i + v) index (0, 0) = (id + i, v)).
Proof.
  induction obs as [|o obs IH]; intros id nop ncp.
  - cbn. split; [reflexivity|]. split; [intros; lia|]. split; [reflexivity|]. split; [intros; lia|]. split; [reflexivity|intros; lia].
  - cbn [inflate_from]. cbv zeta.
    set (ops := flat_map (fun v => map (fun a => mk_opinfo id v a (projective o)) (seq 0 (operators o))) (seq 0 (count_copies L o))).
    assert (LO : length ops = count_operators L o)
      by (unfold ops; rewrite (blocks_length (fun v a => mk_opinfo id v a (projective o))); unfold count_operators; lia).
    specialize (IH (S id) (nop + length ops) (ncp + count_copies L o)).
    destruct (inflate_from nt L (S id) (nop + length ops) (ncp + count_copies L o) obs) as [[ios infos] index].
    rewrite LO in IH. destruct IH as [A [B [Cc [D [E F]]]]].
    split; [cbn; lia|]. split.
    { intros [|i] I; cbn [nth].
      - unfold offs. cbn. now rewrite !Nat.add_0_r.
      - cbn in I. rewrite B by lia. rewrite !offs_S, !Nat.add_assoc. reflexivity. }
    split. { rewrite app_length, LO, Cc. reflexivity. }
    split.
    { intros [|i] v a I V K; cbn [nth] in *.
      - unfold offs. cbn [firstn map list_sum fold_right Nat.add]. rewrite app_nth1.
        + unfold ops. rewrite (blocks_nth (fun v a => mk_opinfo id v a (projective o))) by assumption. now rewrite !Nat.add_0_r.
        + rewrite LO. unfold count_operators. nia.
      - cbn in I. rewrite offs_S. rewrite app_nth2 by (rewrite LO; lia). rewrite LO.
        replace (count_operators L o + offs (count_operators L) obs i + (v * operators (nth i obs d_obs) + a) - count_operators L o)
          with (offs (count_operators L) obs i + (v * operators (nth i obs d_obs) + a)) by lia.
        rewrite D by (assumption || lia). now replace (id + S i) with (S id + i) by lia. }
    split. { rewrite app_length, map_length, seq_length, E. reflexivity. }
    intros [|i] v I V; cbn [nth] in *.
    + unfold offs. cbn [firstn map list_sum fold_right Nat.add]. rewrite app_nth1 by (now rewrite map_length, seq_length).
      rewrite nth_indep with (d' := (id, 0)) by (now rewrite map_length, seq_length).
      rewrite map_nth with (d := 0). rewrite seq_nth by assumption. now rewrite !Nat.add_0_r.
    + cbn in I. rewrite offs_S. rewrite app_nth2 by (rewrite map_length, seq_length; lia). rewrite map_length, seq_length.
      replace (count_copies L o + offs (count_copies L) obs i + v - count_copies L o) with (offs (count_copies L) obs i + v) by lia.
      rewrite F by (assumption || lia). now replace (id + S i) with (S id + i) by lia.
Qed.
