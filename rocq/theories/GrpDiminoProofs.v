(** Dimino's algorithm, in a type all of whose elements form a group. *)
From Coq Require Import List Arith Bool Lia Permutation.
From Verif Require Import CoreModel AlgModel GrpModel GrpSpec GrpCutProofs.
Import ListNotations.

Section Total.
  Variables (E : Type) (all : list E) (mul : E -> E -> E) (one one1 : E) (inv : E -> E) (eqb : E -> E -> bool).
  Hypothesis all_nodup : NoDup all.
  Hypothesis all_in : forall x, In x all.
  Hypothesis assoc : forall x y z, mul x (mul y z) = mul (mul x y) z.
  Hypothesis left : forall x, mul one x = x.
  Hypothesis right : forall x, mul x one = x.
  Hypothesis inv_l : forall x, mul (inv x) x = one.
  Hypothesis inv_r : forall x, mul x (inv x) = one.
  Hypothesis eqb_eq : forall x y, eqb x y = true <-> x = y.
  Notation pw := (power mul one).
  Lemma mem x l : existsb (eqb x) l = true <-> In x l.
  Proof. rewrite existsb_exists. split; [intros [y [I H]]; apply eqb_eq in H; now subst|intros I; exists x; split; [exact I|now apply eqb_eq]]. Qed.
  Lemma mem_false x l : existsb (eqb x) l = false <-> ~ In x l.
  Proof. rewrite <- mem. now destruct (existsb (eqb x) l). Qed.
  Lemma cancel x y z : mul x z = mul y z -> x = y.
  Proof. intros H. rewrite <- (right x), <- (right y), <- (inv_r z), !assoc. now rewrite H. Qed.
  Lemma pw_add g i j : pw g (i + j) = mul (pw g i) (pw g j).
  Proof. induction j as [|j IH]; [rewrite Nat.add_0_r; cbn; now rewrite right|]. rewrite Nat.add_succ_r. cbn. now rewrite IH, assoc. Qed.
  Lemma pw_mul g n k : pw g n = one -> pw g (n * k) = one.
  Proof. intros H. induction k as [|k IH]; [now rewrite Nat.mul_0_r|]. now rewrite Nat.mul_succ_r, pw_add, IH, H, left. Qed.

  (** * The first orbit *)
  Lemma orbit_some g : forall max k l, orbit mul eqb one max g (pw g k) = Some l ->
    l = map (pw g) (seq k (length l)) /\ pw g (k + length l) = one /\ (forall j, j < length l -> pw g (k + j) <> one) /\ length l <= max.
  Proof.
    induction max as [|max IH]; intros k l; cbn [orbit]; destruct (eqb (pw g k) one) eqn:Q.
    1, 3: intros H; injection H as <-; apply eqb_eq in Q; cbn; rewrite Nat.add_0_r; repeat split; [exact Q|lia|lia].
    - discriminate.
    - assert (N : pw g k <> one) by (intros C; apply eqb_eq in C; congruence). change (mul (pw g k) g) with (pw g (S k)). destruct (orbit mul eqb one max g (pw g (S k))) as [l'|] eqn:O; [|discriminate]. intros H. injection H as <-. destruct (IH (S k) l' O) as [A [B [C D]]]. cbn [length seq map].
      split; [now rewrite <- A|]. split; [now rewrite <- Nat.add_succ_comm|]. split; [|lia]. intros [|j] Hj; [now rewrite Nat.add_0_r|]. rewrite <- Nat.add_succ_comm. apply C. lia.
  Qed.
  Lemma orbit_none g : forall max k, orbit mul eqb one max g (pw g k) = None <-> forall j, j <= max -> pw g (k + j) <> one.
  Proof.
    induction max as [|max IH]; intros k; cbn [orbit]; destruct (eqb (pw g k) one) eqn:Q.
    1, 3: apply eqb_eq in Q; split; [discriminate|intros H; destruct (H 0 ltac:(lia)); now rewrite Nat.add_0_r].
    all: assert (N : pw g k <> one) by (intros C; apply eqb_eq in C; congruence).
    - split; [|reflexivity]. intros _ j Hj. assert (j = 0) as -> by lia. now rewrite Nat.add_0_r.
    - change (mul (pw g k) g) with (pw g (S k)). specialize (IH (S k)). destruct (orbit mul eqb one max g (pw g (S k))) as [l'|].
      + split; [discriminate|]. intros H. assert (X : Some l' = None); [|discriminate]. apply IH. intros j Hj. rewrite Nat.add_succ_comm. apply H. lia.
      + split; [|reflexivity]. intros _ [|j] Hj; [now rewrite Nat.add_0_r|]. rewrite <- Nat.add_succ_comm. apply IH; [reflexivity|lia].
  Qed.
  (** what is needed of the elements before a new generator *)
  Record subgroup (gens old : list E) : Prop := mk_subgroup {
    sg_nodup : NoDup old;
    sg_head : hd_error old = Some one;
    sg_mul : forall x y, In x old -> In y old -> In (mul x y) old;
    sg_inv : forall x, In x old -> In (inv x) old;
    sg_gen : forall F : E -> bool, F one = true -> (forall x s, F x = true -> In s gens -> In s old -> F (mul x s) = true) -> forall h, In h old -> F h = true }.
  Lemma cyclic g gens max l : In g gens -> orbit mul eqb one max g g = Some l -> subgroup gens (one :: l).
  Proof.
    intros Ig H. assert (Hg : g = pw g 1) by (cbn; now rewrite left). rewrite Hg in H at 2. destruct (orbit_some g max 1 l H) as [A [B [C _]]]. set (m := length l) in *.
    assert (El : one :: l = map (pw g) (seq 0 (S m))) by (cbn; now rewrite A at 1). rewrite El. change (1 + m) with (S m) in B.
    assert (Md : forall k, In (pw g k) (map (pw g) (seq 0 (S m)))).
    { intros k. rewrite (Nat.div_mod k (S m)) by lia. rewrite pw_add, pw_mul, left by exact B. apply in_map. apply in_seq. pose proof (Nat.mod_upper_bound k (S m)). lia. }
    constructor.
    - apply NoDup_nth with (d := one). intros i j Hi Hj Q. rewrite map_length, seq_length in Hi, Hj. assert (Nt : forall a, a < S m -> nth a (map (pw g) (seq 0 (S m))) one = pw g a).
      { intros a La. rewrite (nth_indep _ one (pw g 0)) by (rewrite map_length, seq_length; lia). rewrite (map_nth (pw g)), seq_nth by lia. reflexivity. }
      rewrite !Nt in Q by lia.
      assert (X : forall a b, a < b -> b < S m -> pw g a <> pw g b).
      { intros a b La Lb Q'. assert (X : pw g (b - a) = one). { apply (cancel _ _ (pw g a)). rewrite left, <- pw_add. replace (b - a + a) with b by lia. now symmetry. }
        apply (C (b - a - 1)); [lia|]. replace (1 + (b - a - 1)) with (b - a) by lia. exact X. }
      destruct (lt_eq_lt_dec i j) as [[L|L]|L]; [exfalso; apply (X i j L); [lia|exact Q]|exact L|exfalso; apply (X j i L); [lia|now symmetry]].
    - reflexivity.
    - intros x y Ix Iy. apply in_map_iff in Ix, Iy. destruct Ix as [i [<- _]], Iy as [j [<- _]]. rewrite <- pw_add. apply Md.
    - intros x Ix. apply in_map_iff in Ix. destruct Ix as [i [<- Ii]]. apply in_seq in Ii. replace (inv (pw g i)) with (pw g (S m - i)); [apply Md|]. apply (cancel _ _ (pw g i)). rewrite inv_l, <- pw_add. replace (S m - i + i) with (S m) by lia. exact B.
    - intros F F1 Fs h Ih. apply in_map_iff in Ih. destruct Ih as [i [<- _]]. assert (Ig' : In g (map (pw g) (seq 0 (S m)))) by (rewrite Hg at 1; apply Md). induction i as [|i IH]; [exact F1|]. cbn. now apply Fs.
  Qed.

  (** * Cosets *)
  Section Cosets.
    Variables (gens old : list E).
    Hypothesis SG : subgroup gens old.
    Definition block (r : E) : list E := map (fun h => mul h r) old.
    Lemma old_one : In one old.
    Proof. pose proof (sg_head _ _ SG) as H. destruct old; [discriminate|]. injection H as ->. now left. Qed.
    Lemma in_block x r : In x (block r) <-> In (mul x (inv r)) old.
    Proof.
      unfold block. rewrite in_map_iff. split; [intros [h [<- I]]; now rewrite <- assoc, inv_r, right|]. intros I. exists (mul x (inv r)). split; [|exact I]. now rewrite <- assoc, inv_l, right.
    Qed.
    Lemma block_nodup r : NoDup (block r).
    Proof. apply FinFun.Injective_map_NoDup; [|apply (sg_nodup _ _ SG)]. intros a b H. now apply cancel in H. Qed.
    Lemma block_length r : length (block r) = length old. Proof. apply map_length. Qed.
    Lemma in_self r : In r (block r). Proof. apply in_block. rewrite inv_r. apply old_one. Qed.
    Lemma left_block h x r : In h old -> In x (block r) -> In (mul h x) (block r).
    Proof. rewrite !in_block. intros A B. rewrite <- assoc. now apply (sg_mul _ _ SG). Qed.
    Definition els_of (rs : list E) : list E := flat_map block rs.
    Lemma left_els h x rs : In h old -> In x (els_of rs) -> In (mul h x) (els_of rs).
    Proof. intros A B. apply in_flat_map in B. destruct B as [r [I B]]. apply in_flat_map. exists r. split; [exact I|now apply left_block]. Qed.
    Lemma els_app a b : els_of (a ++ b) = els_of a ++ els_of b. Proof. apply flat_map_app. Qed.
    Lemma els_length rs : length (els_of rs) = length old * length rs.
    Proof. induction rs as [|r rs IH]; [cbn; lia|]. cbn. rewrite app_length, block_length. unfold els_of in IH. rewrite IH. lia. Qed.
    Lemma els_add rs x : NoDup (els_of rs) -> ~ In x (els_of rs) -> NoDup (els_of (rs ++ [x])).
    Proof.
      intros N Nx. rewrite els_app. cbn. rewrite app_nil_r. assert (D : forall y, In y (block x) -> ~ In y (els_of rs)).
      { intros y Iy Ie. apply Nx. apply in_block in Iy. replace x with (mul (inv (mul y (inv x))) y); [apply left_els; [now apply (sg_inv _ _ SG)|exact Ie]|].
        assert (Z : mul (mul y (inv x)) x = y) by (now rewrite <- assoc, inv_l, right). rewrite <- Z at 2. rewrite assoc, inv_l, left. reflexivity. }
      revert N D. generalize (els_of rs) (block x) (block_nodup x). intros a b Nb. induction a as [|y a IH]; intros Na D; [exact Nb|]. inversion_clear Na as [|? ? Ny Na']. cbn. constructor.
      - rewrite in_app_iff. intros [I|I]; [contradiction|]. apply (D y I). now left.
      - apply IH; [exact Na'|]. intros z Iz I. apply (D z Iz). now right.
    Qed.
    Lemma els_nth rs i r : nth_error rs i = Some r -> nth_error (els_of rs) (i * length old) = Some r.
    Proof.
      revert i. induction rs as [|r0 rs IH]; intros [|i] H; try discriminate.
      - injection H as ->. cbn. unfold block. pose proof (sg_head _ _ SG) as Hh. destruct old as [|h o]; [discriminate|]. injection Hh as ->. cbn. now rewrite left.
      - cbn [els_of flat_map]. rewrite nth_error_app2 by (rewrite block_length; cbn; lia). rewrite block_length. replace (S i * length old - length old) with (i * length old) by (cbn; lia). now apply IH.
    Qed.
    Lemma els_bound rs : NoDup (els_of rs) -> length (els_of rs) <= length all.
    Proof. intros N. apply NoDup_incl_length; [exact N|]. intros x _. apply all_in. Qed.
    Lemma try_gens_spec rep : forall gs rs, NoDup (els_of rs) -> exists rs', try_gens mul eqb old rep gs (els_of rs) = els_of (rs ++ rs') /\ NoDup (els_of (rs ++ rs')) /\ (forall s, In s gs -> In (mul rep s) (els_of (rs ++ rs'))).
    Proof.
      induction gs as [|g gs IH]; intros rs N; cbn [try_gens]; [exists []; rewrite app_nil_r; repeat split; [exact N|contradiction]|].
      destruct (existsb (eqb (mul rep g)) (els_of rs)) eqn:Q.
      - apply mem in Q. destruct (IH rs N) as [rs' [A [B C]]]. exists rs'. split; [exact A|]. split; [exact B|]. intros s [<-|I]; [|now apply C]. rewrite els_app. apply in_or_app. now left.
      - apply mem_false in Q. pose proof (els_add rs _ N Q) as N'. assert (X : els_of rs ++ map (fun h => mul h (mul rep g)) old = els_of (rs ++ [mul rep g])) by (rewrite els_app; cbn; now rewrite app_nil_r).
        rewrite X. destruct (IH _ N') as [rs' [A [B C]]]. rewrite <- app_assoc in A, B, C. cbn in A, B, C. exists (mul rep g :: rs'). split; [exact A|]. split; [exact B|]. intros s [<-|I]; [|now apply C].
        rewrite els_app. apply in_or_app. right. cbn. apply in_or_app. left. apply in_self.
    Qed.
    (** the cosets with their representatives, those before [i] done except for the first *)
    Lemma cosets_spec : forall k rs i, NoDup (els_of rs) -> 1 <= i < length rs -> length all - length (els_of (firstn i rs)) <= k ->
      (forall j r s, 1 <= j < i -> nth_error rs j = Some r -> In s gens -> In (mul r s) (els_of rs)) ->
      exists rs', NoDup (els_of (rs ++ rs')) /\ (forall j r s, 1 <= j -> nth_error (rs ++ rs') j = Some r -> In s gens -> In (mul r s) (els_of (rs ++ rs'))) /\
        (forall fuel, k < fuel -> cosets mul eqb fuel old gens (i * length old) (els_of rs) = Ret (els_of (rs ++ rs'))) /\
        (forall fuel, cosets mul eqb fuel old gens (i * length old) (els_of rs) = Ret (els_of (rs ++ rs')) \/ cosets mul eqb fuel old gens (i * length old) (els_of rs) = NoFuel).
    Proof.
      assert (Lo : 1 <= length old) by (pose proof old_one; destruct old; [contradiction|cbn; lia]).
      induction k as [|k IH]; intros rs i N Hi Hk Hd; destruct (nth_error rs i) as [r|] eqn:Er; try (apply nth_error_None in Er; lia).
      - exfalso. pose proof (els_bound rs N) as Bd. rewrite els_length in Bd, Hk. rewrite firstn_length_le in Hk by lia. nia.
      - destruct (try_gens_spec r gens rs N) as [r1 [A [B C]]].
        assert (Hd' : forall j r' s, 1 <= j < S i -> nth_error (rs ++ r1) j = Some r' -> In s gens -> In (mul r' s) (els_of (rs ++ r1))).
        { intros j r' s Hj Ej Is. rewrite nth_error_app1 in Ej by lia. destruct (Nat.eq_dec j i) as [->|Nj].
          - rewrite Er in Ej. injection Ej as <-. now apply C.
          - rewrite els_app. apply in_or_app. left. apply (Hd j r' s); [lia|exact Ej|exact Is]. }
        assert (St : forall fuel, cosets mul eqb (S fuel) old gens (i * length old) (els_of rs) = if S i * length old <? length (els_of (rs ++ r1)) then cosets mul eqb fuel old gens (S i * length old) (els_of (rs ++ r1)) else Ret (els_of (rs ++ r1))).
        { intros fuel. cbn [cosets]. rewrite (els_nth rs i r Er), A. replace (i * length old + length old) with (S i * length old) by (cbn; lia). reflexivity. }
        destruct (S i * length old <? length (els_of (rs ++ r1))) eqn:Q.
        + apply Nat.ltb_lt in Q. rewrite els_length in Q. assert (Li : S i < length (rs ++ r1)) by nia.
          destruct (IH (rs ++ r1) (S i) B) as [r2 [D [F [G1 G2]]]]; [lia| |exact Hd'|].
          { pose proof (els_bound _ B) as Bd. rewrite els_length in *. rewrite firstn_length_le in * by lia. nia. }
          exists (r1 ++ r2). rewrite app_assoc. split; [exact D|]. split; [exact F|]. split.
          * intros [|fuel] Hf; [lia|]. rewrite St. apply G1. lia.
          * intros [|fuel]; [now right|]. rewrite St. apply G2.
        + apply Nat.ltb_ge in Q. rewrite els_length in Q. exists r1. split; [exact B|]. split.
          * intros j r' s Hj Ej Is. apply (Hd' j r' s); [|exact Ej|exact Is]. split; [exact Hj|]. assert (Lj : j < length (rs ++ r1)) by (apply nth_error_Some; congruence). nia.
          * split; [intros [|fuel] Hf; [lia|apply St]|intros [|fuel]; [now right|left; apply St]].
    Qed.
    Lemma add_one g : (forall x, generated mul one gens x) -> In g gens -> ~ In g old ->
      exists els, (Permutation els all /\ hd_error els = Some one) /\ (forall fuel, length all <= fuel -> cosets mul eqb fuel old gens (length old) (old ++ map (fun h => mul h g) old) = Ret els) /\
        (forall fuel, cosets mul eqb fuel old gens (length old) (old ++ map (fun h => mul h g) old) = Ret els \/ cosets mul eqb fuel old gens (length old) (old ++ map (fun h => mul h g) old) = NoFuel).
    Proof.
      intros Gn Ig Ng. assert (Lo : 1 <= length old) by (pose proof old_one; destruct old; [contradiction|cbn; lia]).
      assert (B1 : block one = old) by (unfold block; rewrite <- (map_id old) at 2; apply map_ext; intros a; apply right).
      assert (E0 : els_of [one] = old) by (cbn; now rewrite app_nil_r). assert (E1 : els_of [one; g] = old ++ map (fun h => mul h g) old) by (cbn; now rewrite app_nil_r, B1).
      assert (N1 : NoDup (els_of [one; g])). { apply (els_add [one] g); rewrite E0; [apply (sg_nodup _ _ SG)|exact Ng]. }
      destruct (cosets_spec (length all - 1) [one; g] 1 N1) as [rs' [N [Cl [R1 R2]]]]; [cbn; lia|cbn [firstn]; rewrite E0; lia|intros; lia|]. rewrite E1 in R1, R2. rewrite Nat.mul_1_l in R1, R2.
      set (rs := [one; g] ++ rs') in *. exists (els_of rs). split; [|split; [intros fuel Hf; apply R1; pose proof (els_bound _ N1) as Bd; rewrite E1, app_length in Bd; lia|exact R2]].
      split; [|unfold rs; cbn; unfold block; pose proof (sg_head _ _ SG) as Hh; destruct old as [|h o]; [discriminate|]; injection Hh as ->; cbn; now rewrite left].
      apply NoDup_Permutation; [exact N|exact all_nodup|]. intros x. split; [intros _; apply all_in|]. intros _.
      assert (Ho : forall y, In y old -> In y (els_of rs)). { intros y Iy. unfold rs. rewrite els_app, E1. apply in_or_app. left. apply in_or_app. now left. }
      pose (M := fun y => existsb (eqb y) (els_of rs) && negb (existsb (eqb y) old)).
      assert (Ms : forall y, M y = true <-> In y (els_of rs) /\ ~ In y old). { intros y. unfold M. rewrite andb_true_iff, negb_true_iff, mem, mem_false. reflexivity. }
      assert (Z : M x = true \/ existsb (eqb x) old = true).
      { apply (no_cut E all mul one inv all_nodup all_in assoc left right inv_l inv_r (fun y => existsb (eqb y) old)) with (S := fun y => existsb (eqb y) gens) (M := M) (g := g).
        - apply mem, old_one.
        - intros a b Ha Hb. apply mem in Ha, Hb. apply mem. now apply (sg_mul _ _ SG).
        - intros a Ha. apply mem in Ha. apply mem. now apply (sg_inv _ _ SG).
        - intros F F1 Fs y. specialize (Gn y). induction Gn as [|y s Gy IHy Is]; [exact F1|]. apply Fs; [exact IHy|now apply mem].
        - intros F F1 Fs h Hh. apply mem in Hh. apply (sg_gen _ _ SG F F1); [|exact Hh]. intros a s Fa Is Io. apply Fs; [exact Fa|now apply mem|now apply mem].
        - intros a Ha. apply Ms in Ha. apply mem_false. apply Ha.
        - intros h a Hh Ha. apply mem in Hh. apply Ms in Ha. apply Ms. destruct Ha as [A B]. split; [now apply left_els|]. intros C. apply B. replace a with (mul (inv h) (mul h a)) by (now rewrite assoc, inv_l, left). apply (sg_mul _ _ SG); [now apply (sg_inv _ _ SG)|exact C].
        - intros a s Ha Is. apply mem in Is. apply Ms in Ha. destruct Ha as [A B]. apply in_flat_map in A. destruct A as [r [Ir A]]. apply In_nth_error in Ir. destruct Ir as [[|j] Ej].
          + injection Ej as <-. rewrite B1 in A. contradiction.
          + apply in_block in A. assert (Ea : mul a s = mul (mul a (inv r)) (mul r s)). { assert (Z : mul (mul a (inv r)) r = a) by (now rewrite <- assoc, inv_l, right). now rewrite assoc, Z. }
            rewrite Ea. assert (Ie : In (mul (mul a (inv r)) (mul r s)) (els_of rs)) by (apply left_els; [exact A|]; apply (Cl (S j)); [lia|exact Ej|exact Is]).
            destruct (existsb (eqb (mul (mul a (inv r)) (mul r s))) old) eqn:Q; [right; reflexivity|left]. apply Ms. split; [exact Ie|now apply mem_false].
        - now apply mem.
        - apply Ms. split; [|exact Ng]. unfold rs. rewrite els_app, E1. apply in_or_app. left. apply in_or_app. right. apply in_map_iff. exists one. split; [apply left|apply old_one]. }
      destruct Z as [Z|Z]; [apply Ms in Z; apply Z|apply mem in Z; now apply Ho].
    Qed.
  End Cosets.

  Lemma add_done fuel gens els : (forall x, In x els) -> forall todo, add_gens mul eqb fuel gens todo els = Ret els.
  Proof. intros H. induction todo as [|g todo IH]; cbn; [reflexivity|]. assert (X : existsb (eqb g) els = true) by (apply mem, H). now rewrite X. Qed.
  Lemma add_gens_spec gens old : subgroup gens old -> (forall x, generated mul one gens x) -> forall todo, incl todo gens -> (forall s, In s gens -> In s todo \/ In s old) ->
    exists els, (Permutation els all /\ hd_error els = Some one) /\ (forall fuel, length all <= fuel -> add_gens mul eqb fuel gens todo old = Ret els) /\ (forall fuel, add_gens mul eqb fuel gens todo old = Ret els \/ add_gens mul eqb fuel gens todo old = NoFuel).
  Proof.
    intros SG Gn. induction todo as [|g todo IH]; intros In1 In2.
    - exists old. split; [split; [|apply (sg_head _ _ SG)]|split; [reflexivity|now left]]. apply NoDup_Permutation; [apply (sg_nodup _ _ SG)|exact all_nodup|]. intros x. split; [intros _; apply all_in|]. intros _.
      specialize (Gn x). induction Gn as [|x s Gx IHx Is]; [apply (old_one gens old SG)|]. apply (sg_mul _ _ SG); [exact IHx|]. destruct (In2 s Is) as [[]|I]. exact I.
    - cbn [add_gens]. destruct (existsb (eqb g) old) eqn:Q.
      + apply mem in Q. apply IH; [intros s I; apply In1; now right|]. intros s Is. destruct (In2 s Is) as [[<-|I]|I]; [now right|now left|now right].
      + apply mem_false in Q. destruct (add_one gens old SG g Gn (In1 g (or_introl eq_refl)) Q) as [els [P [R1 R2]]]. assert (Al : forall x, In x els) by (intros x; apply (Permutation_in x (Permutation_sym (proj1 P))), all_in).
        exists els. split; [exact P|]. split.
        * intros fuel Hf. rewrite (R1 fuel Hf). now apply add_done.
        * intros fuel. destruct (R2 fuel) as [R|R]; rewrite R; [left; now apply add_done|now right].
  Qed.
  Lemma dimino_total max g rest : (forall x, generated mul one (g :: rest) x) -> (exists k, 1 <= k <= S max /\ pw g k = one) ->
    exists els, (Permutation els all /\ hd_error els = Some one) /\ (forall fuel, length all <= fuel -> dimino mul eqb one one1 fuel max (g :: rest) = Ret (Some els)) /\
      (forall fuel, dimino mul eqb one one1 fuel max (g :: rest) = Ret (Some els) \/ dimino mul eqb one one1 fuel max (g :: rest) = NoFuel).
  Proof.
    intros Gn [k [Hk Pk]]. unfold dimino. destruct (orbit mul eqb one max g g) as [l|] eqn:O.
    - assert (SG := cyclic g (g :: rest) max l (or_introl eq_refl) O).
      assert (Ig : In g (one :: l)). { destruct l as [|a l]; [|right; left; destruct max; cbn in O; destruct (eqb g one); try discriminate; destruct (orbit mul eqb one max g (mul g g)); try discriminate; now injection O].
        left. destruct max; cbn in O; destruct (eqb g one) eqn:Q; try discriminate; try (apply eqb_eq in Q; now symmetry). destruct (orbit mul eqb one max g (mul g g)); discriminate. }
      destruct (add_gens_spec (g :: rest) (one :: l) SG Gn rest) as [els [P [R1 R2]]]; [intros s I; now right|intros s [<-|I]; [now right|now left]|].
      exists els. split; [exact P|]. split; [intros fuel Hf; now rewrite (R1 fuel Hf)|]. intros fuel. destruct (R2 fuel) as [R|R]; rewrite R; auto.
    - exfalso. assert (Hg : g = pw g 1) by (cbn; now rewrite left). rewrite Hg in O at 2. pose proof (proj1 (orbit_none g max 1) O) as Z. apply (Z (k - 1)); [lia|]. replace (1 + (k - 1)) with k by lia. exact Pk.
  Qed.
  Lemma dimino_throws max g rest fuel : (forall k, 1 <= k <= S max -> pw g k <> one) -> dimino mul eqb one one1 fuel max (g :: rest) = Ret None.
  Proof.
    intros H. unfold dimino. assert (O : orbit mul eqb one max g g = None); [|now rewrite O]. assert (Hg : g = pw g 1) by (cbn; now rewrite left). rewrite Hg at 2. apply orbit_none. intros j Hj. apply H. lia.
  Qed.
End Total.
