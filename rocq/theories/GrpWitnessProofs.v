(** Examples and witnesses for group generation. *)
From Coq Require Import List Arith Bool Lia Permutation ZArith.
From Verif Require Import CoreModel AlgModel GrpModel GrpSpec GrpDiminoProofs GrpFinalProofs.
Import ListNotations.

(** * Permutations of three points *)
Definition comp (a b : list nat) : list nat := map (fun i => nth i a 0) b.
Definition leqb (a b : list nat) : bool := if list_eq_dec Nat.eq_dec a b then true else false.
Definition s3 : list (list nat) := [[0; 1; 2]; [1; 0; 2]; [0; 2; 1]; [2; 1; 0]; [1; 2; 0]; [2; 0; 1]].
Definition id3 : list nat := [0; 1; 2].
Definition swap01 : list nat := [1; 0; 2].
Definition swap12 : list nat := [0; 2; 1].
Lemma leqb_eq a b : leqb a b = true <-> a = b.
Proof. unfold leqb. destruct (list_eq_dec Nat.eq_dec a b); split; congruence. Qed.
Lemma s3_nodup : NoDup s3. Proof. repeat constructor; cbn; intuition discriminate. Qed.
Lemma s3_group : group comp id3 s3.
Proof.
  assert (M : forall x l, existsb (leqb x) l = true <-> In x l). { intros x l. rewrite existsb_exists. split; [intros [y [I Q]]; apply leqb_eq in Q; now subst|intros I; exists x; split; [exact I|now apply leqb_eq]]. }
  constructor.
  - cbn. tauto.
  - assert (X : forallb (fun x => forallb (fun y => existsb (leqb (comp x y)) s3) s3) s3 = true) by reflexivity. rewrite forallb_forall in X. intros x y Ix Iy. specialize (X x Ix). rewrite forallb_forall in X. apply M, (X y Iy).
  - assert (X : forallb (fun x => forallb (fun y => forallb (fun z => leqb (comp x (comp y z)) (comp (comp x y) z)) s3) s3) s3 = true) by reflexivity. rewrite forallb_forall in X.
    intros x y z Ix Iy Iz. specialize (X x Ix). rewrite forallb_forall in X. specialize (X y Iy). rewrite forallb_forall in X. apply leqb_eq, (X z Iz).
  - assert (X : forallb (fun x => leqb (comp id3 x) x) s3 = true) by reflexivity. rewrite forallb_forall in X. intros x Ix. apply leqb_eq, (X x Ix).
  - assert (X : forallb (fun x => leqb (comp x id3) x) s3 = true) by reflexivity. rewrite forallb_forall in X. intros x Ix. apply leqb_eq, (X x Ix).
  - assert (X : forallb (fun x => existsb (fun y => leqb (comp x y) id3 && leqb (comp y x) id3) s3) s3 = true) by reflexivity. rewrite forallb_forall in X. intros x Ix. specialize (X x Ix).
    apply existsb_exists in X. destruct X as [y [Iy Q]]. apply andb_true_iff in Q. destruct Q as [Q1 Q2]. apply leqb_eq in Q1, Q2. now exists y.
Qed.
Lemma s3_gens : incl [swap01; swap12] s3. Proof. intros x [<-|[<-|[]]]; cbn; tauto. Qed.
Lemma gen_s g l : In g l -> forall x y, generated comp id3 l x -> y = comp x g -> generated comp id3 l y.
Proof. intros I x y H ->. now constructor. Qed.
Lemma s3_generated x : In x s3 -> generated comp id3 [swap01; swap12] x.
Proof.
  assert (A : In swap01 [swap01; swap12]) by (now left). assert (B : In swap12 [swap01; swap12]) by (right; now left). assert (G0 := gen_one _ comp id3 [swap01; swap12]).
  assert (Ga := gen_s _ _ A _ [1; 0; 2] G0 eq_refl). assert (Gb := gen_s _ _ B _ [0; 2; 1] G0 eq_refl). assert (Gab := gen_s _ _ B _ [1; 2; 0] Ga eq_refl). assert (Gba := gen_s _ _ A _ [2; 0; 1] Gb eq_refl). assert (Gaba := gen_s _ _ A _ [2; 1; 0] Gab eq_refl).
  unfold s3. intros H. repeat (destruct H as [<-|H]; [assumption|]). destruct H.
Qed.
Lemma s3_case : dimino comp leqb id3 [0] 6 10 [swap01; swap12] = Ret (Some [[0; 1; 2]; [1; 0; 2]; [0; 2; 1]; [1; 2; 0]; [2; 0; 1]; [2; 1; 0]]).
Proof. vm_compute. reflexivity. Qed.

(** * The infinite dihedral group: reflections of the integers *)
Definition dmul (a b : Z * bool) : Z * bool := ((fst a + (if snd a then - fst b else fst b))%Z, xorb (snd a) (snd b)).
Definition deqb (a b : Z * bool) : bool := (fst a =? fst b)%Z && Bool.eqb (snd a) (snd b).
Definition d1 : Z * bool := (0%Z, false).
Definition da : Z * bool := (0%Z, true).
Definition db : Z * bool := (1%Z, true).
Lemma deqb_eq a b : deqb a b = true <-> a = b.
Proof. destruct a as [n s], b as [m t]. unfold deqb. cbn. rewrite andb_true_iff, Z.eqb_eq, Bool.eqb_true_iff. split; [intros [-> ->]; reflexivity|intros H; now injection H as -> ->]. Qed.
Lemma dmem x l : existsb (deqb x) l = true <-> In x l.
Proof. rewrite existsb_exists. split; [intros [y [I Q]]; apply deqb_eq in Q; now subst|intros I; exists x; split; [exact I|now apply deqb_eq]]. Qed.
Lemma dnot x l : ~ In x l -> existsb (deqb x) l = false.
Proof. intros N. destruct (existsb (deqb x) l) eqn:Q; [|reflexivity]. now apply dmem in Q. Qed.
Definition has_t (n : Z) (l : list (Z * bool)) : Prop := forall m s, In (m, s) l <-> (Z.abs m < n)%Z \/ (m = n /\ s = true) \/ (m = - n /\ s = false)%Z.
Definition has_f (n : Z) (l : list (Z * bool)) : Prop := forall m s, In (m, s) l <-> (Z.abs m <= n)%Z.
Lemma dih_grow : forall fuel n pre, (1 <= n)%Z ->
  (has_t n (pre ++ [(n, true); (- n, false)%Z]) -> cosets dmul deqb fuel [d1; da] [da; db] (length pre) (pre ++ [(n, true); (- n, false)%Z]) = NoFuel) /\
  (has_f n (pre ++ [(n, false); (- n, true)%Z]) -> cosets dmul deqb fuel [d1; da] [da; db] (length pre) (pre ++ [(n, false); (- n, true)%Z]) = NoFuel).
Proof.
  induction fuel as [|fuel IH]; intros n pre Hn; [split; reflexivity|]. split; intros Hs; cbn [cosets]; rewrite nth_error_app2, Nat.sub_diag by lia; cbn [nth_error try_gens length].
  - set (els := pre ++ [(n, true); (- n, false)%Z]) in *.
    assert (E1 : dmul (n, true) da = (n, false)) by (unfold dmul; cbn; f_equal; lia). assert (E2 : dmul (n, true) db = ((n - 1)%Z, false)) by (unfold dmul; cbn; f_equal; lia). rewrite E1, E2.
    rewrite dnot by (rewrite (Hs n false); intros [?|[[_ ?]|[? _]]]; [lia|discriminate|lia]). cbn [map].
    assert (E3 : dmul d1 (n, false) = (n, false)) by (unfold dmul; cbn; f_equal; lia). assert (E4 : dmul da (n, false) = ((- n)%Z, true)) by (unfold dmul; cbn; f_equal; lia). rewrite E3, E4.
    assert (Hf : has_f n (els ++ [(n, false); (- n, true)%Z])).
    { intros m s. rewrite in_app_iff, (Hs m s). cbn [In]. split.
      - intros [[?|[[? _]|[? _]]]|[Q|[Q|[]]]]; try lia; injection Q as <- _; lia.
      - intros H. destruct (Z.eq_dec m n) as [->|N1]; [destruct s; [left; right; left; auto|right; left; auto]|]. destruct (Z.eq_dec m (- n)) as [->|N2]; [destruct s; [right; right; left; auto|left; right; right; auto]|]. left. left. lia. }
    rewrite (proj2 (dmem _ _)); [|apply Hf; lia].
    assert (Lt : (length pre + 2 <? length (els ++ [(n, false); (- n, true)%Z])) = true) by (apply Nat.ltb_lt; unfold els; rewrite !app_length; cbn; lia). rewrite Lt.
    replace (length pre + 2) with (length els) by (unfold els; rewrite app_length; cbn; lia). now apply (IH n els).
  - set (els := pre ++ [(n, false); (- n, true)%Z]) in *.
    assert (E1 : dmul (n, false) da = (n, true)) by (unfold dmul; cbn; f_equal; lia). assert (E2 : dmul (n, false) db = ((n + 1)%Z, true)) by (unfold dmul; cbn; f_equal; lia). rewrite E1, E2.
    rewrite (proj2 (dmem (n, true) _)) by (apply Hs; lia).
    rewrite dnot by (rewrite (Hs (n + 1)%Z true); lia). cbn [map].
    assert (E3 : dmul d1 ((n + 1)%Z, true) = ((n + 1)%Z, true)) by (unfold dmul; cbn; f_equal; lia). assert (E4 : dmul da ((n + 1)%Z, true) = ((- (n + 1))%Z, false)) by (unfold dmul; cbn; f_equal; lia). rewrite E3, E4.
    assert (Ht : has_t (n + 1)%Z (els ++ [((n + 1)%Z, true); (- (n + 1), false)%Z])).
    { intros m s. rewrite in_app_iff, (Hs m s). cbn [In]. split.
      - intros [?|[Q|[Q|[]]]]; [left; lia|injection Q as <- <-; right; left; auto|injection Q as <- <-; right; right; auto].
      - intros [?|[[-> ->]|[-> ->]]]; [left; lia|right; left; auto|right; right; left; auto]. }
    assert (Lt : (length pre + 2 <? length (els ++ [((n + 1)%Z, true); (- (n + 1), false)%Z])) = true) by (apply Nat.ltb_lt; unfold els; rewrite !app_length; cbn; lia). rewrite Lt.
    replace (length pre + 2) with (length els) by (unfold els; rewrite app_length; cbn; lia). apply (IH (n + 1)%Z els); [lia|exact Ht].
Qed.
Lemma dih_endless fuel max one1 : dimino dmul deqb d1 one1 fuel (S max) [da; db] = NoFuel.
Proof.
  unfold dimino. assert (O : orbit dmul deqb d1 (S max) da da = Some [da]) by (destruct max; reflexivity). rewrite O. cbn [add_gens].
  assert (Q : existsb (deqb db) [d1; da] = false) by reflexivity. rewrite Q. cbn [length map app].
  assert (X : cosets dmul deqb fuel [d1; da] [da; db] 2 [d1; da; dmul d1 db; dmul da db] = NoFuel); [|now rewrite X].
  apply (proj1 (dih_grow fuel 1 [d1; da] ltac:(lia))). intros m s. unfold d1, da. cbn [In app]. split.
  - intros [Q'|[Q'|[Q'|[Q'|[]]]]]; injection Q' as <- <-; auto; left; lia.
  - intros [H|[[-> ->]|[-> ->]]]; auto. assert (m = 0)%Z as -> by lia. destruct s; auto.
Qed.
Lemma f_endless : exists (E : Type) (mul : E -> E -> E) (eqb : E -> E -> bool) (one : E) (gens : list E) (max : nat),
  (forall x y, eqb x y = true <-> x = y) /\ (forall x y z, mul x (mul y z) = mul (mul x y) z) /\ (forall x, mul one x = x /\ mul x one = x) /\ (forall x, exists y, mul x y = one /\ mul y x = one) /\
  (forall g, In g gens -> mul g g = one) /\ max = 1000 /\ forall one1 fuel, dimino mul eqb one one1 fuel max gens = NoFuel.
Proof.
  exists (Z * bool)%type, dmul, deqb, d1, [da; db], 1000. split; [exact deqb_eq|]. split; [|split; [|split; [|split; [|split; [reflexivity|]]]]].
  - intros [x a] [y b] [z c]. unfold dmul. cbn. f_equal; [destruct a, b; cbn; lia|now rewrite xorb_assoc].
  - intros [x a]. unfold dmul, d1. destruct a; cbn; split; f_equal; lia.
  - intros [x a]. destruct a; [exists (x, true)|exists ((- x)%Z, false)]; unfold dmul, d1; cbn; split; f_equal; lia.
  - intros g [<-|[<-|[]]]; reflexivity.
  - intros one1 fuel. apply (dih_endless fuel 999).
Qed.
Lemma shift_power k : power dmul d1 (1%Z, false) k = (Z.of_nat k, false).
Proof. induction k as [|k IH]; [reflexivity|]. cbn [power]. rewrite IH. unfold dmul. cbn [fst snd xorb]. f_equal. lia. Qed.
Lemma f_shift : (forall x, dmul d1 x = x) /\ (forall x y, deqb x y = true <-> x = y) /\ (forall k, 1 <= k <= S 20 -> power dmul d1 (1%Z, false) k <> d1) /\ dimino dmul deqb d1 d1 5 20 [(1%Z, false); da] = Ret None.
Proof.
  split; [intros [x a]; unfold dmul, d1; destruct a; cbn; f_equal; lia|]. split; [exact deqb_eq|]. split; [|vm_compute; reflexivity].
  intros k Hk. rewrite shift_power. unfold d1. intros Q. injection Q as Q. lia.
Qed.
