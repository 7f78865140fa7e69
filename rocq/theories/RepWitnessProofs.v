(** Examples and witnesses for representations: two letters with squares one that commute (s = 1) or anticommute (s = -1). *)
From Coq Require Import List Arith NArith ZArith Bool Lia Ring_theory Ring.
From Verif Require Import CoreModel AlgModel RepModel RepSpec RepFinalProofs.
Import ListNotations.
Local Open Scope Z_scope.

Definition V : Type := (Z * Z * (Z * Z))%type.
Definition qadd (x y : V) : V := let '((a, b), (c, d)) := x in let '((p, q), (r, t)) := y in ((a + p, b + q), (c + r, d + t)).
Definition qscale (k : Z) (x : V) : V := let '((a, b), (c, d)) := x in ((k * a, k * b), (k * c, k * d)).
(** coefficients of 1, a, b and ab *)
Definition qmul (s : Z) (x y : V) : V :=
  let '((a, b), (c, d)) := x in let '((p, q), (r, t)) := y in
  ((a * p + b * q + c * r + s * d * t, a * q + b * p + s * c * t + d * r), (a * r + c * p + b * t + s * d * q, a * t + d * p + b * r + s * c * q)).
Definition q0 : V := ((0, 0), (0, 0)).
Lemma Z_semi : semi_ring_theory 0 1 Z.add Z.mul eq. Proof. constructor; intros; ring. Qed.
Ltac quad := intros; repeat match goal with x : V |- _ => destruct x as [[? ?] [? ?]] end; unfold q0; cbn [qadd qscale qmul]; apply f_equal2; apply f_equal2; ring.
Definition quad_alg (s : Z) : algebra.
Proof.
  refine (mk_algebra Z 0 1 Z.add Z.mul Z_semi V q0 qadd qscale (qmul s) _ _ _ _ _ _ _ _ _ _ _ _); quad.
Defined.
Definition qphi (s : Z) (x : V) : V := let '((a, b), (c, d)) := x in ((a, c), (b, s * d)).
Lemma qphi_mul s : s * s = 1 -> multiplicative (quad_alg s) (qphi s).
Proof.
  intros H x y. destruct x as [[a b] [c d]], y as [[p q] [r t]]. cbn. assert (E : forall u, s * (s * u) = u) by (intros u; rewrite Z.mul_assoc, H; ring).

  apply f_equal2; apply f_equal2.
  - transitivity (a * p + c * r + b * q + s * (s * (s * (d * t)))); [rewrite E; ring|ring].
  - transitivity (a * r + c * p + s * (s * (b * t)) + s * d * q); [rewrite E; ring|ring].
  - transitivity (a * q + b * p + s * c * t + s * (s * (d * r))); [rewrite E; ring|ring].
  - transitivity (s * a * t + s * d * p + s * b * r + s * (s * (c * q))); [ring|rewrite E; ring].
Qed.
Definition word2 : Type := (bool * bool)%type.
Definition hash2 (w : word2) : N := match w with (false, false) => 1 | (true, false) => 2 | (false, true) => 3 | (true, true) => 4 end%N.
Definition prod2 (l r : word2) : N := hash2 (xorb (fst l) (fst r), xorb (snd l) (snd r)).
Definition osg2 (n : N) : list word2 := if (n =? 0)%N then [(false, false)] else if (n =? 1)%N then [(false, false); (true, false); (false, true)] else [(false, false); (true, false); (false, true); (true, true)].
Definition ev2 (w : word2) : V := match w with (false, false) => ((1, 0), (0, 0)) | (true, false) => ((0, 1), (0, 0)) | (false, true) => ((0, 0), (1, 0)) | (true, true) => ((0, 0), (0, 1)) end.
Lemma osg2_long n : (2 <= n)%N -> osg2 n = [(false, false); (true, false); (false, true); (true, true)].
Proof. intros H. unfold osg2. destruct (N.eqb_spec n 0); [lia|]. destruct (N.eqb_spec n 1); [lia|reflexivity]. Qed.
Lemma osg2_all n w : (2 <= n)%N -> In w (osg2 n). Proof. intros H. rewrite osg2_long by exact H. destruct w as [[|] [|]]; cbn; tauto. Qed.
Lemma osg2_cover m w : (1 <= m)%N -> In w (osg2 m) \/ w = (true, true).
Proof. intros H. unfold osg2. destruct (N.eqb_spec m 0); [lia|]. destruct (N.eqb_spec m 1); destruct w as [[|] [|]]; cbn; tauto. Qed.
Lemma osg2_cover' m n w : (1 <= n)%N -> (1 <= m)%N -> exists l r, In l (osg2 m) /\ In r (osg2 n) /\ prod2 l r = hash2 w.
Proof.
  intros Hn Hm. assert (I : forall k v, (1 <= k)%N -> v <> (true, true) -> In v (osg2 k)) by (intros k v Hk Nv; destruct (osg2_cover k v Hk); tauto).
  destruct w as [[|] [|]]; [exists (true, false), (false, true)|exists (true, false), (false, false)|exists (false, true), (false, false)|exists (false, false), (false, false)]; (split; [apply I; [assumption|discriminate]|split; [apply I; [assumption|discriminate]|reflexivity]]).
Qed.
Lemma ok2 : words_ok (quad_alg 1) word2 hash2 prod2 osg2 ev2.
Proof.
  constructor.
  - intros n [[|] [|]] _; discriminate.
  - intros n. unfold osg2. destruct (n =? 0)%N; [|destruct (n =? 1)%N]; repeat constructor; cbn; intuition discriminate.
  - intros m n l r H Il Ir. right. exists (xorb (fst l) (fst r), xorb (snd l) (snd r)). split; [apply osg2_all; lia|]. split; [reflexivity|]. destruct l as [[|] [|]], r as [[|] [|]]; reflexivity.
  - intros m n w H _. apply osg2_cover'; lia.
Qed.
Definition swap3 : nat -> nat -> Z := fun i j => match i, j with 0%nat, 0%nat => 1 | 1%nat, 2%nat => 1 | 2%nat, 1%nat => 1 | _, _ => 0 end.
Definition same3 : nat -> nat -> Z := fun i j => match i, j with 0%nat, 0%nat => 1 | 1%nat, 1%nat => 1 | 2%nat, 2%nat => 1 | _, _ => 0 end.
Lemma fund2 s : Forall2 (fun phi d => represents (quad_alg s) phi (map ev2 (osg2 1)) d) [(fun x => x); qphi s] [same3; swap3].
Proof.
  assert (D : forall j, (j < 3)%nat -> j = 0%nat \/ j = 1%nat \/ j = 2%nat) by lia.
  constructor; [|constructor; [|constructor]]; intros j Hj; apply D in Hj; destruct Hj as [->|[->| ->]]; cbn; rewrite ?Z.mul_0_r; reflexivity.
Qed.
Definition start2 : gstate Z := mk_g (upd (fun _ => None) 1%N [same3; swap3]) (upd (fun _ => None) 1%N (first_mapper osg2)).
Lemma start2_new : new_group osg2 (length (osg2 1)) [same3; swap3] = Some start2. Proof. reflexivity. Qed.
Lemma id_mul s : multiplicative (quad_alg s) (fun x => x). Proof. intros a b. reflexivity. Qed.
Lemma f_case : Forall (multiplicative (quad_alg 1)) [(fun x => x); qphi 1] /\ words_ok (quad_alg 1) word2 hash2 prod2 osg2 ev2 /\ Forall2 (fun phi d => represents (quad_alg 1) phi (map ev2 (osg2 1)) d) [(fun x => x); qphi 1] [same3; swap3] /\ new_group osg2 (length (osg2 1)) [same3; swap3] = Some start2 /\
  Forall (fun wl => (1 <= wl)%N /\ (N.size_nat wl <= 5)%nat) [5; 3; 1; 12]%N.
Proof.
  split; [constructor; [apply id_mul|constructor; [now apply qphi_mul|constructor]]|]. split; [exact ok2|]. split; [apply fund2|]. split; [reflexivity|]. repeat (constructor; [split; [discriminate|cbn; lia]|]). constructor.
Qed.
(** what the code makes for words of length two *)
Definition made2 : option (list (list (list Z))) :=
  match create hash2 prod2 osg2 0 1 Z.add Z.mul 5 2 start2 2 with Made _ r => Some (map (fun d => map (fun i => map (fun j => d i j) (seq 0 4)) (seq 0 4)) r) | _ => None end.
Lemma made2_value : made2 = Some [[[1; 0; 0; 0]; [0; 1; 0; 0]; [0; 0; 1; 0]; [0; 0; 0; 1]]; [[1; 0; 0; 0]; [0; 0; 1; 0]; [0; 1; 0; 0]; [0; 0; 0; 1]]].
Proof. vm_compute. reflexivity. Qed.
Lemma f_sign : exists (A : algebra) (W : Type) (hash : W -> N) (prod_hash : W -> W -> N) (osg : N -> list W) (ev : W -> vt A) (phi : vt A -> vt A) (d : nat -> nat -> sc A) (g g' : gstate (sc A)) (d' : nat -> nat -> sc A),
  (forall m n l r, (1 <= n <= m)%N -> In l (osg m) -> In r (osg n) -> exists w, In w (osg (m + n)%N) /\ hash w = prod_hash l r /\ (vmul A (ev l) (ev r) = ev w \/ vadd A (vmul A (ev l) (ev r)) (ev w) = v0 A)) /\
  multiplicative A phi /\ represents A phi (map ev (osg 1%N)) d /\ new_group osg (length (osg 1%N)) [d] = Some g /\
  create hash prod_hash osg (s0 A) (s1 A) (sadd A) (smul A) 5 1 g 2 = Made g' [d'] /\ ~ represents A phi (map ev (osg 2%N)) d'.
Proof.
  exists (quad_alg (-1)), word2, hash2, prod2, osg2, ev2, (qphi (-1)), swap3.
  exists (mk_g (upd (fun _ => None) 1%N [swap3]) (upd (fun _ => None) 1%N (first_mapper osg2))). eexists. eexists. split; [|split; [|split; [|split; [|split]]]].
  - intros m n l r H Il Ir. exists (xorb (fst l) (fst r), xorb (snd l) (snd r)). split; [apply osg2_all; lia|]. split; [reflexivity|]. destruct l as [[|] [|]], r as [[|] [|]]; (left; reflexivity) || (right; reflexivity).
  - now apply qphi_mul.
  - pose proof (fund2 (-1)) as F. inversion_clear F as [|? ? ? ? _ F2]. inversion_clear F2. assumption.
  - reflexivity.
  - cbv [create N.eqb g_reps upd Pos.eqb identify_and_build]. change (decompose 5 2) with (Ret [2%N]). cbn [build_maps g_maps]. change (upd (fun _ : N => None) 1%N (first_mapper osg2) 2%N) with (@None mapper). change (parents 2) with (1%N, 1%N). cbv iota beta.
    change (upd (fun _ : N => None) 1%N (first_mapper osg2) 1%N) with (Some (first_mapper osg2)). cbv iota beta.
    match goal with |- context [make_mapper hash2 prod2 osg2 ?a ?b ?c] => let v := eval vm_compute in (make_mapper hash2 prod2 osg2 a b c) in change (make_mapper hash2 prod2 osg2 a b c) with v end. reflexivity.
  - intros R. specialize (R 3%nat ltac:(cbn; lia)). vm_compute in R. discriminate.
Qed.
Lemma f_list_case : (2 <= 11)%N /\ decompose 4 11 = Ret [2; 3; 4; 8; 11]%N. Proof. split; [discriminate|reflexivity]. Qed.
Lemma f_zero K hash osg prod (k0 k1 : K) ka km fuel size g : @create word2 hash prod osg K k0 k1 ka km fuel size g 0 = Threw. Proof. reflexivity. Qed.
