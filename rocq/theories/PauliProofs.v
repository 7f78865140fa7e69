(** Lemmas about Pauli simplification. *)
From Coq Require Import List ZArith NArith Arith Bool Sorted Lia Permutation.
From Coq Require Import ZifyBool ZifyNat ZifyN.
From Verif Require Import CoreModel CoreSpec CoreProofs PauliModel PauliSpec.
Import ListNotations.
Local Arguments qubit_of : simpl never.
Local Arguments pauli_of : simpl never.
Local Arguments Nat.div : simpl never.
Local Arguments Nat.modulo : simpl never.

(* ---------------------------------------------------------------- Gaussian integers *)
Ltac gring := intros; unfold gmul, gadd, gsub, gneg, gconj, gone, gzero; cbn [fst snd phase]; f_equal; ring.
Lemma gmul_assoc x y z : gmul x (gmul y z) = gmul (gmul x y) z. Proof. gring. Qed.
Lemma gmul_comm x y : gmul x y = gmul y x. Proof. gring. Qed.
Lemma gmul_add x y z : gmul x (gadd y z) = gadd (gmul x y) (gmul x z). Proof. gring. Qed.
Lemma gmul_one x : gmul gone x = x. Proof. destruct x. gring. Qed.
Lemma gmul_zero_r x : gmul x gzero = gzero. Proof. gring. Qed.
Lemma gadd_comm x y : gadd x y = gadd y x. Proof. gring. Qed.
Lemma gadd_zero_l x : gadd gzero x = x. Proof. destruct x. gring. Qed.
Lemma gadd_zero_r x : gadd x gzero = x. Proof. destruct x. gring. Qed.
Lemma gconj_mul x y : gconj (gmul x y) = gmul (gconj x) (gconj y). Proof. gring. Qed.
Lemma gconj_add x y : gconj (gadd x y) = gadd (gconj x) (gconj y). Proof. gring. Qed.
Lemma gconj_invol x : gconj (gconj x) = x. Proof. destruct x. gring. Qed.

(* ---------------------------------------------------------------- bits *)
Lemma with_bit_same b q c : N.testbit (with_bit b q c) (N.of_nat q) = c.
Proof. destruct c; cbn; [apply N.setbit_eq|apply N.clearbit_eq]. Qed.
Lemma with_bit_other b q c q' : q <> q' -> N.testbit (with_bit b q c) (N.of_nat q') = N.testbit b (N.of_nat q').
Proof. intro H. destruct c; cbn; [apply N.setbit_neq|apply N.clearbit_neq]; lia. Qed.
Lemma with_bit_ext b b' : (forall q, N.testbit b (N.of_nat q) = N.testbit b' (N.of_nat q)) -> b = b'.
Proof. intro H. apply N.bits_inj. intro m. rewrite <- (N2Nat.id m). apply H. Qed.
Lemma with_bit_twice b q c c' : with_bit (with_bit b q c) q c' = with_bit b q c'.
Proof.
  apply with_bit_ext. intro q'. destruct (Nat.eq_dec q q') as [<-|H]; [rewrite !with_bit_same; reflexivity|].
  rewrite !with_bit_other by exact H. reflexivity.
Qed.
Lemma with_bit_comm b q c q' c' : q <> q' -> with_bit (with_bit b q c) q' c' = with_bit (with_bit b q' c') q c.
Proof.
  intro H. apply with_bit_ext. intro p. destruct (Nat.eq_dec q p) as [<-|H1].
  - rewrite with_bit_other, !with_bit_same by congruence. reflexivity.
  - destruct (Nat.eq_dec q' p) as [<-|H2].
    + rewrite with_bit_same, with_bit_other, with_bit_same by congruence. reflexivity.
    + rewrite !with_bit_other by congruence. reflexivity.
Qed.
Lemma with_bit_id b q : with_bit b q (N.testbit b (N.of_nat q)) = b.
Proof.
  apply with_bit_ext. intro p. destruct (Nat.eq_dec q p) as [<-|H1]; [apply with_bit_same|apply with_bit_other, H1].
Qed.

(* ---------------------------------------------------------------- one operator *)
Definition seq_eq (f g : state) : Prop := forall b, f b = g b.
Definition scale (z : gauss) (psi : state) : state := fun b => gmul z (psi b).
Lemma act_ext m q psi psi' : seq_eq psi psi' -> seq_eq (act m q psi) (act m q psi').
Proof. intros H b. unfold act. rewrite !H. reflexivity. Qed.
Lemma act_scale m q z psi : seq_eq (act m q (scale z psi)) (scale z (act m q psi)).
Proof. intro b. unfold act, scale. gring. Qed.
Lemma act_scale_in m q z psi b : gmul z (act m q psi b) = act m q (scale z psi) b.
Proof. symmetry. apply act_scale. Qed.
Lemma act_comm m q m' q' psi : q <> q' -> seq_eq (act m q (act m' q' psi)) (act m' q' (act m q psi)).
Proof.
  intros H b. unfold act. rewrite !(with_bit_other _ q _ q'), !(with_bit_other _ q' _ q) by congruence.
  rewrite !(with_bit_comm b q' _ q) by congruence. gring.
Qed.
(** product of two matrices on the same qubit *)
Definition mat_mul (m m' : bool -> bool -> gauss) (r c : bool) : gauss :=
  gadd (gmul (m r false) (m' false c)) (gmul (m r true) (m' true c)).
Lemma act_mul m m' q psi : seq_eq (act m q (act m' q psi)) (act (mat_mul m m') q psi).
Proof.
  intro b. unfold act, mat_mul. rewrite !with_bit_same, !with_bit_twice. gring.
Qed.
Lemma act_id q psi : seq_eq (act (fun r c => if Bool.eqb r c then gone else gzero) q psi) psi.
Proof.
  intro b. unfold act. pose proof (with_bit_id b q) as E. destruct (N.testbit b (N.of_nat q)); cbn [Bool.eqb]; rewrite E;
    destruct (psi b); gring.
Qed.

Lemma act_mat_ext m m' q psi : (forall r c, m r c = m' r c) -> seq_eq (act m q psi) (act m' q psi).
Proof. intros H b. unfold act. rewrite !H. reflexivity. Qed.
Lemma act_mat_scale z m q psi : seq_eq (act (fun r c => gmul z (m r c)) q psi) (scale z (act m q psi)).
Proof. intro b. unfold act, scale. gring. Qed.

(** multiplication table against the code's: indices 1..3, 0 = identity *)
Definition ixyz (p : nat) : bool -> bool -> gauss :=
  match p with 0 => fun r c => if Bool.eqb r c then gone else gzero | S p' => pauli_matrix p' end.
Definition table_phase (z : Z) : sign := if Z.ltb 0 z then SIm else if Z.ltb z 0 then SNegIm else SPos.
Lemma table_correct l r : 1 <= l <= 3 -> 1 <= r <= 3 -> forall a b,
  mat_mul (ixyz l) (ixyz r) a b =
  gmul (phase (table_phase (multiply_pauli_with_id l r))) (ixyz (Z.to_nat (Z.abs (multiply_pauli_with_id l r))) a b).
Proof.
  intros Hl Hr a b.
  assert (El : l = 1 \/ l = 2 \/ l = 3) by lia. assert (Er : r = 1 \/ r = 2 \/ r = 3) by lia.
  destruct El as [->|[->| ->]], Er as [->|[->| ->]], a, b; reflexivity.
Qed.
Lemma table_range l r : 1 <= l <= 3 -> 1 <= r <= 3 ->
  (Z.abs (multiply_pauli_with_id l r) <= 3)%Z /\ (multiply_pauli_with_id l r = 0%Z <-> l = r).
Proof.
  intros Hl Hr.
  assert (El : l = 1 \/ l = 2 \/ l = 3) by lia. assert (Er : r = 1 \/ r = 2 \/ r = 3) by lia.
  destruct El as [->|[->| ->]], Er as [->|[->| ->]]; cbn; split; try lia; split; intros; try lia; try discriminate; reflexivity.
Qed.
Lemma multiply_pauli_shift l r : multiply_pauli l r = multiply_pauli_with_id (l + 1) (r + 1).
Proof. unfold multiply_pauli, multiply_pauli_with_id. reflexivity. Qed.

Lemma act_product l r q psi : 1 <= l <= 3 -> 1 <= r <= 3 ->
  seq_eq (act (ixyz l) q (act (ixyz r) q psi))
         (scale (phase (table_phase (multiply_pauli_with_id l r))) (act (ixyz (Z.to_nat (Z.abs (multiply_pauli_with_id l r)))) q psi)).
Proof.
  intros Hl Hr b. rewrite act_mul. rewrite (act_mat_ext _ _ q psi (table_correct l r Hl Hr)). apply act_mat_scale.
Qed.

(* ---------------------------------------------------------------- words *)
Lemma apply_word_ext w : forall psi psi', seq_eq psi psi' -> seq_eq (apply_word w psi) (apply_word w psi').
Proof. induction w as [|o w IH]; intros psi psi' H; cbn; [exact H|]. apply act_ext, IH, H. Qed.
Lemma apply_word_scale w z psi : seq_eq (apply_word w (scale z psi)) (scale z (apply_word w psi)).
Proof.
  induction w as [|o w IH]; intro b; cbn; [reflexivity|]. rewrite (act_ext _ _ _ _ IH). apply act_scale.
Qed.
Lemma apply_word_app u w psi : apply_word (u ++ w) psi = apply_word u (apply_word w psi).
Proof. induction u as [|o u IH]; cbn; [reflexivity|]. rewrite IH. reflexivity. Qed.

Lemma op_ixyz o : act (pauli_matrix (o mod 3)) (o / 3) = act (ixyz (1 + pauli_of o)) (qubit_of o).
Proof. reflexivity. Qed.
Lemma op_div q p : p < 3 -> (3 * q + p) / 3 = q. Proof. intro. rewrite (Nat.mul_comm 3 q), Nat.div_add_l, Nat.div_small by lia. lia. Qed.
Lemma op_mod q p : p < 3 -> (3 * q + p) mod 3 = p. Proof. intro. rewrite (Nat.mul_comm 3 q), Nat.add_comm, Nat.mod_add, Nat.mod_small by lia. reflexivity. Qed.
Lemma pauli_of_lt o : pauli_of o < 3. Proof. apply Nat.mod_upper_bound. lia. Qed.
Lemma op_split o : o = 3 * qubit_of o + pauli_of o. Proof. apply Nat.div_mod. lia. Qed.

Lemma emit_apply q p psi : p <= 3 -> seq_eq (apply_word (emit q p) psi) (act (ixyz p) q psi).
Proof.
  intros H b. unfold emit. destruct (Nat.eqb_spec p 0) as [->|Hp].
  - cbn [apply_word]. symmetry. apply act_id.
  - cbn [apply_word]. replace (q * 3 + p - 1) with (3 * q + (p - 1)) by lia.
    rewrite op_div, op_mod by lia. replace (ixyz p) with (pauli_matrix (p - 1)); [reflexivity|].
    destruct p; [lia|]. cbn. rewrite Nat.sub_0_r. reflexivity.
Qed.

Lemma insert_apply x l psi : seq_eq (apply_word (insert_by_qubit x l) psi) (apply_word (x :: l) psi).
Proof.
  induction l as [|y l IH]; intro b; cbn [insert_by_qubit]; [reflexivity|].
  destruct (Nat.leb_spec (qubit_of x) (qubit_of y)) as [H|H]; [reflexivity|].
  cbn [apply_word] in *. rewrite (act_ext _ _ _ _ IH). apply act_comm. unfold qubit_of in H. lia.
Qed.
Lemma sort_apply w psi : seq_eq (apply_word (stable_sort_qubits w) psi) (apply_word w psi).
Proof.
  induction w as [|x w IH]; intro b; [reflexivity|]. cbn [stable_sort_qubits fold_right].
  rewrite insert_apply. cbn [apply_word]. apply act_ext, IH.
Qed.
Lemma insert_perm x l : Permutation (x :: l) (insert_by_qubit x l).
Proof.
  induction l as [|y l IH]; cbn; [reflexivity|]. destruct (Nat.leb (qubit_of x) (qubit_of y)); [reflexivity|].
  rewrite perm_swap. constructor. exact IH.
Qed.
Lemma sort_perm w : Permutation w (stable_sort_qubits w).
Proof. induction w as [|x w IH]; cbn; [reflexivity|]. rewrite <- insert_perm. constructor. exact IH. Qed.
Definition qle (a b : nat) : Prop := qubit_of a <= qubit_of b.
Lemma insert_sorted_q x l : StronglySorted qle l -> StronglySorted qle (insert_by_qubit x l).
Proof.
  induction l as [|y l IH]; intro H; cbn; [repeat constructor|]. inversion H as [|? ? H1 H2]; subst.
  destruct (Nat.leb_spec (qubit_of x) (qubit_of y)) as [L|L].
  - constructor; [exact H|]. constructor; [exact L|]. apply Forall_forall. intros z Hz. rewrite Forall_forall in H2.
    specialize (H2 z Hz). unfold qle in *. lia.
  - constructor; [apply IH, H1|]. apply Forall_forall. intros z Hz. apply (Permutation_in _ (Permutation_sym (insert_perm x l))) in Hz.
    destruct Hz as [<-|Hz]; [unfold qle; lia|]. rewrite Forall_forall in H2. apply H2, Hz.
Qed.
Lemma sort_sorted w : StronglySorted qle (stable_sort_qubits w).
Proof. induction w as [|x w IH]; cbn; [constructor|]. apply insert_sorted_q, IH. Qed.

(* ---------------------------------------------------------------- the simplification loop *)
Lemma scale_scale z y psi : seq_eq (scale z (scale y psi)) (scale (gmul z y) psi).
Proof. intro b. unfold scale. apply gmul_assoc. Qed.

Lemma simp_loop_sound psi : forall rest q p s, p <= 3 ->
  seq_eq (apply_signed (snd (simp_loop q p rest s)) (fst (simp_loop q p rest s)) psi)
         (scale (phase s) (act (ixyz p) q (apply_word rest psi))).
Proof.
  induction rest as [|op rest IH]; intros q p s Hp b; cbn [simp_loop].
  - unfold apply_signed, scale. cbn [fst snd apply_word]. rewrite emit_apply by exact Hp. reflexivity.
  - pose proof (pauli_of_lt op) as Hlt. destruct (Nat.eqb_spec (qubit_of op) q) as [E|E]; cbn [negb].
    + destruct (Nat.eqb_spec p 0) as [P0|P0]; cbn [negb].
      * rewrite IH by lia. unfold scale. subst p. cbn [ixyz apply_word]. rewrite act_id. rewrite op_ixyz, E. reflexivity.
      * assert (Hr : 1 <= 1 + pauli_of op <= 3) by lia. assert (Hl : 1 <= p <= 3) by lia.
        pose proof (act_product p (1 + pauli_of op) q (apply_word rest psi) Hl Hr) as T.
        destruct (table_range p (1 + pauli_of op) Hl Hr) as [R1 _].
        cbn [apply_word]. unfold scale at 1. rewrite op_ixyz, E.
        rewrite T. unfold scale. unfold table_phase.
        destruct (Z.ltb_spec 0 (multiply_pauli_with_id p (1 + pauli_of op))) as [C|C].
        -- rewrite IH by lia. unfold scale. rewrite smul_phase, <- gmul_assoc. rewrite Z.abs_eq by lia. reflexivity.
        -- destruct (Z.ltb_spec (multiply_pauli_with_id p (1 + pauli_of op)) 0) as [D|D].
           ++ rewrite IH by lia. unfold scale. rewrite smul_phase, <- gmul_assoc. rewrite Z.abs_neq by lia. reflexivity.
           ++ rewrite IH by lia. unfold scale. replace (multiply_pauli_with_id p (1 + pauli_of op)) with 0%Z by lia.
              cbn [Z.abs Z.to_nat phase]. fold gone. rewrite gmul_one. reflexivity.
    + unfold apply_signed. cbn [fst snd]. rewrite apply_word_app, emit_apply by exact Hp.
      cbn [apply_word]. specialize (IH (qubit_of op) (1 + pauli_of op) s ltac:(lia)).
      rewrite (act_scale_in (ixyz p) q (phase (snd (simp_loop (qubit_of op) (1 + pauli_of op) rest s)))).
      rewrite (act_ext _ _ _ _ IH). rewrite act_scale. unfold scale. rewrite op_ixyz. reflexivity.
Qed.

Lemma simplify_sound w s psi : forall b,
  apply_signed (snd (pauli_simplify w s)) (fst (pauli_simplify w s)) psi b = apply_signed s w psi b.
Proof.
  intro b. unfold pauli_simplify. pose proof (sort_apply w psi b) as S. destruct (stable_sort_qubits w) as [|op rest].
  - cbn [fst snd]. unfold apply_signed. rewrite <- S. reflexivity.
  - rewrite simp_loop_sound by (pose proof (pauli_of_lt op); lia). unfold scale, apply_signed. rewrite <- S. reflexivity.
Qed.

(** output is canonical *)
Lemma emit_qubit q p x : p <= 3 -> In x (emit q p) -> qubit_of x = q.
Proof.
  unfold emit. destruct (Nat.eqb_spec p 0); [intros _ []|]. intros H [<-|[]]. unfold qubit_of.
  replace (q * 3 + p - 1) with (3 * q + (p - 1)) by lia. apply op_div. lia.
Qed.
Lemma simp_loop_shape : forall rest q p s, p <= 3 -> StronglySorted qle rest -> (forall x, In x rest -> q <= qubit_of x) ->
  let w := fst (simp_loop q p rest s) in
  pauli_canonical w /\ (forall x, In x w -> x = q * 3 + p - 1 /\ p <> 0 \/ qubit_of x = q \/ exists y, In y rest /\ qubit_of x = qubit_of y) /\
  (forall x, In x w -> q <= qubit_of x) /\ length w <= S (length rest).
Proof.
  induction rest as [|op rest IH]; intros q p s Hp Hs Hq; cbn [simp_loop].
  - cbn [fst]. unfold emit. destruct (Nat.eqb_spec p 0).
    + split; [constructor|]. split; [intros x []|]. split; [intros x []|cbn; lia].
    + split; [repeat constructor|]. split; [intros x [<-|[]]; left; split; [reflexivity|assumption]|].
      split; [|cbn; lia]. intros x Hx. rewrite (emit_qubit q p x Hp); [lia|]. unfold emit. rewrite (proj2 (Nat.eqb_neq _ _) n). exact Hx.
  - pose proof (pauli_of_lt op) as Hlt. inversion Hs as [|? ? Hs1 Hs2]; subst.
    assert (Hq' : forall x, In x rest -> q <= qubit_of x) by (intros x Hx; apply Hq; right; exact Hx).
    assert (weak : forall p' s', p' <= 3 ->
      let w := fst (simp_loop q p' rest s') in
      pauli_canonical w /\ (forall x, In x w -> x = q * 3 + p - 1 /\ p <> 0 \/ qubit_of x = q \/ exists y, In y (op :: rest) /\ qubit_of x = qubit_of y) /\
      (forall x, In x w -> q <= qubit_of x) /\ length w <= S (length (op :: rest))).
    { intros p' s' Hp'. destruct (IH q p' s' Hp' Hs1 Hq') as (A & B & C & D). split; [exact A|]. split; [|split; [exact C|cbn; lia]].
      intros x Hx. destruct (B x Hx) as [[E1 E2]|[E1|(y & Y1 & Y2)]].
      - right; left. subst x. replace (q * 3 + p' - 1) with (3 * q + (p' - 1)) by lia. apply op_div. lia.
      - right; left; exact E1.
      - right; right. exists y. split; [right; exact Y1|exact Y2]. }
    destruct (Nat.eqb_spec (qubit_of op) q) as [E|E]; cbn [negb].
    + destruct (Nat.eqb_spec p 0) as [P0|P0]; cbn [negb]; [apply weak; lia|].
      assert (Hr : 1 <= 1 + pauli_of op <= 3) by lia. assert (Hl : 1 <= p <= 3) by lia.
      destruct (table_range p (1 + pauli_of op) Hl Hr) as [R1 _].
      destruct (Z.ltb 0 _); [apply weak; lia|]. destruct (Z.ltb _ 0); apply weak; lia.
    + assert (Hop : q < qubit_of op) by (specialize (Hq op (or_introl eq_refl)); lia).
      assert (Hop' : forall x, In x rest -> qubit_of op <= qubit_of x) by (intros x Hx; rewrite Forall_forall in Hs2; apply Hs2, Hx).
      destruct (IH (qubit_of op) (1 + pauli_of op) s ltac:(lia) Hs1 Hop') as (A & B & C & D). cbn [fst].
      split; [|split; [|split]].
      * unfold emit. destruct (Nat.eqb p 0); [exact A|]. cbn [app]. constructor; [exact A|]. apply Forall_forall. intros x Hx.
        specialize (C x Hx). unfold qubit_of in *. enough ((q * 3 + p - 1) / 3 <= q) by lia.
        apply Nat.lt_succ_r. apply Nat.div_lt_upper_bound; lia.
      * intros x Hx. apply in_app_or in Hx as [Hx|Hx].
        -- right; left. apply (emit_qubit q p x Hp Hx).
        -- right; right. destruct (B x Hx) as [[E1 _]|[E1|(y & Y1 & Y2)]].
           ++ exists op. split; [left; reflexivity|]. subst x. replace (qubit_of op * 3 + (1 + pauli_of op) - 1) with (3 * qubit_of op + pauli_of op) by lia.
              apply op_div. exact Hlt.
           ++ exists op. split; [left; reflexivity|exact E1].
           ++ exists y. split; [right; exact Y1|exact Y2].
      * intros x Hx. apply in_app_or in Hx as [Hx|Hx]; [rewrite (emit_qubit q p x Hp Hx); lia|]. specialize (C x Hx). lia.
      * rewrite app_length. assert (length (emit q p) <= 1) by (unfold emit; destruct (Nat.eqb p 0); cbn; lia). cbn [length]. lia.
Qed.
Lemma simplify_shape w s : pauli_canonical (fst (pauli_simplify w s)) /\ length (fst (pauli_simplify w s)) <= length w /\
  (forall x, In x (fst (pauli_simplify w s)) -> exists y, In y w /\ x / 3 = y / 3).
Proof.
  unfold pauli_simplify. pose proof (sort_perm w) as P. pose proof (sort_sorted w) as S.
  destruct (stable_sort_qubits w) as [|op rest]; [cbn; split; [constructor|split; [lia|intros x []]]|].
  inversion S as [|? ? S1 S2]; subst. rewrite Forall_forall in S2. pose proof (pauli_of_lt op) as Hlt.
  destruct (simp_loop_shape rest (qubit_of op) (1 + pauli_of op) s ltac:(lia) S1 S2) as (A & B & C & D).
  split; [exact A|]. split; [rewrite (Permutation_length P); exact D|]. intros x Hx.
  assert (G : exists y, In y (op :: rest) /\ qubit_of x = qubit_of y).
  { destruct (B x Hx) as [[E1 _]|[E1|(y & Y1 & Y2)]].
    - exists op. split; [left; reflexivity|]. subst x. replace (qubit_of op * 3 + (1 + pauli_of op) - 1) with (3 * qubit_of op + pauli_of op) by lia.
      apply op_div. exact Hlt.
    - exists op. split; [left; reflexivity|exact E1].
    - exists y. split; [right; exact Y1|exact Y2]. }
  destruct G as (y & Y1 & Y2). exists y. split; [apply (Permutation_in _ (Permutation_sym P) Y1)|exact Y2].
Qed.
Lemma simplify_over n w s : over (3 * n) w -> over (3 * n) (fst (pauli_simplify w s)).
Proof.
  intros H x Hx. destruct (simplify_shape w s) as (_ & _ & Q). destruct (Q x Hx) as (y & Y1 & Y2). specialize (H y Y1).
  assert (y / 3 < n) by (apply Nat.div_lt_upper_bound; lia). pose proof (Nat.div_mod x 3 ltac:(lia)).
  pose proof (Nat.mod_upper_bound x 3 ltac:(lia)). lia.
Qed.

(* ---------------------------------------------------------------- identity and uniqueness *)
(** the operator on qubit q in a canonical word: 0 = identity *)
Fixpoint site (w : word) (q : nat) : nat :=
  match w with [] => 0 | o :: w' => if Nat.eqb (o / 3) q then 1 + o mod 3 else site w' q end.

Lemma canonical_cons o w : pauli_canonical (o :: w) <-> pauli_canonical w /\ forall x, In x w -> o / 3 < x / 3.
Proof.
  unfold pauli_canonical. split.
  - intro H. inversion H as [|? ? H1 H2]; subst. rewrite Forall_forall in H2. auto.
  - intros [H1 H2]. constructor; [exact H1|]. apply Forall_forall. exact H2.
Qed.
Lemma site_none w q : (forall x, In x w -> q < x / 3) -> site w q = 0.
Proof.
  induction w as [|o w IH]; intro H; cbn; [reflexivity|]. destruct (Nat.eqb_spec (o / 3) q) as [E|E].
  - specialize (H o (or_introl eq_refl)). lia.
  - apply IH. intros x Hx. apply H. right. exact Hx.
Qed.
Lemma site_inj u : forall w, pauli_canonical u -> pauli_canonical w -> (forall q, site u q = site w q) -> u = w.
Proof.
  induction u as [|o u IH]; intros w Hu Hw E.
  - destruct w as [|o' w]; [reflexivity|]. specialize (E (o' / 3)). cbn in E. rewrite Nat.eqb_refl in E. discriminate.
  - apply canonical_cons in Hu as [Hu1 Hu2]. destruct w as [|o' w].
    + specialize (E (o / 3)). cbn in E. rewrite Nat.eqb_refl in E. discriminate.
    + apply canonical_cons in Hw as [Hw1 Hw2].
      assert (Q : o / 3 = o' / 3).
      { destruct (Nat.lt_trichotomy (o / 3) (o' / 3)) as [C|[C|C]]; [|exact C|]; exfalso.
        - specialize (E (o / 3)). cbn in E. rewrite Nat.eqb_refl in E. rewrite (proj2 (Nat.eqb_neq _ _)) in E by lia.
          rewrite site_none in E; [discriminate|]. intros x Hx. specialize (Hw2 x Hx). lia.
        - specialize (E (o' / 3)). cbn in E. rewrite Nat.eqb_refl in E. rewrite (proj2 (Nat.eqb_neq _ _)) in E by lia.
          rewrite site_none in E; [discriminate|]. intros x Hx. specialize (Hu2 x Hx). lia. }
      assert (R : o mod 3 = o' mod 3).
      { specialize (E (o / 3)). cbn in E. rewrite Nat.eqb_refl, <- Q, Nat.eqb_refl in E. lia. }
      assert (o = o') by (rewrite (Nat.div_mod o 3), (Nat.div_mod o' 3) by lia; congruence). subst o'.
      f_equal. apply IH; [assumption|assumption|]. intro q. specialize (E q). cbn in E.
      destruct (Nat.eqb_spec (o / 3) q) as [Q'|Q']; [|exact E]. rewrite <- Q', !site_none by assumption. reflexivity.
Qed.

(** commutation sign of Pauli indices (0 = identity) *)
Definition anti (p r : nat) : bool := negb (Nat.eqb p 0) && negb (Nat.eqb r 0) && negb (Nat.eqb p r).
Definition sgn (b : bool) : sign := if b then SNeg else SPos.
Lemma ixyz_commute p r q psi : p <= 3 -> r <= 3 ->
  seq_eq (act (ixyz p) q (act (ixyz r) q psi)) (scale (phase (sgn (anti p r))) (act (ixyz r) q (act (ixyz p) q psi))).
Proof.
  intros Hp Hr b. unfold scale. rewrite !act_mul. unfold act.
  assert (H : forall x y, mat_mul (ixyz p) (ixyz r) x y = gmul (phase (sgn (anti p r))) (mat_mul (ixyz r) (ixyz p) x y)).
  { intros x y. assert (Ep : p = 0 \/ p = 1 \/ p = 2 \/ p = 3) by lia. assert (Er : r = 0 \/ r = 1 \/ r = 2 \/ r = 3) by lia.
    destruct Ep as [->|[->|[->| ->]]], Er as [->|[->|[->| ->]]], x, y; reflexivity. }
  rewrite !H. rewrite gmul_add, !gmul_assoc. reflexivity.
Qed.
Lemma word_commute w : forall q r psi, pauli_canonical w -> r <= 3 ->
  seq_eq (apply_word w (act (ixyz r) q psi)) (scale (phase (sgn (anti (site w q) r))) (act (ixyz r) q (apply_word w psi))).
Proof.
  induction w as [|o w IH]; intros q r psi Hc Hr b.
  - cbn. unfold scale. destruct (act (ixyz r) q psi b). gring.
  - apply canonical_cons in Hc as [H1 H2]. cbn [apply_word site]. rewrite (act_ext _ _ _ _ (IH q r psi H1 Hr)).
    rewrite act_scale. unfold scale. rewrite op_ixyz. pose proof (pauli_of_lt o) as Hlt. fold (qubit_of o). fold (pauli_of o).
    destruct (Nat.eqb_spec (qubit_of o) q) as [<-|E].
    + rewrite site_none by exact H2. cbn [anti Nat.eqb negb andb sgn phase]. fold gone. rewrite gmul_one.
      rewrite ixyz_commute by lia. reflexivity.
    + rewrite act_comm by exact E. reflexivity.
Qed.
(** a word of Paulis is invertible *)
Lemma ixyz_square p q psi : p <= 3 -> seq_eq (act (ixyz p) q (act (ixyz p) q psi)) psi.
Proof.
  intros Hp b. rewrite act_mul. rewrite <- (act_id q psi b). apply act_mat_ext. intros x y.
  assert (Ep : p = 0 \/ p = 1 \/ p = 2 \/ p = 3) by lia. destruct Ep as [->|[->|[->| ->]]], x, y; reflexivity.
Qed.
Lemma word_inverse w psi : seq_eq (apply_word w (apply_word (rev w) psi)) psi.
Proof.
  revert psi. induction w as [|o w IH]; intros psi b; [reflexivity|]. cbn [rev]. rewrite apply_word_app. cbn [apply_word].
  rewrite (act_ext _ _ _ _ (IH _)). rewrite op_ixyz. apply ixyz_square. pose proof (pauli_of_lt o). lia.
Qed.

Lemma phase_nonzero s : phase s <> gzero. Proof. destruct s; discriminate. Qed.
Lemma phase_mul_inj s z y : gmul (phase s) z = gmul (phase s) y -> z = y.
Proof. destruct s, z as [a b], y as [c d]; unfold gmul, phase; cbn [fst snd]; intro E; apply (f_equal fst) in E as E1; apply (f_equal snd) in E as E2; cbn [fst snd] in E1, E2; f_equal; lia. Qed.

Lemma canonical_unique s u t w : pauli_canonical u -> pauli_canonical w ->
  (forall psi b, apply_signed s u psi b = apply_signed t w psi b) -> u = w /\ s = t.
Proof.
  intros Hu Hw E.
  assert (S : forall q r, r <= 3 -> anti (site u q) r = anti (site w q) r).
  { intros q r Hr.
    (* choose psi so that act r q (u psi) at 0 equals one *)
    set (f := fun psi : state => act (ixyz r) q (apply_word u psi)).
    assert (Hf : exists psi, f psi 0%N = gone).
    { exists (apply_word (rev u) (act (ixyz r) q (basis_state 0))). unfold f.
      rewrite (act_ext _ _ _ _ (word_inverse u _)). rewrite ixyz_square by exact Hr. reflexivity. }
    destruct Hf as (psi & Hf). unfold f in Hf.
    pose proof (E (act (ixyz r) q psi) 0%N) as E1. unfold apply_signed in E1.
    rewrite (word_commute u q r psi Hu Hr), (word_commute w q r psi Hw Hr) in E1. unfold scale in E1.
    assert (E2 : gmul (phase s) (act (ixyz r) q (apply_word u psi) 0%N) = gmul (phase t) (act (ixyz r) q (apply_word w psi) 0%N)).
    { pose proof (act_scale (ixyz r) q (phase s) (apply_word u psi) 0%N) as A1. pose proof (act_scale (ixyz r) q (phase t) (apply_word w psi) 0%N) as A2.
      unfold scale in A1 at 2. unfold scale in A2 at 2. rewrite <- A1, <- A2. apply act_ext. intro b. apply (E psi b). }
    rewrite Hf in *. set (x := act (ixyz r) q (apply_word w psi) 0%N) in *.
    destruct (anti (site u q) r), (anti (site w q) r); try reflexivity; exfalso;
      destruct s, t, x as [a c]; unfold gmul, gone, sgn, phase in *; cbn [fst snd] in E1, E2;
      apply (f_equal fst) in E1 as E3; apply (f_equal snd) in E1; apply (f_equal fst) in E2 as E4; apply (f_equal snd) in E2;
      cbn [fst snd] in E1, E2, E3, E4; lia. }
  assert (U : u = w).
  { apply site_inj; try assumption. intro q. pose proof (S q 1 ltac:(lia)) as A. pose proof (S q 2 ltac:(lia)) as B. pose proof (S q 3 ltac:(lia)) as C.
    assert (bound : forall v, site v q <= 3).
    { clear - q. induction v as [|o v IH]; cbn; [lia|]. destruct (Nat.eqb (o / 3) q); [|exact IH]. pose proof (Nat.mod_upper_bound o 3). lia. }
    pose proof (bound u) as Bu. pose proof (bound w) as Bw.
    assert (Eu : site u q = 0 \/ site u q = 1 \/ site u q = 2 \/ site u q = 3) by lia.
    assert (Ew : site w q = 0 \/ site w q = 1 \/ site w q = 2 \/ site w q = 3) by lia.
    destruct Eu as [Eu|[Eu|[Eu|Eu]]], Ew as [Ew|[Ew|[Ew|Ew]]]; rewrite Eu, Ew in *; try reflexivity; discriminate. }
  split; [exact U|]. subst w. specialize (E (apply_word (rev u) (basis_state 0)) 0%N). unfold apply_signed in E.
  rewrite (word_inverse u _) in E. cbn in E. destruct s, t; try reflexivity; discriminate.
Qed.

Lemma simplify_unique u s w t :
  (forall psi b, apply_signed s u psi b = apply_signed t w psi b) <-> pauli_simplify u s = pauli_simplify w t.
Proof.
  split.
  - intro E. destruct (canonical_unique (snd (pauli_simplify u s)) (fst (pauli_simplify u s)) (snd (pauli_simplify w t)) (fst (pauli_simplify w t)))
      as [E1 E2].
    + apply simplify_shape.
    + apply simplify_shape.
    + intros psi b. rewrite !simplify_sound. apply E.
    + destruct (pauli_simplify u s), (pauli_simplify w t). cbn in *. congruence.
  - intros E psi b. rewrite <- (simplify_sound u s psi b), <- (simplify_sound w t psi b), E. reflexivity.
Qed.
Lemma simplify_fixed w s : pauli_canonical w -> pauli_simplify w s = (w, s).
Proof.
  intro H. destruct (canonical_unique (snd (pauli_simplify w s)) (fst (pauli_simplify w s)) s w (proj1 (simplify_shape w s)) H) as [E1 E2].
  - intros psi b. apply simplify_sound.
  - destruct (pauli_simplify w s). cbn in *. congruence.
Qed.

(* ---------------------------------------------------------------- merge = simplification of the concatenation *)
Lemma merge_nil_l r s : merge_loop [] r s = (r, s). Proof. destruct r; reflexivity. Qed.
Lemma merge_nil_r l s : merge_loop l [] s = (l, s). Proof. destruct l; reflexivity. Qed.

Lemma word_skip w : forall o psi, (forall x, In x w -> o / 3 <> x / 3) ->
  seq_eq (apply_word w (act (pauli_matrix (o mod 3)) (o / 3) psi)) (act (pauli_matrix (o mod 3)) (o / 3) (apply_word w psi)).
Proof.
  induction w as [|y w IH]; intros o psi H b; cbn; [reflexivity|].
  rewrite (act_ext _ _ _ _ (IH o psi (fun x Hx => H x (or_intror Hx)))). apply act_comm.
  intro E. apply (H y (or_introl eq_refl)). congruence.
Qed.

Lemma merge_spec : forall l r s, pauli_canonical l -> pauli_canonical r ->
  let x := merge_loop l r s in
  (forall psi b, apply_signed (snd x) (fst x) psi b = apply_signed s (l ++ r) psi b) /\ pauli_canonical (fst x) /\
  (forall y, In y (fst x) -> exists z, In z (l ++ r) /\ y / 3 = z / 3).
Proof.
  induction l as [|lop l IHl]; intro r.
  - intros s Hl Hr. rewrite merge_nil_l. cbn [fst snd app]. split; [reflexivity|]. split; [exact Hr|]. intros y Hy. exists y. auto.
  - induction r as [|rop r IHr]; intros s Hl Hr.
    + cbn [merge_loop fst snd]. rewrite app_nil_r. split; [reflexivity|]. split; [exact Hl|]. intros y Hy. exists y. auto.
    + pose proof (proj1 (canonical_cons _ _) Hl) as [Hl1 Hl2]. pose proof (proj1 (canonical_cons _ _) Hr) as [Hr1 Hr2].
      change (merge_loop (lop :: l) (rop :: r) s) with
        (if Nat.ltb (qubit_of lop) (qubit_of rop) then
          let x := merge_loop l (rop :: r) s in (lop :: fst x, snd x)
        else if Nat.ltb (qubit_of rop) (qubit_of lop) then
          let x := merge_loop (lop :: l) r s in (rop :: fst x, snd x)
        else
          let p := multiply_pauli (pauli_of lop) (pauli_of rop) in
          if Z.ltb 0 p then
            let x := merge_loop l r (smul s SIm) in ((3 * qubit_of lop + (Z.to_nat p - 1)) :: fst x, snd x)
          else if Z.ltb p 0 then
            let x := merge_loop l r (smul s SNegIm) in ((3 * qubit_of lop + (Z.to_nat (- p) - 1)) :: fst x, snd x)
          else merge_loop l r s).
      cbv zeta. unfold qubit_of in *. destruct (Nat.ltb_spec (lop / 3) (rop / 3)) as [C|C].
      * destruct (IHl (rop :: r) s Hl1 Hr) as (A & B & D). cbn [fst snd]. split; [|split].
        -- intros psi b. unfold apply_signed in *. cbn [app apply_word].
           rewrite (act_scale_in (pauli_matrix (lop mod 3)) (lop / 3) (phase (snd (merge_loop l (rop :: r) s)))).
           rewrite (act_scale_in (pauli_matrix (lop mod 3)) (lop / 3) (phase s)). apply act_ext. intro b'. apply A.
        -- apply canonical_cons. split; [exact B|]. intros y Hy. destruct (D y Hy) as (z & Z1 & Z2). rewrite Z2.
           apply in_app_or in Z1 as [Z1|[<-|Z1]]; [apply Hl2, Z1|exact C|]. specialize (Hr2 z Z1). lia.
        -- intros y [<-|Hy]; [exists lop; split; [left; reflexivity|reflexivity]|]. destruct (D y Hy) as (z & Z1 & Z2). exists z. split; [right; exact Z1|exact Z2].
      * destruct (Nat.ltb_spec (rop / 3) (lop / 3)) as [C'|C'].
        -- destruct (IHr s Hl Hr1) as (A & B & D). cbn [fst snd]. split; [|split].
           ++ intros psi b. unfold apply_signed in *. rewrite apply_word_app. cbn [apply_word].
              rewrite (act_scale_in (pauli_matrix (rop mod 3)) (rop / 3) (phase (snd (merge_loop (lop :: l) r s)))).
              assert (K : seq_eq (scale (phase (snd (merge_loop (lop :: l) r s))) (apply_word (fst (merge_loop (lop :: l) r s)) psi))
                                 (scale (phase s) (apply_word ((lop :: l) ++ r) psi))) by (intro b'; apply A).
              rewrite (act_ext _ _ _ _ K). rewrite act_scale. unfold scale. rewrite apply_word_app.
              f_equal. symmetry. apply (word_skip (lop :: l) rop). intros x [<-|Hx]; [lia|]. specialize (Hl2 x Hx). lia.
           ++ apply canonical_cons. split; [exact B|]. intros y Hy. destruct (D y Hy) as (z & Z1 & Z2). rewrite Z2.
              apply in_app_or in Z1 as [[<-|Z1]|Z1]; [exact C'| |apply Hr2, Z1]. specialize (Hl2 z Z1). lia.
           ++ intros y [<-|Hy]; [exists rop; split; [apply in_or_app; right; left; reflexivity|reflexivity]|].
              destruct (D y Hy) as (z & Z1 & Z2). exists z. split; [|exact Z2]. apply in_app_or in Z1 as [Z1|Z1]; apply in_or_app; [left|right; right]; exact Z1.
        -- assert (Q : lop / 3 = rop / 3) by lia.
           pose proof (Nat.mod_upper_bound lop 3 ltac:(lia)) as M1. pose proof (Nat.mod_upper_bound rop 3 ltac:(lia)) as M2.
           assert (R1 : 1 <= 1 + lop mod 3 <= 3) by lia. assert (R2 : 1 <= 1 + rop mod 3 <= 3) by lia.
           destruct (table_range _ _ R1 R2) as [T1 _].
           assert (H0 : forall psi b, apply_signed s (((lop :: l) ++ rop :: r)) psi b =
              gmul (phase s) (gmul (phase (table_phase (multiply_pauli_with_id (1 + lop mod 3) (1 + rop mod 3))))
                (act (ixyz (Z.to_nat (Z.abs (multiply_pauli_with_id (1 + lop mod 3) (1 + rop mod 3))))) (lop / 3) (apply_word (l ++ r) psi) b))).
           { intros psi b. unfold apply_signed. f_equal. cbn [app apply_word]. rewrite apply_word_app. cbn [apply_word].
             assert (K : seq_eq (apply_word l (act (pauli_matrix (rop mod 3)) (rop / 3) (apply_word r psi)))
                                (act (pauli_matrix (rop mod 3)) (rop / 3) (apply_word l (apply_word r psi)))).
             { apply word_skip. intros x Hx. specialize (Hl2 x Hx). lia. }
             rewrite (act_ext _ _ _ _ K). rewrite <- Q.
             rewrite (act_product (1 + lop mod 3) (1 + rop mod 3) (lop / 3) _ R1 R2 b). unfold scale. rewrite apply_word_app. reflexivity. }
           rewrite multiply_pauli_shift. unfold pauli_of. rewrite !(Nat.add_comm _ 1).
           set (p := multiply_pauli_with_id (1 + lop mod 3) (1 + rop mod 3)) in *.
           assert (Fin : forall k s', 1 <= k <= 3 ->
             (forall psi b, gmul (phase s') (act (ixyz k) (lop / 3) (apply_word (l ++ r) psi) b) = apply_signed s ((lop :: l) ++ rop :: r) psi b) ->
             let x := merge_loop l r s' in
             (forall psi b, apply_signed (snd x) ((3 * (lop / 3) + (k - 1)) :: fst x) psi b = apply_signed s ((lop :: l) ++ rop :: r) psi b) /\
             pauli_canonical ((3 * (lop / 3) + (k - 1)) :: fst x) /\
             (forall y, In y ((3 * (lop / 3) + (k - 1)) :: fst x) -> exists z, In z ((lop :: l) ++ rop :: r) /\ y / 3 = z / 3)).
           { intros k s' Hk HK x. destruct (IHl r s' Hl1 Hr1) as (A & B & D). fold x in A, B, D. split; [|split].
             - intros psi b. rewrite <- HK. unfold apply_signed in A |- *. cbn [apply_word]. rewrite op_div, op_mod by lia.
               replace (ixyz k) with (pauli_matrix (k - 1)) by (destruct k; [lia|cbn; rewrite Nat.sub_0_r; reflexivity]).
               rewrite (act_scale_in (pauli_matrix (k - 1)) (lop / 3) (phase (snd x))).
               rewrite (act_scale_in (pauli_matrix (k - 1)) (lop / 3) (phase s')). apply act_ext. intro b'. apply A.
             - apply canonical_cons. split; [exact B|]. intros y Hy. rewrite op_div by lia. destruct (D y Hy) as (z & Z1 & Z2). rewrite Z2.
               apply in_app_or in Z1 as [Z1|Z1]; [apply Hl2, Z1|]. specialize (Hr2 z Z1). lia.
             - intros y [<-|Hy]; [exists lop; split; [left; reflexivity|apply op_div; lia]|].
               destruct (D y Hy) as (z & Z1 & Z2). exists z. split; [|exact Z2]. apply in_app_or in Z1 as [Z1|Z1]; [right; apply in_or_app; left; exact Z1|].
               right. apply in_or_app. right. right. exact Z1. }
           unfold table_phase in H0. destruct (Z.ltb_spec 0 p) as [P1|P1].
           ++ cbn [fst snd]. apply (Fin (Z.to_nat p) (smul s SIm)); [lia|]. intros psi b. rewrite H0, smul_phase, gmul_assoc.
              rewrite Z.abs_eq by lia. reflexivity.
           ++ destruct (Z.ltb_spec p 0) as [P2|P2].
              ** cbn [fst snd]. apply (Fin (Z.to_nat (- p)) (smul s SNegIm)); [lia|]. intros psi b. rewrite H0, smul_phase, gmul_assoc.
                 rewrite Z.abs_neq by lia. reflexivity.
              ** destruct (IHl r s Hl1 Hr1) as (A & B & D). split; [|split; [exact B|]].
                 --- intros psi b. rewrite H0, A. unfold apply_signed. replace p with 0%Z by lia. cbn [Z.abs Z.to_nat phase ixyz]. fold gone.
                     rewrite gmul_one, act_id. reflexivity.
                 --- intros y Hy. destruct (D y Hy) as (z & Z1 & Z2). exists z. split; [|exact Z2].
                     apply in_app_or in Z1 as [Z1|Z1]; right; apply in_or_app; [left; exact Z1|right; right; exact Z1].
Qed.
Lemma merge_simplify l r s : pauli_canonical l -> pauli_canonical r -> merge_loop l r s = pauli_simplify (l ++ r) s.
Proof.
  intros Hl Hr. destruct (merge_spec l r s Hl Hr) as (A & B & _).
  assert (E : pauli_simplify (fst (merge_loop l r s)) (snd (merge_loop l r s)) = pauli_simplify (l ++ r) s) by (apply simplify_unique; exact A).
  rewrite <- E, simplify_fixed by exact B. destruct (merge_loop l r s); reflexivity.
Qed.
