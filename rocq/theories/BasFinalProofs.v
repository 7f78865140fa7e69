(** Theorems about matrices and their bases. *)
From Coq Require Import List NArith ZArith Arith Bool Sorted Permutation Lia Ring Field.
From Verif Require Import CoreModel FieldModel FieldProofs SymModel SymSpec SymProofs SymFinalProofs PolyModel PolySpec PolyProofs PolyBasisModel PolyBasisProofs PolyFinalProofs BasModel BasSpec BasProofs BasMatProofs.
Import ListNotations.

Section Unique.
  Variable R : rfield.
  Add Field Rf2 : (r_field R).
  Add Field Cf2 : (cx_field R).
  Variable t : table.
  Hypothesis NB : numbered t.
  Hypothesis ST : starts t.
  Notation ws := (wsum R).
  Lemma ws_ext2 n a a' (f g : nat -> cx R) : (forall k, k < n -> cmul (creal (a k)) (f k) = cmul (creal (a' k)) (g k)) -> ws n a f = ws n a' g.
  Proof.
    intro H. unfold wsum. assert (G : forall k, In k (seq 0 n) -> cmul (creal (a k)) (f k) = cmul (creal (a' k)) (g k)) by (intros k I; apply in_seq in I; apply H; lia). clear H.
    induction (seq 0 n) as [|k l IH]; [reflexivity|]. cbn [fold_right]. rewrite IH by (intros; apply G; now right). now rewrite (G k (or_introl eq_refl)).
  Qed.
  Lemma ws_add_weights n a a' (f : nat -> cx R) : ws n (fun k => radd R (a k) (a' k)) f = cadd (ws n a f) (ws n a' f).
  Proof. unfold wsum. induction (seq 0 n) as [|k l IH]; cbn [fold_right]; [ring|]. rewrite IH. apply cx_ext; cbn; ring. Qed.
  Definition delta (k j : nat) : R := if Nat.eqb k j then r1 R else r0 R.
  Lemma ws_delta n k (f : nat -> cx R) : k < n -> ws n (delta k) f = f k.
  Proof.
    intro L. rewrite (ws_ext2 n (delta k) (fun _ => r1 R) f (fun j => if Nat.eqb k j then f k else c0)).
    - rewrite wsum_one by exact L. apply cx_ext; cbn; ring.
    - intros j _. unfold delta. destruct (Nat.eqb_spec k j) as [->|]; [reflexivity|]. apply cx_ext; cbn; ring.
  Qed.
  Lemma ws_no_weight n a (f : nat -> cx R) : (forall k, k < n -> a k = r0 R) -> ws n a f = c0.
  Proof. intro H. rewrite (ws_ext2 n a (fun _ => r0 R) f (fun _ => c0)); [apply wsum_zero|]. intros k L. rewrite (H k L). apply cx_ext; cbn; ring. Qed.
  (** the identity is one and nothing else has a value, except one symbol *)
  Definition only_one : nat -> cx R := fun i => if Nat.eqb i 1 then c1 else c0.
  Definition and_one (j : nat) (w : cx R) : nat -> cx R := fun i => if Nat.eqb i 1 then c1 else if Nat.eqb i j then w else c0.
  Lemma one_not_anti : anti t 1 = false /\ herm t 1 = true.
  Proof. destruct ST as [s0 [s1 [l [E [H A]]]]]. unfold anti, herm, sym_of. rewrite E. cbn. auto. Qed.
  Lemma and_one_assignment j w : j <> 0 -> (herm t j = true -> cim w = r0 R) -> (anti t j = true -> cre w = r0 R) -> assignment t (and_one j w).
  Proof.
    intros N H A. destruct one_not_anti as [A1 _]. unfold and_one. constructor.
    - destruct j; [congruence|reflexivity].
    - reflexivity.
    - intros id s S F. destruct (Nat.eqb id 1); [reflexivity|]. destruct (Nat.eqb_spec id j) as [->|]; [|reflexivity]. apply H. now rewrite (herm_sym t j s S).
    - intros id s S F. destruct (Nat.eqb_spec id 1) as [->|]; [rewrite (anti_sym t 1 s S) in A1; congruence|]. destruct (Nat.eqb_spec id j) as [->|]; [|reflexivity]. apply A. now rewrite (anti_sym t j s S).
  Qed.
  Lemma only_assignment : assignment t only_one.
  Proof.
    destruct one_not_anti as [A1 _]. unfold only_one. constructor; try reflexivity.
    - intros id s _ _. now destruct (Nat.eqb id 1).
    - intros id s S F. destruct (Nat.eqb_spec id 1) as [->|]; [rewrite (anti_sym t 1 s S) in A1; congruence|reflexivity].
  Qed.
  Lemma one_listed : exists k, nth_error (t_real t) k = Some 1.
  Proof.
    destruct ST as [s0 [s1 [l [E [H A]]]]]. apply In_nth_error. rewrite (nb_real t NB). apply positions_in. exists s1. rewrite E. split; [reflexivity|]. unfold has_re. now rewrite A.
  Qed.
  Lemma nth_unique (l : list nat) i j x : NoDup l -> nth_error l i = Some x -> nth_error l j = Some x -> i = j.
  Proof. intros ND A B. apply (proj1 (NoDup_nth_error l) ND); [apply nth_error_Some; congruence|congruence]. Qed.
  (** a real-linear function of the basis elements is determined by its values *)
  Lemma unique_at (F G F' G' : nat -> cx R) :
    (forall v, assignment t v -> cadd (ws (length (t_real t)) (real_elem t v) F) (ws (length (t_imag t)) (imag_elem t v) F') =
                                 cadd (ws (length (t_real t)) (real_elem t v) G) (ws (length (t_imag t)) (imag_elem t v) G')) ->
    (forall k, nth_error (t_real t) k <> Some 0) -> (forall k, nth_error (t_imag t) k <> Some 0) ->
    (forall k, k < length (t_real t) -> F k = G k) /\ (forall k, k < length (t_imag t) -> F' k = G' k).
  Proof.
    intros H Z Z'. destruct one_listed as [k1 K1]. destruct one_not_anti as [A1 H1].
    assert (L1 : k1 < length (t_real t)) by (apply nth_error_Some; congruence).
    assert (RE : forall k j w, nth_error (t_real t) k = Some j -> j <> 1 -> forall i, i < length (t_real t) -> real_elem t (and_one j w) i = radd R (delta k1 i) (if Nat.eqb k i then cre w else r0 R)).
    { intros k j w Kj Nj i L. unfold real_elem. destruct (nth_error (t_real t) i) as [q|] eqn:Q; [|apply nth_error_None in Q; lia]. unfold and_one, delta.
      destruct (Nat.eqb_spec q 1) as [->|N1].
      - rewrite (nth_unique _ _ _ _ (real_nodup t NB) K1 Q), Nat.eqb_refl. destruct (Nat.eqb_spec k i) as [->|]; [congruence|]. cbn. ring.
      - destruct (Nat.eqb_spec k1 i) as [->|_]; [congruence|]. destruct (Nat.eqb_spec q j) as [->|Nq].
        + rewrite (nth_unique _ _ _ _ (real_nodup t NB) Kj Q), Nat.eqb_refl. ring.
        + destruct (Nat.eqb_spec k i) as [->|]; [congruence|]. cbn. ring. }
    assert (R1 : forall i, i < length (t_real t) -> real_elem t only_one i = delta k1 i).
    { intros i L. unfold real_elem. destruct (nth_error (t_real t) i) as [q|] eqn:Q; [|apply nth_error_None in Q; lia]. unfold only_one, delta.
      destruct (Nat.eqb_spec q 1) as [->|N1]; [now rewrite (nth_unique _ _ _ _ (real_nodup t NB) K1 Q), Nat.eqb_refl|]. destruct (Nat.eqb_spec k1 i) as [->|_]; [congruence|reflexivity]. }
    assert (I1 : forall i, imag_elem t only_one i = r0 R).
    { intro i. unfold imag_elem. destruct (nth_error (t_imag t) i) as [q|]; [|reflexivity]. unfold only_one. now destruct (Nat.eqb q 1). }
    assert (E1 : F k1 = G k1).
    { pose proof (H only_one only_assignment) as E. rewrite !(ws_no_weight (length (t_imag t)) (imag_elem t only_one)) in E by auto.
      rewrite !(ws_ext2 (length (t_real t)) (real_elem t only_one) (delta k1) _ _ (fun k L => f_equal (fun z => cmul (creal z) _) (R1 k L))) in E.
      rewrite !ws_delta in E by exact L1. transitivity (cadd (F k1) c0); [ring|]. rewrite E. ring. }
    split.
    - intros k L. destruct (nth_error (t_real t) k) as [j|] eqn:Kj; [|apply nth_error_None in Kj; lia]. destruct (Nat.eq_dec j 1) as [->|Nj]; [now rewrite <- (nth_unique _ _ _ _ (real_nodup t NB) K1 Kj)|].
      destruct (real_in_table t NB k j Kj) as [_ Aj]. assert (AS : assignment t (and_one j c1)). { apply and_one_assignment; [intros ->; now apply (Z k)|reflexivity|congruence]. }
      pose proof (H _ AS) as E.
      assert (I2 : forall i, i < length (t_imag t) -> imag_elem t (and_one j c1) i = r0 R). { intros i _. unfold imag_elem. destruct (nth_error (t_imag t) i) as [q|]; [|reflexivity]. unfold and_one. destruct (Nat.eqb q 1), (Nat.eqb q j); reflexivity. }
      rewrite !(ws_no_weight (length (t_imag t)) (imag_elem t (and_one j c1))) in E by exact I2.
      assert (W : forall i, i < length (t_real t) -> real_elem t (and_one j c1) i = radd R (delta k1 i) (delta k i)). { intros i Li. rewrite (RE k j c1 Kj Nj i Li). unfold delta. cbn. reflexivity. }
      rewrite !(ws_ext2 (length (t_real t)) (real_elem t (and_one j c1)) (fun i => radd R (delta k1 i) (delta k i)) _ _ (fun k L => f_equal (fun z => cmul (creal z) _) (W k L))) in E.
      rewrite !ws_add_weights, !ws_delta in E by assumption. rewrite E1 in E. transitivity (csub (cadd (cadd (G k1) (F k)) c0) (G k1)); [ring|]. rewrite E. ring.
    - intros k L. destruct (nth_error (t_imag t) k) as [j|] eqn:Kj; [|apply nth_error_None in Kj; lia]. destruct (imag_in_table t NB k j Kj) as [_ Hj]. assert (Nj : j <> 1) by congruence.
      assert (AS : assignment t (and_one j ci)). { apply and_one_assignment; [intros ->; now apply (Z' k)|congruence|reflexivity]. }
      pose proof (H _ AS) as E.
      assert (W : forall i, i < length (t_real t) -> real_elem t (and_one j ci) i = delta k1 i).
      { intros i Li. unfold real_elem. destruct (nth_error (t_real t) i) as [q|] eqn:Q; [|apply nth_error_None in Q; lia]. unfold and_one, delta.
        destruct (Nat.eqb_spec q 1) as [->|N1]; [now rewrite (nth_unique _ _ _ _ (real_nodup t NB) K1 Q), Nat.eqb_refl|]. destruct (Nat.eqb_spec k1 i) as [->|_]; [congruence|]. now destruct (Nat.eqb q j). }
      assert (W' : forall i, i < length (t_imag t) -> imag_elem t (and_one j ci) i = delta k i).
      { intros i Li. unfold imag_elem. destruct (nth_error (t_imag t) i) as [q|] eqn:Q; [|apply nth_error_None in Q; lia]. unfold and_one, delta.
        destruct (imag_in_table t NB i q Q) as [_ Hq]. destruct (Nat.eqb_spec q 1) as [->|N1]; [congruence|]. destruct (Nat.eqb_spec q j) as [->|Nq].
        - now rewrite (nth_unique _ _ _ _ (imag_nodup t NB) Kj Q), Nat.eqb_refl.
        - destruct (Nat.eqb_spec k i) as [->|]; [congruence|reflexivity]. }
      rewrite !(ws_ext2 (length (t_real t)) (real_elem t (and_one j ci)) (delta k1) _ _ (fun k L => f_equal (fun z => cmul (creal z) _) (W k L))) in E.
      rewrite !(ws_ext2 (length (t_imag t)) (imag_elem t (and_one j ci)) (delta k) _ _ (fun k L => f_equal (fun z => cmul (creal z) _) (W' k L))) in E.
      rewrite !ws_delta in E by assumption. rewrite E1 in E. transitivity (csub (cadd (G k1) (F' k)) (G k1)); [ring|]. rewrite E. ring.
  Qed.
End Unique.

(** ** symbol 0 is both Hermitian and anti-Hermitian *)
Definition null0 (t : table) : Prop := exists s l, t_syms t = s :: l /\ sy_id s = 0 /\ sy_herm s = true /\ sy_anti s = true.
Lemma null0_ext t t' l : null0 t -> t_syms t' = t_syms t ++ l -> null0 t'.
Proof. intros (s & l0 & E & H) E'. exists s, (l0 ++ l). rewrite E', E. auto. Qed.
Lemma merge_symbol_null0 t s t' id : null0 t -> merge_symbol t s = Done t' id -> null0 t'.
Proof.
  intros H E. unfold merge_symbol in E. destruct (sy_hash s) as [h|]; [|discriminate]. destruct (sy_hash_conj s) as [hc|]; [|discriminate].
  destruct (hfind h (t_hash t)) as [v|].
  - destruct (nth_error (t_syms t) (Z.abs_nat v)); [|discriminate]. injection E as <- _. exact H.
  - unfold basis_push in E. cbv zeta in E. injection E as <- _. eapply null0_ext; [exact H|]. reflexivity.
Qed.
Lemma merge_symbols_null0 l : forall t t' ids, null0 t -> merge_symbols t l = Done t' ids -> null0 t'.
Proof.
  induction l as [|s l IH]; intros t t' ids H E; cbn in E; [injection E as <- _; exact H|]. destruct (merge_symbol t s) as [t1 id|t1|] eqn:M; try discriminate.
  destruct (merge_symbols t1 l) as [t2 ids'|t2|] eqn:M'; try discriminate. injection E as <- _. eapply IH; [|exact M']. eapply merge_symbol_null0; eauto.
Qed.
Lemma create_loop_null0 n r i : forall t, null0 t -> null0 (create_loop n t r i).
Proof. induction n as [|n IH]; intros t H; [exact H|]. cbn [create_loop]. apply IH. eapply null0_ext; [exact H|]. reflexivity. Qed.
Lemma flag_loop_prefix re im : forall todo done ch, exists l, fst (fst (flag_loop re im done todo ch)) = done ++ l.
Proof.
  induction todo as [|s todo IH]; intros done ch; [exists []; cbn; now rewrite app_nil_r|].
  assert (G : forall s' ch', exists l, fst (fst (flag_loop re im (done ++ [s']) todo ch')) = done ++ l).
  { intros s' ch'. destruct (IH (done ++ [s']) ch') as [l E]. exists (s' :: l). rewrite E, <- app_assoc. reflexivity. }
  cbn [flag_loop]. destruct (Nat.eqb (sy_id s) 0); [apply G|]. destruct (nth_error re (sy_id s)) as [[]|], (nth_error im (sy_id s)) as [[]|]; try apply G; cbn [fst]; try (now eexists).
  - destruct (sy_anti s); [cbn; now eexists|apply G].
  - destruct (sy_herm s); [cbn; now eexists|apply G].
Qed.
Lemma renumber_prefix : forall l t done, exists l', t_syms (renumber_loop l t done) = done ++ l'.
Proof.
  induction l as [|s l IH]; intros t done; [exists []; cbn; now rewrite app_nil_r|]. cbn [renumber_loop]. destruct (basis_push t (sy_id s) (negb (sy_anti s)) (negb (sy_herm s))) as [[t1 re] im].
  destruct (IH t1 (done ++ [mk_symbol (sy_id s) (sy_seq s) (sy_conj s) (sy_herm s) (sy_anti s) re im])) as [l' E]. eexists. rewrite E, <- app_assoc. reflexivity.
Qed.
Lemma renumerate_null0 t : null0 t -> null0 (renumerate t).
Proof.
  intros (s & l & E & I & H & A). unfold renumerate. rewrite E. cbn [renumber_loop]. destruct (basis_push _ (sy_id s) (negb (sy_anti s)) (negb (sy_herm s))) as [[t1 re] im].
  destruct (renumber_prefix l t1 ([] ++ [mk_symbol (sy_id s) (sy_seq s) (sy_conj s) (sy_herm s) (sy_anti s) re im])) as [l' Q]. eexists _, l'. split; [exact Q|]. auto.
Qed.
Lemma merge_bits_null0 t re im t' x : null0 t -> merge_bits t re im = Done t' x -> null0 t'.
Proof.
  intros H E. unfold merge_bits in E. cbv zeta in E.
  set (t1 := if Nat.ltb (length (t_syms t)) (length re) then fst (create_many t (length re - length (t_syms t)) true true) else t) in E.
  assert (H1 : null0 t1). { unfold t1. destruct (Nat.ltb _ _); [|exact H]. unfold create_many. cbn [fst]. now apply create_loop_null0. }
  destruct H1 as (s & l & E1 & I & Hs & As). destruct (flag_loop re im [] (t_syms t1) false) as [[l1 [ch|]] u] eqn:F; destruct u; try discriminate.
  injection E as <- _. apply renumerate_null0. rewrite E1 in F. cbn [flag_loop] in F. rewrite I in F. cbn [Nat.eqb app] in F.
  destruct (flag_loop_prefix re im l [mk_symbol 0 (sy_seq s) (sy_conj s) true true (sy_re s) (sy_im s)] false) as [l' P]. rewrite F in P. cbn [fst] in P. subst l1.
  eexists _, l'. split; [reflexivity|]. auto.
Qed.
Lemma run_op_null0 c t o t' : null0 t -> run_op c t o = Done t' tt -> null0 t'.
Proof.
  intros H E. destruct o as [q|l|n r i|re im|L|L]; cbn [run_op] in E.
  - destruct (merge_sequence c t q) as [t1 id| |] eqn:M; try discriminate. injection E as <-. eapply merge_symbol_null0; [exact H|exact M].
  - destruct (merge_symbols t l) as [t1 ids| |] eqn:M; try discriminate. injection E as <-. eapply merge_symbols_null0; eauto.
  - cbn in E. injection E as <-. now apply create_loop_null0.
  - destruct (merge_bits t re im) as [t1 x| |] eqn:M; try discriminate. injection E as <-. eapply merge_bits_null0; eauto.
  - unfold fill_to_word_length in E. destruct (Nat.ltb L (t_map_len t)); [cbn in E; injection E as <-; exact H|].
    destruct (merge_symbols t _) as [t1 ids| |] eqn:M; try discriminate. injection E as <-. eapply merge_symbols_null0; eauto.
  - unfold update_map in E. destruct (Nat.leb L (t_map_len t)); [cbn in E; injection E as <-; exact H|]. destruct (map_entries c t _); [|discriminate]. injection E as <-. exact H.
Qed.
Lemma clean_null0 c V t : reachable_clean c V t -> null0 t.
Proof.
  intros (l & _ & E). assert (S0 : null0 table_start) by (eexists _, _; split; [reflexivity|]; auto). revert E S0. generalize table_start. induction l as [|o l IH]; intros t0 E S0; cbn in E; [injection E as <-; exact S0|].
  destruct (run_op c t0 o) as [t1 []| |] eqn:R; try discriminate. apply (IH t1 E). now apply (run_op_null0 c t0 o).
Qed.
Lemma null_unlisted t : numbered t -> null0 t -> (forall k, nth_error (t_real t) k <> Some 0) /\ (forall k, nth_error (t_imag t) k <> Some 0).
Proof.
  intros NB (s & l & E & _ & H & A). split; intros k K.
  - destruct (real_in_table t NB k 0 K) as [_ Q]. unfold anti, sym_of in Q. rewrite E in Q. cbn in Q. congruence.
  - destruct (imag_in_table t NB k 0 K) as [_ Q]. unfold herm, sym_of in Q. rewrite E in Q. cbn in Q. congruence.
Qed.

(** ** Theorems *)
Section Thm.
  Variable R : rfield.
  Add Field Rf3 : (r_field R).
  Add Field Cf3 : (cx_field R).
  Notation mono := (mono R).
  Variables (c : sctx) (V : hseq -> Prop).
  Hypothesis LW : lawful c V.
  Variable t : table.
  Hypothesis RC : reachable_clean c V t.
  Let NB : numbered t := clean_numbered c V t LW RC.
  Let Z0 := null_unlisted t NB (clean_null0 c V t RC).

  Lemma comb_ws v (b : basis R) r q : combination t v b r q =
    cadd (wsum R (length (t_real t)) (real_elem t v) (fun k => nth k (b_real b) zero_matrix r q)) (wsum R (length (t_imag t)) (imag_elem t v) (fun k => nth k (b_imag b) zero_matrix r q)).
  Proof. reflexivity. Qed.
  Lemma basis_unique d entry (b b' : basis R) : starts t -> represents t d entry b -> represents t d entry b' ->
    forall k r q, r < d -> q < d -> nth k (b_real b) zero_matrix r q = nth k (b_real b') zero_matrix r q /\ nth k (b_imag b) zero_matrix r q = nth k (b_imag b') zero_matrix r q.
  Proof.
    intros ST B B' k r q Hr Hq.
    destruct (unique_at R t NB ST (fun k => nth k (b_real b) zero_matrix r q) (fun k => nth k (b_real b') zero_matrix r q) (fun k => nth k (b_imag b) zero_matrix r q) (fun k => nth k (b_imag b') zero_matrix r q)) as [E E'].
    - intros v A. rewrite <- !comb_ws. now rewrite (rp_value t d entry b B v A r q Hr Hq), (rp_value t d entry b' B' v A r q Hr Hq).
    - apply Z0.
    - apply Z0.
    - split.
      + destruct (le_lt_dec (length (t_real t)) k) as [L|L]; [|now apply E]. rewrite !nth_overflow; [reflexivity|rewrite (rp_real _ _ _ _ B'); lia|rewrite (rp_real _ _ _ _ B); lia].
      + destruct (le_lt_dec (length (t_imag t)) k) as [L|L]; [|now apply E']. rewrite !nth_overflow; [reflexivity|rewrite (rp_imag _ _ _ _ B'); lia|rewrite (rp_imag _ _ _ _ B); lia].
  Qed.
  Definition dagger (m : dmat R) : dmat R := fun r q => cconj (m q r).
  Lemma dagger_nth (l : list (dmat R)) k r q : nth k (map dagger l) zero_matrix r q = cconj (nth k l zero_matrix q r).
  Proof.
    destruct (le_lt_dec (length l) k) as [L|L].
    - rewrite !nth_overflow by (rewrite ?map_length; lia). apply cx_ext; cbn; ring.
    - rewrite (nth_indep _ zero_matrix (dagger zero_matrix)) by now rewrite map_length. rewrite map_nth. reflexivity.
  Qed.
  Lemma wsum_conj n a (f : nat -> cx R) : wsum R n a (fun k => cconj (f k)) = cconj (wsum R n a f).
  Proof. unfold wsum. induction (seq 0 n) as [|k l IH]; cbn [fold_right]; [apply cx_ext; cbn; ring|]. rewrite IH. apply cx_ext; cbn; ring. Qed.
  Lemma basis_hermitian d entry (b : basis R) : starts t -> represents t d entry b -> truly_hermitian t d entry ->
    forall k r q, r < d -> q < d -> nth k (b_real b) zero_matrix q r = cconj (nth k (b_real b) zero_matrix r q) /\ nth k (b_imag b) zero_matrix q r = cconj (nth k (b_imag b) zero_matrix r q).
  Proof.
    intros ST B H k r q Hr Hq. assert (B' : represents t d entry (mk_basis (map dagger (b_real b)) (map dagger (b_imag b)))).
    { constructor; cbn [b_real b_imag]; [rewrite map_length; apply B|rewrite map_length; apply B|]. intros v A r' q' Hr' Hq'. rewrite comb_ws. cbn [b_real b_imag].
      rewrite (wsum_ext R _ _ _ (fun k => cconj (nth k (b_real b) zero_matrix q' r'))) by (intros; apply dagger_nth).
      rewrite (wsum_ext R _ (imag_elem t v) _ (fun k => cconj (nth k (b_imag b) zero_matrix q' r'))) by (intros; apply dagger_nth).
      rewrite !wsum_conj. rewrite (H v A q' r' Hq' Hr'). rewrite <- (rp_value t d entry b B v A q' r' Hq' Hr'). rewrite comb_ws. apply cx_ext; cbn; ring. }
    destruct (basis_unique d entry b _ ST B B' k q r Hq Hr) as [E E']. cbn [b_real b_imag] in E, E'. rewrite dagger_nth in E, E'. auto.
  Qed.

  (** monomials *)
  Lemma canonical_mono_value v (x : mono) : assignment t v -> in_table t x -> term_value v (canonical_mono t x) = term_value v x.
  Proof.
    intros A L. unfold canonical_mono. cbv zeta.
    set (y := if m_cj x then if herm t (m_id x) then mk_mono (m_id x) false (m_f x) else if anti t (m_id x) then mk_mono (m_id x) false (copp (m_f x)) else x else x).
    assert (E : term_value v y = term_value v x).
    { unfold y, term_value. destruct (in_table_sym t (m_id x) L) as [s S]. rewrite (herm_sym t _ s S), (anti_sym t _ s S). destruct (m_cj x) eqn:J; [|now rewrite J].
      destruct (sy_herm s) eqn:H; cbn [m_id m_cj m_f].
      - f_equal. apply cx_ext; cbn; [reflexivity|]. rewrite (as_herm t v A _ s S H). ring.
      - destruct (sy_anti s) eqn:H'; cbn [m_id m_cj m_f]; [|now rewrite J]. pose proof (as_anti t v A _ s S H') as Z. apply cx_ext; cbn; rewrite Z; ring. }
    destruct (is_zero (m_f y)) eqn:Z; [|exact E]. apply is_zero_true in Z. rewrite <- E. unfold term_value. rewrite Z. cbn [m_id m_cj m_f]. ring.
  Qed.
  Lemma canonical_mono_in x : in_table t x -> @in_table R t (canonical_mono t x).
  Proof.
    intro L. unfold canonical_mono. cbv zeta. match goal with |- context [is_zero (m_f ?y)] => destruct (is_zero (m_f y)) end.
    - unfold in_table in *. cbn. destruct (t_syms t); cbn in *; lia.
    - destruct (m_cj x); [|exact L]. destruct (herm t (m_id x)); [exact L|]. destruct (anti t (m_id x)); exact L.
  Qed.
  Lemma all_known_iff (cells : list (list mono)) : all_known t cells = true <-> Forall (Forall (in_table t)) cells.
  Proof.
    unfold all_known. rewrite forallb_forall, Forall_forall. split; intros H p I; specialize (H p I).
    - rewrite forallb_forall in H. apply Forall_forall. intros x J. now apply Nat.ltb_lt, H.
    - rewrite Forall_forall in H. apply forallb_forall. intros x J. now apply Nat.ltb_lt, H.
  Qed.
  Lemma symbols_in_in (cells : list (list mono)) id : In id (symbols_in cells) <-> exists p x, In p cells /\ In x p /\ m_id x = id.
  Proof.
    unfold symbols_in. rewrite set_of_in, in_map_iff. split.
    - intros [x [E I]]. apply in_concat in I. destruct I as [p [Ip Ix]]. now exists p, x.
    - intros (p & x & Ip & Ix & E). exists x. split; [exact E|]. apply in_concat. now exists p.
  Qed.
  Lemma mono_cells d (cells : list mono) r q : length cells = d * d -> r < d -> q < d ->
    cell d (map (fun x => [canonical_mono t x]) cells) r q = [canonical_mono t (by_columns d cells (mk_mono 0 false c0) r q)].
  Proof.
    intros L Hr Hq. unfold cell, by_columns. assert (B : q * d + r < length cells) by (rewrite L; nia).
    rewrite (nth_indep _ [] [canonical_mono t (mk_mono 0 false c0)]) by now rewrite map_length.
    now rewrite (map_nth (fun x => [canonical_mono t x])).
  Qed.
  Lemma cell_in d (cells : list mono) r q : length cells = d * d -> Forall (in_table t) cells -> r < d -> q < d -> in_table t (by_columns d cells (mk_mono 0 false c0) r q).
  Proof. intros L F Hr Hq. unfold by_columns. rewrite Forall_forall in F. apply F, nth_In. rewrite L. nia. Qed.
  Lemma monomial_basis d herm_flag (cells : list mono) : length cells = d * d -> Forall (in_table t) cells ->
    (herm_flag = true -> truly_hermitian t d (mono_entry d cells)) ->
    exists m, mono_matrix t d herm_flag cells = Some m /\ forall is_dense, exists b, create_basis true is_dense false t m = BOk b /\ represents t d (mono_entry d cells) b.
  Proof.
    intros L F H. unfold mono_matrix. cbv zeta. set (cc := map (fun x => [canonical_mono t x]) cells).
    assert (TC : Forall (Forall (in_table t)) cc).
    { unfold cc. apply Forall_forall. intros p I. apply in_map_iff in I. destruct I as [x [<- I]]. constructor; [|constructor]. apply canonical_mono_in. rewrite Forall_forall in F. now apply F. }
    rewrite (proj2 (all_known_iff cc) TC). eexists. split; [reflexivity|]. intro is_dense.
    set (m := mk_smat d cc herm_flag _ _ _ _ _ _).
    assert (VAL : forall v, assignment t v -> forall r q, r < d -> q < d -> value v (cell d cc r q) = value v (mono_entry d cells r q)).
    { intros v A r q Hr Hq. unfold cc, mono_entry. rewrite mono_cells by assumption. rewrite !value_cons, canonical_mono_value; [reflexivity|exact A|now apply cell_in]. }
    destruct (represented R t NB m TC) with (monomial := true) (is_dense := is_dense) as [b [E B]].
    - cbn [sm_herm sm_dim sm_cells m]. intros S v A r q Hr Hq. rewrite !VAL by assumption. now apply H.
    - cbn [sm_cbasis sm_dim sm_cells m]. intros S v A r q Hr Hq. apply Bool.negb_false_iff, Nat.eqb_eq, set_of_nil in S.
      unfold cc. rewrite mono_cells by assumption. set (x := canonical_mono t _).
      assert (Ix : in_table t x) by (apply canonical_mono_in; now apply cell_in).
      assert (N : im_index t (m_id x) = None).
      { destruct (im_index t (m_id x)) as [k|] eqn:K; [|reflexivity]. exfalso. assert (I : In k (flat_map (fun id => keep (im_index t id)) (symbols_in cc))); [|rewrite S in I; destruct I].
        apply in_flat_map. exists (m_id x). split; [|rewrite K; now left]. apply symbols_in_in. exists [x], x. split; [|split; [now left|reflexivity]].
        unfold cc. apply in_map_iff. eexists. split; [reflexivity|]. unfold by_columns. apply nth_In. rewrite L. nia. }
      unfold value. cbn [fold_right]. f_equal. unfold term_value. pose proof (no_im R t NB v _ A Ix N) as Z. f_equal.
      assert (Q : creal (cre (v (m_id x))) = v (m_id x)) by (apply cx_ext; cbn; [reflexivity|now rewrite Z]). now rewrite Q.
    - intros _. cbn [sm_cells m]. apply Forall_forall. intros p I. unfold cc in I. apply in_map_iff in I. destruct I as [x [<- _]]. cbn. lia.
    - exists b. split; [exact E|]. destruct B as [B1 B2 B3]. constructor; [exact B1|exact B2|]. intros v A r q Hr Hq. rewrite <- VAL by assumption. now apply B3.
  Qed.
End Thm.
