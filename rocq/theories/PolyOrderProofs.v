(** Orders on polynomials, sorting with an index, degrees by hash. *)
From Coq Require Import List NArith ZArith Arith Bool Sorted Permutation Lia.
From Verif Require Import CoreModel CoreSpec FieldModel FieldProofs SymModel SymSpec SymProofs PolyModel PolySpec PolyProofs PolyOpsProofs PolyTableProofs.
Import ListNotations.

Section Scan.
  Variable R : rfield.
  Notation mono := (mono R).
  Variable cmp : mono -> mono -> Z.
  Variable P : mono -> Prop.
  Hypothesis RG : forall x y, cmp x y = (-1)%Z \/ cmp x y = 0%Z \/ cmp x y = 1%Z.
  Hypothesis AN : forall x y, P x -> P y -> cmp y x = (- cmp x y)%Z.
  Hypothesis TR : forall x y z, P x -> P y -> P z -> cmp x y = 1%Z -> cmp y z = 1%Z -> cmp x z = 1%Z.
  Hypothesis EQ : forall x y z, P x -> P y -> P z -> cmp x y = 0%Z -> cmp x z = cmp y z.
  Lemma cmp_refl x : P x -> cmp x x = 0%Z. Proof. intro H. pose proof (AN x x H H). lia. Qed.
  Lemma EQr x y z : P x -> P y -> P z -> cmp x y = 0%Z -> cmp z x = cmp z y.
  Proof. intros. rewrite (AN x z), (AN y z) by auto. f_equal. now apply EQ. Qed.
  Lemma scan_irr p : Forall P p -> scan_less cmp p p = false.
  Proof. induction 1 as [|x p H _ IH]; cbn; [reflexivity|]. rewrite cmp_refl by exact H. exact IH. Qed.
  Lemma scan_trans p : forall q r, Forall P p -> Forall P q -> Forall P r -> scan_less cmp p q = true -> scan_less cmp q r = true -> scan_less cmp p r = true.
  Proof.
    induction p as [|x p IH]; intros [|y q] [|z r] Fp Fq Fr; cbn; try discriminate; auto. inversion Fp. inversion Fq. inversion Fr. subst.
    destruct (RG x y) as [A|[A|A]], (RG y z) as [B|[B|B]]; rewrite A, B; cbn; try discriminate.
    - rewrite (EQ x y z), B by auto. cbn. now apply IH.
    - rewrite (EQ x y z), B; auto.
    - rewrite <- (EQr y z x), A; auto.
    - rewrite (TR x y z); auto.
  Qed.
  Lemma scan_cotrans p : forall q r, Forall P p -> Forall P q -> Forall P r -> scan_less cmp p r = true -> scan_less cmp p q = true \/ scan_less cmp q r = true.
  Proof.
    induction p as [|x p IH]; intros [|y q] [|z r] Fp Fq Fr; cbn; try discriminate; auto. inversion Fp. inversion Fq. inversion Fr. subst.
    destruct (RG x y) as [A|[A|A]], (RG y z) as [B|[B|B]]; rewrite ?A, ?B; cbn; auto.
    - pose proof (TR z y x ltac:(auto) ltac:(auto) ltac:(auto) ltac:(rewrite AN by auto; lia) ltac:(rewrite AN by auto; lia)) as C. rewrite (AN z x), C by auto. discriminate.
    - rewrite <- (EQr y z x), A; auto.
    - rewrite (EQ x y z), B; auto.
    - rewrite (EQ x y z), B by auto. cbn. now apply IH.
  Qed.
  Lemma scan_tie p : forall q, Forall P p -> Forall P q -> scan_less cmp p q = false -> scan_less cmp q p = false -> Forall2 (fun x y => cmp x y = 0%Z) p q.
  Proof.
    induction p as [|x p IH]; intros [|y q] Fp Fq; cbn; try discriminate; [constructor|]. inversion Fp. inversion Fq. subst. rewrite (AN x y) by auto.
    destruct (RG x y) as [A|[A|A]]; rewrite A; cbn; try discriminate. intros. constructor; auto.
  Qed.
  Lemma poly_sw : strict_weak (Forall P) (poly_less cmp).
  Proof.
    unfold poly_less. constructor.
    - intros. apply scan_irr. now apply Forall_rev.
    - intros x y z. intros. apply (scan_trans _ (rev y)); auto using Forall_rev.
    - intros. apply scan_cotrans; auto using Forall_rev.
  Qed.
  Lemma poly_tie p q : Forall P p -> Forall P q -> poly_less cmp p q = false -> poly_less cmp q p = false -> Forall2 (fun x y => cmp x y = 0%Z) p q.
  Proof.
    unfold poly_less. intros Fp Fq A B. pose proof (scan_tie (rev p) (rev q) (Forall_rev Fp) (Forall_rev Fq) A B) as F.
    rewrite <- (rev_involutive p), <- (rev_involutive q). revert F. generalize (rev p), (rev q). clear. intros l m F. induction F; cbn; [constructor|].
    apply Forall2_app; [assumption|constructor; [assumption|constructor]].
  Qed.
End Scan.
Section Orders.
  Variable R : rfield.
  Notation mono := (mono R).
  Variable t : table.
  Variable lt : mono -> mono -> bool.
  Hypothesis HO : term_order t lt.
  Notation ok := (@in_table R t).
  Lemma terms_range (x y : mono) : cmp_terms lt x y = (-1)%Z \/ cmp_terms lt x y = 0%Z \/ cmp_terms lt x y = 1%Z.
  Proof. unfold cmp_terms. destruct (lt x y); auto. destruct (lt y x); auto. Qed.
  Lemma terms_anti x y : ok x -> ok y -> cmp_terms lt y x = (- cmp_terms lt x y)%Z.
  Proof. intros A B. unfold cmp_terms. destruct (lt x y) eqn:E; [now rewrite (lt_asym R t lt HO x y A B E)|]. destruct (lt y x); reflexivity. Qed.
  Lemma terms_less x y : cmp_terms lt x y = 1%Z <-> lt x y = true.
  Proof. unfold cmp_terms. destruct (lt x y); [tauto|]. destruct (lt y x); split; discriminate. Qed.
  Lemma terms_same x y : ok x -> ok y -> (cmp_terms lt x y = 0%Z <-> same_term x y = true).
  Proof.
    intros A B. unfold cmp_terms. destruct (lt x y) eqn:E; [|destruct (lt y x) eqn:F].
    - split; [discriminate|]. intro S. rewrite (lt_not_same R t lt HO x y A B E) in S. discriminate.
    - split; [discriminate|]. intro S. pose proof (lt_not_same R t lt HO y x B A F) as Q. apply same_term_spec in S as [S1 S2].
      assert (same_term y x = true) by (apply same_term_spec; auto). congruence.
    - split; [|reflexivity]. intros _. now apply (lt_total R t lt HO).
  Qed.
  Lemma terms_trans x y z : ok x -> ok y -> ok z -> cmp_terms lt x y = 1%Z -> cmp_terms lt y z = 1%Z -> cmp_terms lt x z = 1%Z.
  Proof. intros A B C. rewrite !terms_less. now apply (lt_trans R t lt HO). Qed.
  Lemma terms_eq x y z : ok x -> ok y -> ok z -> cmp_terms lt x y = 0%Z -> cmp_terms lt x z = cmp_terms lt y z.
  Proof.
    intros A B C E. apply (terms_same x y A B) in E. unfold cmp_terms.
    rewrite (lt_same R t lt HO x y z z A C E (same_refl R z)), (lt_same R t lt HO z z x y C A (same_refl R z) E). reflexivity.
  Qed.
  Lemma poly_order : strict_weak (Forall ok) (poly_less (cmp_terms lt)).
  Proof. apply poly_sw; [apply terms_range|apply terms_anti|apply terms_trans|apply terms_eq]. Qed.
  Lemma poly_order_tie p q : Forall ok p -> Forall ok q -> poly_less (cmp_terms lt) p q = false -> poly_less (cmp_terms lt) q p = false -> term_ids p = term_ids q.
  Proof.
    intros Fp Fq A B. pose proof (poly_tie R (cmp_terms lt) ok terms_range terms_anti p q Fp Fq A B) as F. clear A B. induction F as [|x y p q E F IH]; [reflexivity|].
    inversion Fp. inversion Fq. subst. apply terms_same in E; auto. apply same_term_spec in E as [E1 E2]. cbn. rewrite E1, E2. f_equal. now apply IH.
  Qed.
  Variable rcmp : R -> R -> Z.
  Hypothesis EC : exact_compare rcmp.
  Lemma coef_cases x y : ok x -> ok y -> cmp_coefs rcmp lt x y =
    if Z.eqb (cmp_terms lt x y) 0 then (if Z.eqb (rcmp (cre (m_f y)) (cre (m_f x))) 0 then rcmp (cim (m_f y)) (cim (m_f x)) else rcmp (cre (m_f y)) (cre (m_f x))) else cmp_terms lt x y.
  Proof. intros A B. unfold cmp_coefs, cmp_terms. destruct (lt x y); [reflexivity|]. destruct (lt y x); reflexivity. Qed.
  Lemma coefs_range x y : cmp_coefs rcmp lt x y = (-1)%Z \/ cmp_coefs rcmp lt x y = 0%Z \/ cmp_coefs rcmp lt x y = 1%Z.
  Proof.
    unfold cmp_coefs. destruct (lt x y); auto. destruct (lt y x); auto. destruct (Z.eqb (rcmp (cre (m_f y)) (cre (m_f x))) 0); apply (ec_range rcmp EC).
  Qed.
  Lemma rcmp_refl a : rcmp a a = 0%Z. Proof. now apply (ec_eq rcmp EC). Qed.
  Lemma coefs_anti x y : ok x -> ok y -> cmp_coefs rcmp lt y x = (- cmp_coefs rcmp lt x y)%Z.
  Proof.
    intros A B. rewrite (coef_cases y x B A), (coef_cases x y A B), (terms_anti x y A B).
    rewrite (ec_anti rcmp EC (cre (m_f y)) (cre (m_f x))), (ec_anti rcmp EC (cim (m_f y)) (cim (m_f x))).
    destruct (Z.eqb_spec (cmp_terms lt x y) 0) as [E|E]; [rewrite E; cbn [Z.opp Z.eqb]|destruct (Z.eqb_spec (- cmp_terms lt x y) 0); [lia|reflexivity]].
    destruct (Z.eqb_spec (rcmp (cre (m_f y)) (cre (m_f x))) 0) as [F|F]; [rewrite F; reflexivity|]. destruct (Z.eqb_spec (- rcmp (cre (m_f y)) (cre (m_f x))) 0); [lia|reflexivity].
  Qed.
  Lemma coefs_zero x y : ok x -> ok y -> (cmp_coefs rcmp lt x y = 0%Z <-> x = y).
  Proof.
    intros A B. split.
    - rewrite (coef_cases x y A B). destruct (Z.eqb_spec (cmp_terms lt x y) 0) as [E|E]; [|congruence]. apply (terms_same x y A B), same_term_spec in E as [E1 E2].
      destruct (Z.eqb_spec (rcmp (cre (m_f y)) (cre (m_f x))) 0) as [F|F]; [|congruence]. intro G. apply (ec_eq rcmp EC) in F, G. apply mono_ext; auto. now apply cx_ext.
    - intros <-. rewrite (coef_cases x x A B). rewrite (proj2 (terms_same x x A B) (same_refl R x)), !rcmp_refl. reflexivity.
  Qed.
  Lemma coefs_less x y : ok x -> ok y -> (cmp_coefs rcmp lt x y = 1%Z <-> lt x y = true \/
    (same_term x y = true /\ (rcmp (cre (m_f y)) (cre (m_f x)) = 1%Z \/ (cre (m_f y) = cre (m_f x) /\ rcmp (cim (m_f y)) (cim (m_f x)) = 1%Z)))).
  Proof.
    intros A B. rewrite (coef_cases x y A B). rewrite <- (terms_less x y), <- (terms_same x y A B), <- (ec_eq rcmp EC (cre (m_f y)) (cre (m_f x))).
    destruct (Z.eqb_spec (cmp_terms lt x y) 0) as [E|E]; [rewrite E|split; [auto|intros [H|[H _]]; [exact H|congruence]]].
    destruct (Z.eqb_spec (rcmp (cre (m_f y)) (cre (m_f x))) 0) as [F|F]; [rewrite F|]; split.
    - intro H. right. auto.
    - intros [H|[_ [H|[_ H]]]]; [discriminate|discriminate|exact H].
    - intro H. right. auto.
    - intros [H|[_ [H|[H _]]]]; [discriminate|exact H|congruence].
  Qed.
  Lemma coefs_trans x y z : ok x -> ok y -> ok z -> cmp_coefs rcmp lt x y = 1%Z -> cmp_coefs rcmp lt y z = 1%Z -> cmp_coefs rcmp lt x z = 1%Z.
  Proof.
    intros A B C. rewrite (coefs_less x y), (coefs_less y z), (coefs_less x z) by auto. intros [H|[S H]] [K|[T K]].
    - left. now apply (lt_trans R t lt HO x y z).
    - left. rewrite <- (lt_same R t lt HO x x y z A B (same_refl R x) T). exact H.
    - left. rewrite (lt_same R t lt HO x y z z A C S (same_refl R z)). exact K.
    - right. apply same_term_spec in S as [S1 S2], T as [T1 T2]. split; [apply same_term_spec; split; congruence|].
      destruct H as [H|[H1 H2]], K as [K|[K1 K2]].
      + left. exact (ec_trans rcmp EC _ _ _ K H).
      + left. now rewrite K1.
      + left. now rewrite <- H1.
      + right. split; [congruence|]. exact (ec_trans rcmp EC _ _ _ K2 H2).
  Qed.
  Lemma poly_coef_order : strict_weak (Forall ok) (poly_less (cmp_coefs rcmp lt)).
  Proof.
    apply poly_sw; [apply coefs_range|apply coefs_anti|apply coefs_trans|]. intros x y z A B C E. apply coefs_zero in E; auto. now subst.
  Qed.
  Lemma poly_coef_tie p q : Forall ok p -> Forall ok q -> poly_less (cmp_coefs rcmp lt) p q = false -> poly_less (cmp_coefs rcmp lt) q p = false -> p = q.
  Proof.
    intros Fp Fq A B. pose proof (poly_tie R (cmp_coefs rcmp lt) ok coefs_range coefs_anti p q Fp Fq A B) as F. clear A B. induction F as [|x y p q E F IH]; [reflexivity|].
    inversion Fp. inversion Fq. subst. apply coefs_zero in E; auto. subst. f_equal. now apply IH.
  Qed.
End Orders.

(** * presort_data *)
Section Presort.
  Variable R : rfield.
  Notation mono := (mono R).
  Variable lt : mono -> mono -> bool.
  Variable srt : (nat -> nat -> bool) -> list nat -> list nat.
  Variable l : list mono.
  Hypothesis HS : index_sort (length l) srt.
  Hypothesis SW : strict_weak (fun x => In x l) lt.
  Let d : mono := mk_mono 0 false c0.
  Let less (i j : nat) : bool := lt (nth i l d) (nth j l d).
  Lemma sortedb_seq : forall (o : list nat) n, Permutation (seq n (length o)) o -> sortedb o = true -> o = seq n (length o).
  Proof.
    intros o n Pm S. assert (SS : StronglySorted le o).
    { clear - S. apply Sorted_StronglySorted; [intros a b c; lia|]. unfold sortedb in S. induction o as [|x o IH]; [constructor|]. destruct o as [|y o]; [repeat constructor|].
      cbn [tl combine forallb fst snd] in *. apply andb_true_iff in S as [S1 S2]. apply Nat.leb_le in S1. constructor; [apply IH; exact S2|constructor; exact S1]. }
    assert (G : forall o m, StronglySorted le o -> StronglySorted le m -> Permutation o m -> o = m).
    { clear. induction o as [|x o IH]; intros m A B Pm; [apply Permutation_nil in Pm; now subst|]. destruct m as [|y m]; [apply Permutation_sym, Permutation_nil in Pm; discriminate|].
      inversion A as [|? ? A1 A2]. inversion B as [|? ? B1 B2]. subst. rewrite Forall_forall in A2, B2.
      assert (x = y).
      { assert (H1 : In x (y :: m)) by (apply (Permutation_in _ Pm); now left). assert (H2 : In y (x :: o)) by (apply (Permutation_in _ (Permutation_sym Pm)); now left).
        destruct H1 as [H1|H1]; [auto|]. destruct H2 as [H2|H2]; [auto|]. specialize (A2 y H2). specialize (B2 x H1). lia. }
      subst y. f_equal. apply IH; auto. now apply Permutation_cons_inv in Pm. }
    symmetry. apply G; auto. clear. generalize (length o). intro k. revert n. induction k as [|k IH]; intro n; cbn; [constructor|]. constructor; [apply IH|].
    apply Forall_forall. intros x Hx. apply in_seq in Hx. lia.
  Qed.
  Lemma map_nth_seq : map (fun i => nth i l d) (seq 0 (length l)) = l.
  Proof.
    assert (G : forall k n, k + n = length l -> map (fun i => nth i l d) (seq k n) = skipn k l).
    { intros k n. revert k. induction n as [|n IH]; intros k H; cbn; [rewrite skipn_all2 by lia; reflexivity|]. rewrite IH by lia.
      destruct (nth_error l k) as [x|] eqn:E; [|apply nth_error_None in E; lia]. rewrite (nth_error_nth _ _ _ E). clear - E. revert l E. induction k as [|k IHk]; intros [|y l] E; try discriminate; [injection E as ->; reflexivity|].
      cbn. now apply IHk. }
    now apply (G 0 (length l)).
  Qed.
  Lemma presort_spec : let (data, order) := presort_data srt lt l in
    Permutation (seq 0 (length l)) order /\ data = map (fun i => nth i l d) order /\ Permutation l data /\ StronglySorted (fun x y => lt y x = false) data /\
    (forall a b i j, a < b -> nth_error order a = Some i -> nth_error order b = Some j -> less i j = false -> i < j).
  Proof.
    unfold presort_data. fold d. fold less. destruct (HS less) as [Pm S]. set (order := srt less (seq 0 (length l))) in *.
    assert (D : (if sortedb order then l else map (fun i => nth i l d) order) = map (fun i => nth i l d) order).
    { destruct (sortedb order) eqn:Q; [|reflexivity]. assert (Len : length order = length l) by (rewrite <- (Permutation_length Pm); apply seq_length).
      rewrite (sortedb_seq order 0); [rewrite Len; symmetry; apply map_nth_seq|rewrite Len; exact Pm|exact Q]. }
    rewrite D. assert (SS : StronglySorted (fun i j => less j i = false /\ (less i j = false -> i < j)) order).
    { apply S. unfold less. constructor; intros; [apply (sw_irr _ lt SW)|apply (sw_trans _ lt SW _ (nth y l d))|apply (sw_cotrans _ lt SW)]; auto using nth_In. }
    split; [exact Pm|]. split; [reflexivity|]. split; [rewrite <- map_nth_seq at 1; now apply Permutation_map|]. split.
    - clear - SS. induction SS as [|i o _ IH A]; cbn; [constructor|]. constructor; [exact IH|]. apply Forall_forall. intros x Hx. apply in_map_iff in Hx as [j [<- Hj]].
      rewrite Forall_forall in A. now destruct (A j Hj).
    - clear - SS. induction SS as [|i o _ IH A]; intros a b i' j H Ha Hb L; [destruct a; discriminate|]. destruct b as [|b]; [lia|]. cbn in Hb. destruct a as [|a].
      + cbn in Ha. injection Ha as <-. rewrite Forall_forall in A. apply nth_error_In in Hb. now apply (A j Hb).
      + cbn in Ha. apply (IH a b); auto. lia.
  Qed.
End Presort.

(** * Degree by hash *)
Section Degree.
  Variable R : rfield.
  Variable t : table.
  Lemma last_max (f : mono R -> nat) (l : list (mono R)) x : (forall y, In y l -> f y <= f x) -> list_max (map f (l ++ [x])) = f x.
  Proof.
    intro H. rewrite map_app, list_max_app. cbn. assert (list_max (map f l) <= f x); [|lia]. apply list_max_le, Forall_forall. intros n Hn. apply in_map_iff in Hn as [y [<- Hy]]. auto.
  Qed.
  Lemma by_hash_degree (p : list (mono R)) : graded t -> canonical t (hash_less t) p -> symbol_word t 1 = Some (hseq_const false) -> (forall x, In x p -> symbol_word t (m_id x) <> None) ->
    maximum_degree_by_hash t p = Some (maximum_degree t p).
  Proof.
    intros G C W1 W. rewrite max_degree. unfold maximum_degree_by_hash. destruct p as [|x l _] using rev_ind; [reflexivity|]. rewrite rev_app_distr. cbn [rev app].
    assert (Z : m_id x <> 0) by (apply (cp_terms t _ _ C x); apply in_app_iff; right; now left).
    assert (LT : forall y, In y l -> hash_less t y x = true).
    { intros y Hy. pose proof (cp_sorted t _ _ C) as S. clear - S Hy. induction l as [|z l IH]; [easy|]. inversion S as [|? ? S1 S2]. subst. destruct Hy as [<-|Hy]; [|auto].
      rewrite Forall_forall in S2. apply S2. apply in_app_iff. right. now left. }
    assert (DG : forall y, In y (l ++ [x]) -> exists q, symbol_word t (m_id y) = Some q /\ degree_of t y = length (hs_ops q)).
    { intros y Hy. pose proof (W y Hy) as N. destruct (symbol_word t (m_id y)) as [q|] eqn:S; [|easy]. exists q. split; [reflexivity|]. unfold degree_of. rewrite sym_of_word, S.
      destruct (Nat.ltb_spec 1 (m_id y)) as [B|B]; [reflexivity|]. assert (m_id y <> 0) by (apply (cp_terms t _ _ C y Hy)). replace (m_id y) with 1 in S by lia. rewrite W1 in S. injection S as <-. reflexivity. }
    destruct (DG x ltac:(apply in_app_iff; right; now left)) as (q & S & Dq).
    rewrite last_max.
    - rewrite sym_of_word, S. destruct (Nat.leb_spec (m_id x) 1) as [B|B]; [|now rewrite Dq]. unfold degree_of. destruct (Nat.ltb_spec 1 (m_id x)); [lia|reflexivity].
    - intros y Hy. destruct (DG y ltac:(apply in_app_iff; now left)) as (q' & S' & Dq'). rewrite Dq, Dq'. apply (G (m_id y) (m_id x)); auto.
      specialize (LT y Hy). unfold hash_less in LT. apply pair_less_spec in LT. unfold hash_key in LT. rewrite !sym_of_word, S, S' in LT. cbn [fst snd] in LT. lia.
  Qed.
End Degree.
