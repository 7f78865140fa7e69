(** Products of polynomials and the expansion of rulebooks. *)
From Coq Require Import List ZArith Arith Bool Sorted Permutation Lia.
From Verif Require Import CoreModel FieldModel FieldProofs AlgModel InfModel InfSpec.
From Verif Require Import SymModel SymSpec PolyModel PolySpec PolyFinalProofs RuleModel RuleSpec RuleThmProofs FTabModel FTabSpec FTabProductProofs FTabValueProofs.
Import ListNotations.

Section Poly.
  Variables (outcomes : list nat) (srcs : list (list nat)) (nt : network) (L : nat).
  Hypothesis MK : make_network outcomes srcs = Some nt.
  Variable R : rfield.
  Add Ring Cr : (cx_ring R).
  Notation mono := (mono R).
  Variables (F : factory R) (t : ftab).
  Hypothesis FO : factory_ok F.
  Hypothesis S1 : sound_table srcs nt L t.
  Hypothesis SS : same_symbols F t.
  Notation T := (fa_table F).
  Notation canonical := (canonical T (fa_lt F)).
  Implicit Types (p q : list mono) (v : nat -> cx R).

  Lemma value_cons v x p : value v (x :: p) = cadd (term_value v x) (value v p).
  Proof. reflexivity. Qed.
  Lemma value_nil v : value v [] = c0.
  Proof. reflexivity. Qed.
  Lemma value_app v p q : value v (p ++ q) = cadd (value v p) (value v q).
  Proof. induction p as [|x p IH]; cbn [app]; [rewrite value_nil; ring|]. rewrite !value_cons, IH. ring. Qed.
  Lemma term_plain p x : canonical p -> In x p -> m_id x < length (ft_syms t) /\ m_cj x = false /\ m_id x <> 0.
  Proof.
    intros C I. destruct (cp_terms _ _ _ C x I) as [A [_ [N B]]]. unfold in_table in A. destruct SS as [E H]. split; [lia|]. split; [|exact N]. apply B. left. now apply H.
  Qed.
  Lemma pair_spec a b : a < length (ft_syms t) -> b < length (ft_syms t) ->
    (exists id, multiply_pair t a b = FOk id /\ id < length (ft_syms t) /\ forall K (v : nat -> cx K), multiplicative t v -> v id = cmul (v a) (v b)) \/
    (multiply_pair t a b = FThrow /\ no_product t a b).
  Proof.
    intros Ha Hb. rewrite (pair_list srcs nt L t a b S1 Ha Hb).
    destruct (list_spec outcomes srcs nt L MK t [a; b] S1) as [[id [A [B D]]]|[A [B D]]]; [discriminate|intros k [<-|[<-|[]]]; assumption| |].
    - left. exists id. split; [exact A|]. split; [exact B|]. intros K v Mv. rewrite (D K v Mv), cproduct_cons, cproduct_one. reflexivity.
    - right. split; [exact A|]. split; [intros ->; apply B; now left|]. split; [intros ->; apply B; right; now left|exact D].
  Qed.
  Lemma row_spec x q : m_id x < length (ft_syms t) -> m_cj x = false -> (forall y, In y q -> m_id y < length (ft_syms t) /\ m_cj y = false) ->
    (exists l, multiply_row t x q = FOk l /\ Forall (in_table T) l /\ forall v, multiplicative t v -> value v l = cmul (term_value v x) (value v q)) \/
    (multiply_row t x q = FThrow /\ exists y, In y q /\ no_product t (m_id x) (m_id y)).
  Proof.
    intros Hx Cx. induction q as [|y q IH]; intros H.
    - left. exists []. split; [reflexivity|]. split; [constructor|]. intros v _. rewrite !value_nil. ring.
    - destruct (H y (or_introl eq_refl)) as [Hy Cy]. cbn [multiply_row]. rewrite Cx, Cy. cbn [orb].
      destruct (pair_spec (m_id x) (m_id y) Hx Hy) as [[id [A [B D]]]|[A D]]; rewrite A; cbn [fbind]; [|right; split; [reflexivity|exists y; split; [now left|exact D]]].
      destruct IH as [[l [E [G K]]]|[E [z [I K]]]]; [intros z I; apply H; now right| |]; rewrite E; cbn [fbind].
      + left. eexists. split; [reflexivity|]. split; [constructor; [unfold in_table; cbn; destruct SS; lia|exact G]|]. intros v Mv. rewrite !value_cons, (K v Mv).
        unfold term_value. cbn [m_f m_cj m_id]. rewrite Cx, Cy, (D R v Mv). ring.
      + right. split; [reflexivity|]. exists z. split; [now right|exact K].
  Qed.
  Lemma rows_spec p q : (forall x, In x p -> m_id x < length (ft_syms t) /\ m_cj x = false) -> (forall y, In y q -> m_id y < length (ft_syms t) /\ m_cj y = false) ->
    (exists l, multiply_rows t p q = FOk l /\ Forall (in_table T) l /\ forall v, multiplicative t v -> value v l = cmul (value v p) (value v q)) \/
    (multiply_rows t p q = FThrow /\ exists x y, In x p /\ In y q /\ no_product t (m_id x) (m_id y)).
  Proof.
    intros Hp Hq. induction p as [|x p IH].
    - left. exists []. split; [reflexivity|]. split; [constructor|]. intros v _. rewrite !value_nil. ring.
    - destruct (Hp x (or_introl eq_refl)) as [Hx Cx]. cbn [multiply_rows].
      destruct (row_spec x q Hx Cx Hq) as [[l [A [B D]]]|[A [y [I D]]]]; rewrite A; cbn [fbind]; [|right; split; [reflexivity|exists x, y; split; [now left|auto]]].
      destruct IH as [[l' [E [G K]]]|[E [z [y [I [J K]]]]]]; [intros z I; apply Hp; now right| |]; rewrite E; cbn [fbind].
      + left. eexists. split; [reflexivity|]. split; [now apply Forall_app|]. intros v Mv. rewrite value_app, value_cons, (D v Mv), (K v Mv). ring.
      + right. split; [reflexivity|]. exists z, y. split; [now right|auto].
  Qed.
  Lemma poly_spec p q : canonical p -> canonical q ->
    (exists r, multiply_poly F t p q = FOk r /\ canonical r /\ forall v, assignment T v -> multiplicative t v -> value v r = cmul (value v p) (value v q)) \/
    (multiply_poly F t p q = FThrow /\ exists x y, In x p /\ In y q /\ no_product t (m_id x) (m_id y)).
  Proof.
    intros Cp Cq.
    assert (G : (exists r, fbind (multiply_rows t p q) (fun l => FOk (make_poly T (fa_sort F) l)) = FOk r /\ canonical r /\ forall v, assignment T v -> multiplicative t v -> value v r = cmul (value v p) (value v q)) \/
      (fbind (multiply_rows t p q) (fun l => FOk (make_poly T (fa_sort F) l)) = FThrow /\ exists x y, In x p /\ In y q /\ no_product t (m_id x) (m_id y))).
    { destruct (rows_spec p q) as [[l [A [B D]]]|[A D]].
      - intros x I. now destruct (term_plain p x Cp I) as [X [Y _]].
      - intros x I. now destruct (term_plain q x Cq I) as [X [Y _]].
      - left. rewrite A. cbn [fbind]. eexists. split; [reflexivity|].
        destruct (construct_spec R T (fa_lt F) (fa_sort F) l (fo_order F FO) (fo_sort F FO) B) as [E K]. split; [exact E|]. intros v Av Mv. rewrite (K v Av). now apply D.
      - right. rewrite A. split; [reflexivity|exact D]. }
    unfold multiply_poly. destruct q as [|y [|z q]]; [| |exact G].
    - left. exists []. split; [reflexivity|]. split; [exact Cq|]. intros v _ _. rewrite !value_nil. ring.
    - destruct (Nat.eqb_spec (m_id y) 1) as [E|E]; [|exact G]. left. eexists. split; [reflexivity|].
      destruct (scale_spec R T (fa_lt F) (m_f y) p (fo_order F FO) Cp) as [A B]. split; [exact A|]. intros v Av Mv. rewrite B, value_cons, value_nil. unfold term_value. rewrite E, (as_one _ _ Av).
      destruct (m_cj y); rewrite ?cconj_1; ring.
  Qed.

  (** * Expansion *)
  Variable rules : list (rule R).
  Hypothesis TR : tidy_rules F rules.
  Lemma find_rule_in k r : find_rule rules k = Some r -> In r rules /\ ru_lhs r = k.
  Proof. intros H. apply find_some in H. destruct H as [A B]. apply Nat.eqb_eq in B. auto. Qed.
  Lemma factor_poly_spec k : k < length (ft_syms t) -> canonical (factor_poly rules k) /\ forall v, assignment T v -> value v (factor_poly rules k) = rule_value v rules k.
  Proof.
    intros H. unfold factor_poly, rule_value. destruct (find_rule rules k) as [r|] eqn:E.
    - apply find_rule_in in E. split; [now apply (tr_canonical _ _ TR)|reflexivity].
    - destruct (monomial_spec R T (fa_lt F) (mk_mono k false c1)) as [A B]; [unfold in_table; cbn; destruct SS; lia|reflexivity|]. split; [exact A|].
      intros v Av. rewrite B by apply Av. unfold term_value. cbn. ring.
  Qed.
  Lemma rest_spec ks : (forall k, In k ks -> k < length (ft_syms t)) -> forall p, canonical p ->
    (exists r, multiply_rest F t rules p ks = FOk r /\ canonical r /\ forall v, assignment T v -> multiplicative t v -> value v r = cmul (value v p) (cproduct (rule_value v rules) ks)) \/
    (multiply_rest F t rules p ks = FThrow /\ exists a b, no_product t a b).
  Proof.
    induction ks as [|k ks IH]; intros H p Cp.
    - left. exists p. split; [destruct p; reflexivity|]. split; [exact Cp|]. intros v _ _. rewrite cproduct_nil. ring.
    - destruct (factor_poly_spec k (H k (or_introl eq_refl))) as [A B].
      assert (Hk : forall k, In k ks -> k < length (ft_syms t)) by (intros j I; apply H; now right).
      destruct p as [|x p0] eqn:Ep.
      + left. exists []. split; [reflexivity|]. split; [exact Cp|]. intros v _ _. rewrite value_nil. ring.
      + cbn [multiply_rest]. rewrite <- Ep in *. clear Ep. destruct (poly_spec p _ Cp A) as [[r [D [E G]]]|[D [a [b [_ [_ G]]]]]]; rewrite D; cbn [fbind].
        * destruct (IH Hk r E) as [[r' [X [Y Z]]]|[X Y]]; [left|right; auto]. exists r'. split; [exact X|]. split; [exact Y|].
          intros v Av Mv. rewrite (Z v Av Mv), (G v Av Mv), (B v Av), cproduct_cons. ring.
        * right. split; [reflexivity|]. eauto.
  Qed.
  Lemma entry_below e k : In e (ft_entries t) -> In k (fe_syms e) -> k < length (ft_syms t).
  Proof.
    intros I J. destruct (entry_list outcomes srcs nt L MK t e S1 I) as [_ [_ H]]. destruct (H k J) as [q [A _]]. apply nth_error_Some. unfold symbol_seq in A. congruence.
  Qed.
  (** the new rule of a symbol *)
  Definition rule_for (e : fentry) (p' : list mono) : Prop :=
    canonical p' /\ exists p, (forall v, assignment T v -> value v p' = csub (value v p) (v (fe_id e))) /\
      forall v, assignment T v -> multiplicative t v -> value v p = cproduct (rule_value v rules) (fe_syms e).
  Lemma symbol_spec e : In e (ft_entries t) ->
    (expand_symbol F t rules e = FOk [] /\ ~ affected rules e) \/
    (exists p', expand_symbol F t rules e = FOk [p'] /\ affected rules e /\ rule_for e p') \/
    (expand_symbol F t rules e = FThrow /\ exists a b, no_product t a b).
  Proof.
    intros I. unfold expand_symbol, affected, fundamental. destruct (Nat.leb_spec (length (fe_seqs e)) 1) as [H|H]; [left; split; [reflexivity|]; lia|].
    destruct (fe_syms e) as [|k ks] eqn:Es; [left; split; [reflexivity|]; intros [_ [k [[] _]]]|].
    destruct (forallb _ (k :: ks)) eqn:Fb.
    - left. split; [reflexivity|]. intros [_ [j [J N]]]. rewrite forallb_forall in Fb. specialize (Fb j J). destruct (find_rule rules j); [discriminate|congruence].
    - assert (Af : 2 <= length (fe_seqs e) /\ exists j, In j (k :: ks) /\ find_rule rules j <> None).
      { split; [exact H|]. clear - Fb. induction (k :: ks) as [|j l IH]; [discriminate|]. cbn in Fb. destruct (find_rule rules j) as [r|] eqn:Fj.
        - exists j. split; [now left|congruence].
        - destruct (IH Fb) as [i [A B]]. exists i. split; [now right|exact B]. }
      right. assert (Hk : k < length (ft_syms t)) by (apply (entry_below e); [exact I|rewrite Es; now left]).
      destruct (factor_poly_spec k Hk) as [A B].
      destruct (rest_spec ks) with (p := factor_poly rules k) as [[r [D [E G]]]|[D G]]; [intros j J; apply (entry_below e); [exact I|rewrite Es; now right]|exact A| |]; rewrite D; cbn [fbind].
      + left. eexists. split; [reflexivity|]. split; [exact Af|].
        assert (Lt : fe_id e < length (ft_syms t)) by (apply In_nth_error in I; destruct I as [i Hi]; destruct (se_id _ _ _ _ (proj1 S1) i e Hi) as [-> Lt]; exact Lt).
        destruct (monomial_spec R T (fa_lt F) (mk_mono (fe_id e) false (copp c1))) as [M1 M2]; [unfold in_table; cbn; destruct SS; lia|reflexivity|].
        destruct (sum_spec R T (fa_lt F) r _ (fo_order F FO) E M1) as [P1 [P2 P3]]. rewrite P3. split; [exact P1|]. exists r. split.
        * intros v Av. rewrite P2, M2 by apply Av. unfold term_value. cbn [m_f m_cj m_id]. ring.
        * intros v Av Mv. rewrite (G v Av Mv), (B v Av), Es, cproduct_cons. reflexivity.
      + right. split; [reflexivity|exact G].
  Qed.
  Lemma symbols_spec es : (forall e, In e es -> In e (ft_entries t)) ->
    (exists raw, expand_symbols F t rules es = FOk raw /\ length raw <= length es /\ (forall p, In p raw -> exists e, In e es /\ rule_for e p) /\ (forall e, In e es -> affected rules e -> exists p, In p raw /\ rule_for e p)) \/
    (expand_symbols F t rules es = FThrow /\ exists a b, no_product t a b).
  Proof.
    induction es as [|e es IH]; intros H.
    - left. exists []. split; [reflexivity|]. split; [cbn; lia|]. split; [intros p []|intros e []].
    - cbn [expand_symbols]. destruct IH as [[raw [A [B [D E]]]]|[A B]]; [intros x I; apply H; now right| |].
      + destruct (symbol_spec e (H e (or_introl eq_refl))) as [[X N]|[[p [X [Y Z]]]|[X Y]]]; rewrite X; cbn [fbind]; [rewrite A; cbn [fbind]..|].
        * left. exists raw. split; [reflexivity|]. split; [cbn; lia|]. split; [intros p I; destruct (D p I) as [x [J K]]; exists x; split; [now right|exact K]|].
          intros x [<-|I] Ax; [contradiction|now apply E].
        * left. exists (p :: raw). split; [reflexivity|]. split; [cbn; lia|]. split.
          -- intros p0 [<-|I]; [exists e; split; [now left|exact Z]|]. destruct (D p0 I) as [x [J K]]. exists x. split; [now right|exact K].
          -- intros x [<-|I] Ax; [exists p; split; [now left|exact Z]|]. destruct (E x I Ax) as [p0 [J K]]. exists p0. split; [now right|exact K].
        * right. split; [reflexivity|exact Y].
      + destruct (symbol_spec e (H e (or_introl eq_refl))) as [[X N]|[[p [X [Y Z]]]|[X Y]]]; rewrite X; cbn [fbind]; rewrite ?A; cbn [fbind]; right; auto.
  Qed.
  Lemma rule_value_obeys v k : obeys v rules -> rule_value v rules k = v k.
  Proof. intros Ob. unfold rule_value. destruct (find_rule rules k) as [r|] eqn:E; [|reflexivity]. apply find_rule_in in E. destruct E as [A <-]. symmetry. now apply Ob. Qed.
  Lemma rule_for_solved e p v : In e (ft_entries t) -> rule_for e p -> assignment T v -> multiplicative t v -> obeys v rules -> value v p = c0.
  Proof.
    intros I [_ [p0 [A B]]] Av Mv Ob. rewrite (A v Av), (B v Av Mv). apply In_nth_error in I. destruct I as [i Hi]. destruct (se_id _ _ _ _ (proj1 S1) i e Hi) as [-> _].
    rewrite (proj2 (proj2 Mv) i e Hi). assert (E : cproduct (rule_value v rules) (fe_syms e) = cproduct v (fe_syms e)).
    { clear - Ob. generalize (fe_syms e). intros l. induction l as [|k l IH]; [reflexivity|]. rewrite !cproduct_cons, IH, (rule_value_obeys v k Ob). reflexivity. }
    rewrite E. ring.
  Qed.
End Poly.
