(** Values of symbols and their products. *)
From Coq Require Import List ZArith Arith Bool Sorted Permutation Lia.
From Verif Require Import CoreModel FieldModel FieldProofs AlgModel InfModel InfSpec InfFinalProofs.
From Verif Require Import TreeModel SymModel PolyModel PolySpec FTabModel FTabSpec FTabListProofs FTabProofs FTabTableProofs FTabProductProofs.
Import ListNotations.

(** * Products of complex numbers *)
Section CProduct.
  Variable R : rfield.
  Add Ring Cr : (cx_ring R).
  Implicit Type v : nat -> cx R.
  Lemma cproduct_cons v x l : cproduct v (x :: l) = cmul (v x) (cproduct v l).
  Proof. reflexivity. Qed.
  Lemma cproduct_nil v : cproduct v [] = c1.
  Proof. reflexivity. Qed.
  Lemma cproduct_app v l r : cproduct v (l ++ r) = cmul (cproduct v l) (cproduct v r).
  Proof. induction l as [|x l IH]; cbn [app]; [rewrite cproduct_nil; ring|]. rewrite !cproduct_cons, IH. ring. Qed.
  Lemma cproduct_perm v l r : Permutation l r -> cproduct v l = cproduct v r.
  Proof. induction 1 as [|x l r P IH|x y l|l1 l2 l3 P1 I1 P2 I2]; rewrite ?cproduct_cons; [reflexivity|now rewrite IH|ring|congruence]. Qed.
  Lemma cproduct_zero v l : v 0 = c0 -> In 0 l -> cproduct v l = c0.
  Proof. intros Z. induction l as [|x l IH]; intros I; [destruct I|]. rewrite cproduct_cons. destruct I as [->|I]; [rewrite Z; ring|]. rewrite (IH I). ring. Qed.
  Lemma cproduct_ones v l : v 1 = c1 -> cproduct v (ones_out l) = cproduct v l.
  Proof.
    intros O. induction l as [|x l IH]; [reflexivity|]. unfold ones_out in *. cbn [filter]. destruct (Nat.eqb_spec x 1) as [->|N]; cbn [negb].
    - rewrite cproduct_cons, O, IH. ring.
    - now rewrite !cproduct_cons, IH.
  Qed.
  Lemma cproduct_one v k : cproduct v [k] = v k.
  Proof. rewrite cproduct_cons, cproduct_nil. ring. Qed.
  Lemma cproduct_combine v l r : v 0 = c0 -> v 1 = c1 -> shaped l -> shaped r -> l <> [] -> r <> [] ->
    cproduct v (combine_factors l r) = cmul (cproduct v l) (cproduct v r).
  Proof.
    intros Z O Sl Sr Nl Nr. destruct (combine_spec l r Sl Sr Nl Nr) as [_ [_ [_ [H1 H2]]]].
    destruct (in_dec Nat.eq_dec 0 l) as [I|I]; [|destruct (in_dec Nat.eq_dec 0 r) as [J|J]].
    - rewrite (cproduct_zero v l Z I), (cproduct_zero v (combine_factors l r) Z); [ring|]. apply H1; [discriminate|now left].
    - rewrite (cproduct_zero v r Z J), (cproduct_zero v (combine_factors l r) Z); [ring|]. apply H1; [discriminate|now right].
    - destruct (H2 I J) as [_ [P _]]. rewrite <- (cproduct_ones v (combine_factors l r) O), (cproduct_perm v _ _ P), (cproduct_ones v _ O). apply cproduct_app.
  Qed.
  Lemma all_factors_value t v ks l : multiplicative t v -> all_factors t ks l -> cproduct v l = cproduct v ks.
  Proof.
    intros [_ [_ M]] [ls [F ->]]. induction F as [|k l ks ls H F IH]; [reflexivity|]. cbn [concat]. rewrite cproduct_app, cproduct_cons, IH. f_equal.
    destruct H as [e [He <-]]. symmetry. now apply M.
  Qed.
End CProduct.
Section CReal.
  Variable R : rfield.
  Add Field Rf : (r_field R).
  Lemma creal_mul (a b : R) : cmul (creal a) (creal b) = creal (rmul R a b).
  Proof. apply cx_ext; cbn; ring. Qed.
End CReal.
Lemma creal_product (R : rfield) (u : nat -> R) l : cproduct (fun k => creal (u k)) l = creal (product R u l).
Proof. induction l as [|x l IH]; [reflexivity|]. rewrite cproduct_cons, product_cons, IH. apply creal_mul. Qed.

Section Values.
  Variables (outcomes : list nat) (srcs : list (list nat)) (nt : network) (L : nat).
  Hypothesis MK : make_network outcomes srcs = Some nt.
  Notation c := (inflate nt L).
  Notation lab := (label_of c).
  Notation moment_of := (moment_of nt L).
  Notation unfactorable := (unfactorable srcs nt L).
  Notation factors_of := (factors_of nt L).
  Notation sound_entries := (sound_entries srcs nt L).
  Notation sound_table := (sound_table srcs nt L).
  Notation factor_list := (factor_list srcs nt L).

  (** * Explanations *)
  Section Explained.
    Variables (R : rfield) (M : explanation R).
    Hypothesis NM : normalized R M.
    Notation meaning := (meaning outcomes srcs nt L R M).
    Definition seq_value (q : option word) : R := match q with None => r0 R | Some w => expectation outcomes srcs L R M (map lab w) end.
    Lemma moment_value w r : simplified c w -> moment_of w r -> expectation outcomes srcs L R M (map lab r) = expectation outcomes srcs L R M (map lab w).
    Proof.
      intros N Hm. destruct (f_moment_value outcomes srcs nt L MK R M w N) as [r' [k [A B]]]. rewrite <- B. do 2 f_equal.
      apply (moment_same nt L w); [exact Hm|now exists k].
    Qed.
    (** the value of a sequence is the product of the values of its factors *)
    Lemma factors_value q qs : match q with None => True | Some w => simplified c w end -> factors_of q qs ->
      fold_right (fun x acc => rmul R (seq_value x) acc) (r1 R) qs = seq_value q.
    Proof.
      intros N F. destruct q as [w|]; cbn in F.
      - destruct F as [fs [rs [A [B ->]]]]. cbn [seq_value]. rewrite (f_factors_value outcomes srcs nt L MK R M w fs NM N A).
        assert (Sf : forall f, In f fs -> simplified c f).
        { intros f I. destruct (list_eq_dec Nat.eq_dec w []) as [->|NE].
          - cbn in A. destruct fs as [|g [|]]; try discriminate. injection A as <-. destruct I as [<-|[]]. exact N.
          - destruct (f_factors outcomes srcs nt L MK w N NE) as [fs' [A' [_ [D _]]]]. rewrite A in A'. apply (f_equal (map (fun o => match o with Some x => x | None => [] end))) in A'.
            rewrite !map_map in A'; cbn in A'; rewrite !map_id in A'. subst fs'. now apply D. }
        clear A. induction B as [|f r fs rs H B IH]; [reflexivity|]. cbn [map fold_right]. rewrite IH by (intros g I; apply Sf; now right).
        f_equal. cbn. apply moment_value; [apply Sf; now left|exact H].
      - subst qs. cbn. apply one_left.
    Qed.
    Lemma product_seqs t v ks qs : (forall k q, symbol_seq t k q -> v k = seq_value q) -> Forall2 (fun k q => symbol_seq t k q /\ unfactorable q) ks qs ->
      product R v ks = fold_right (fun x acc => rmul R (seq_value x) acc) (r1 R) qs.
    Proof. intros H. induction 1 as [|k q ks qs [A B] F IH]; [reflexivity|]. cbn [fold_right]. rewrite product_cons, IH. f_equal. now apply H. Qed.
    (** in every explanation the value of a symbol is the product of the values of its factors *)
    Lemma meaning_product t v k e : sound_table t -> meaning t v -> nth_error (ft_entries t) k = Some e -> v k = product R v (fe_syms e).
    Proof.
      intros [S0 Le] Mn He. destruct (se_id _ _ _ _ S0 k e He) as [_ Lt]. apply nth_error_Some in Lt. destruct (nth_error (ft_syms t) k) as [[q|]|] eqn:Hs; [| |congruence].
      - destruct (se_factors _ _ _ _ S0 e (nth_error_In _ _ He)) as [ks [P F]]. rewrite <- (product_perm R v _ _ P).
        rewrite (product_seqs t v ks (fe_seqs e)); [|intros j q' H; exact (mn_word _ _ _ _ _ _ _ _ Mn j q' H)|exact F].
        destruct (se_entry _ _ _ _ S0 k q e Hs He) as [Fa _]. rewrite (factors_value q); [|now apply (words_ok srcs nt L t k)|exact Fa].
        apply (mn_word _ _ _ _ _ _ _ _ Mn k q Hs).
      - now apply (mn_product _ _ _ _ _ _ _ _ Mn).
    Qed.
    Definition word_values (t : ftab) (k : nat) : R := match nth_error (ft_syms t) k with Some (Some q) => seq_value q | _ => r0 R end.
    Definition table_values (t : ftab) (k : nat) : R :=
      match nth_error (ft_syms t) k with
      | Some (Some q) => seq_value q
      | _ => match nth_error (ft_entries t) k with Some e => product R (word_values t) (fe_syms e) | None => r0 R end
      end.
    Lemma meaning_exists t : sound_table t -> meaning t (table_values t).
    Proof.
      intros S1. split.
      - intros k q H. unfold table_values. unfold symbol_seq in H. now rewrite H.
      - intros k e H He. unfold table_values at 1. rewrite H, He. destruct (entry_list outcomes srcs nt L MK t e S1 (nth_error_In _ _ He)) as [_ [_ Hk]].
        induction (fe_syms e) as [|j l IH]; [reflexivity|]. rewrite !product_cons, IH by (intros i I; apply Hk; now right). f_equal.
        destruct (Hk j (or_introl eq_refl)) as [q [Hq _]]. unfold symbol_seq in Hq. unfold word_values, table_values. now rewrite Hq.
    Qed.
    Lemma meaning_unique t v v' : sound_table t -> meaning t v -> meaning t v' -> forall k, k < length (ft_syms t) -> v k = v' k.
    Proof.
      intros S1 Mv Mv' k Lt. destruct (sound_entry srcs nt L t k S1 Lt) as [e [He _]].
      rewrite (meaning_product t v k e S1 Mv He), (meaning_product t v' k e S1 Mv' He). destruct (entry_list outcomes srcs nt L MK t e S1 (nth_error_In _ _ He)) as [_ [_ Hk]].
      induction (fe_syms e) as [|j l IH]; [reflexivity|]. rewrite !product_cons, IH by (intros i I; apply Hk; now right). f_equal.
      destruct (Hk j (or_introl eq_refl)) as [q [Hq _]]. rewrite (mn_word _ _ _ _ _ _ _ _ Mv j q Hq), (mn_word _ _ _ _ _ _ _ _ Mv' j q Hq). reflexivity.
    Qed.
    Lemma meaning_multiplicative t v : sound_table t -> meaning t v -> multiplicative t (fun k => creal (v k)).
    Proof.
      intros S1 Mn. split; [|split].
      - rewrite (mn_word _ _ _ _ _ _ _ _ Mn 0 None); [reflexivity|]. apply S1.
      - rewrite (mn_word _ _ _ _ _ _ _ _ Mn 1 (Some [])); [|apply S1]. cbn [map]. now rewrite InfExpectProofs.expectation_one by assumption.
      - intros k e He. rewrite creal_product. f_equal. now apply (meaning_product t).
    Qed.
    (** adding to the table does not change the value of the old symbols *)
    Lemma meaning_grows t t' v : sound_table t -> sound_table t' -> grows t t' -> meaning t' v -> meaning t v.
    Proof.
      intros S1 S2 G Mn. split.
      - intros k q H. apply (mn_word _ _ _ _ _ _ _ _ Mn). now apply (grows_seq t).
      - intros k e H He. apply (meaning_product t' v k e S2 Mn). destruct G as [ms [me [_ ->]]]. now apply nth_app_old.
    Qed.
  End Explained.
  Lemma multiplicative_grows {R : rfield} t t' (v : nat -> cx R) : grows t t' -> multiplicative t' v -> multiplicative t v.
  Proof. intros [ms [me [_ E]]] [A [B D]]. split; [exact A|]. split; [exact B|]. intros k e He. apply D. rewrite E. now apply nth_app_old. Qed.

  (** * Multiplying symbols *)
  Lemma entry_ok t k : sound_table t -> k < length (ft_syms t) -> exists e, entry_of t k = FOk e /\ nth_error (ft_entries t) k = Some e.
  Proof. intros S1 Lt. destruct (sound_entry srcs nt L t k S1 Lt) as [e [He _]]. exists e. unfold entry_of. now rewrite He. Qed.
  Lemma expand_spec t ks : sound_table t -> (forall k, In k ks -> k < length (ft_syms t)) -> exists l, expand t ks = FOk l /\ all_factors t ks l.
  Proof.
    intros S1. induction ks as [|k ks IH]; intros H; [exists []; split; [reflexivity|]; exists []; split; [constructor|reflexivity]|].
    destruct IH as [l [A [ls [B D]]]]; [intros j I; apply H; now right|]. destruct (entry_ok t k S1 (H k (or_introl eq_refl))) as [e [E1 E2]].
    exists (fe_syms e ++ l). split.
    - cbn. rewrite E1. cbn. rewrite A. cbn. f_equal. destruct (fundamental e) eqn:Fe; [|reflexivity].
      apply (fundamental_self outcomes srcs nt L MK t k e (proj1 S1) E2) in Fe. now rewrite Fe.
    - exists (fe_syms e :: ls). split; [constructor; [now exists e|exact B]|]. cbn. now rewrite D.
  Qed.
  Lemma all_factors_fun t ks l l' : all_factors t ks l -> all_factors t ks l' -> l = l'.
  Proof.
    intros [ls [A ->]] [ls' [A' ->]]. f_equal. revert ls' A'. induction A as [|k l ks ls H A IH]; intros ls' A'; inversion A' as [|k' l' ks' ls'' H' A'']; subst; [reflexivity|].
    f_equal; [eapply factors_fun; eassumption|now apply IH].
  Qed.
  Lemma canonical_spec t ks : sound_table t -> (exists id, multiply_canonical t ks = FOk id /\ factors t id ks) \/ (multiply_canonical t ks = FThrow /\ forall e, In e (ft_entries t) -> fe_syms e <> ks).
  Proof.
    intros S1. pose proof (find_spec srcs nt L t ks S1) as Fs. unfold multiply_canonical. destruct (find_factors t ks) as [k|] eqn:F; [left|now right].
    destruct Fs as [e [He Es]]. exists k. split; [|now exists e]. assert (k < length (ft_entries t)) as Lt by (apply nth_error_Some; congruence).
    destruct (Nat.leb_spec (length (ft_entries t)) k); [lia|]. unfold entry_of. rewrite He. cbn. f_equal. now apply (se_id _ _ _ _ (proj1 S1) k e).
  Qed.
  Lemma entry_one t k e : sound_table t -> nth_error (ft_entries t) k = Some e -> In 1 (fe_syms e) -> ~ In 0 (fe_syms e) -> k = 1.
  Proof.
    intros S1 He I N. destruct (se_shape _ _ _ _ (proj1 S1) e (nth_error_In _ _ He)) as [[_ [_ E]]|[l E]].
    - specialize (E I). destruct (se_factors _ _ _ _ (proj1 S1) e (nth_error_In _ _ He)) as [ks [P F]].
      assert (Fd : fundamental e = true). { unfold fundamental. rewrite <- (forall2_len _ _ _ F), (Permutation_length P), E. reflexivity. }
      apply (fundamental_self outcomes srcs nt L MK t k e (proj1 S1) He) in Fd. congruence.
    - rewrite E in N. destruct N. now left.
  Qed.
  Lemma no_ones t ks l : sound_table t -> all_factors t ks l -> ~ In 0 l -> ~ In 1 ks -> without_one l = l.
  Proof.
    intros S1 [ls [F ->]] Z O. apply ones_out_none. intros I. apply O. clear O. induction F as [|k l ks ls [e [He <-]] F IH]; cbn [concat] in *; [destruct I|].
    rewrite in_app_iff in *. destruct I as [I|I]; [left; apply (entry_one t k e); auto|right; apply IH; [tauto|exact I]].
  Qed.
  Lemma plain_spec t ks : sound_table t -> (forall k, In k ks -> k < length (ft_syms t)) -> ~ In 1 ks ->
    (exists id, multiply_plain t ks = FOk id /\ id < length (ft_syms t) /\ forall R (v : nat -> cx R), multiplicative t v -> v id = cproduct v ks) \/
    (multiply_plain t ks = FThrow /\ forall l e, all_factors t ks l -> ~ In 0 l -> In e (ft_entries t) -> ~ Permutation (fe_syms e) (without_one l)).
  Proof.
    intros S1 H O. destruct (expand_spec t ks S1 H) as [l [A B]]. unfold multiply_plain. rewrite A. cbn [fbind].
    destruct (canonical_spec t (nsort l) S1) as [[id [E [e [He Es]]]]|[E N]].
    - left. exists id. split; [exact E|]. split; [now apply (se_id _ _ _ _ (proj1 S1) id e)|]. intros R v Mv. rewrite <- (all_factors_value R t v ks l Mv B).
      rewrite <- (cproduct_perm R v _ _ (nsort_perm l)), <- Es. now apply Mv.
    - right. split; [exact E|]. intros l' e B' Z I P. rewrite (all_factors_fun t ks l' l B' B) in *. rewrite (no_ones t ks l S1 B Z O) in P.
      apply (N e I). rewrite <- (nsort_of_sorted (fe_syms e)).
      + apply sorted_unique; [apply nsort_sorted..|]. rewrite !nsort_perm. exact P.
      + destruct (se_shape _ _ _ _ (proj1 S1) e I) as [[X _]|[m X]]; [exact X|]. exfalso. apply Z. apply (Permutation_in _ P). rewrite X. now left.
  Qed.
  Lemma list_spec t ks : sound_table t -> ks <> [] -> (forall k, In k ks -> k < length (ft_syms t)) ->
    (exists id, multiply_list t ks = FOk id /\ id < length (ft_syms t) /\ forall R (v : nat -> cx R), multiplicative t v -> v id = cproduct v ks) \/
    (multiply_list t ks = FThrow /\ ~ In 0 ks /\ forall l e, all_factors t ks l -> ~ In 0 l -> In e (ft_entries t) -> ~ Permutation (fe_syms e) (without_one l)).
  Proof.
    intros S1 Ne H.
    assert (H0 : 0 < length (ft_syms t)) by (destruct (ft_syms t) eqn:E; cbn; [destruct S1 as [[Z] _]; unfold symbol_seq in Z; rewrite E in Z; discriminate|lia]).
    assert (H1 : 1 < length (ft_syms t)) by (apply nth_error_Some; destruct S1 as [[_ Z] _]; unfold symbol_seq in Z; congruence).
    destruct ks as [|k ks]; [congruence|]. destruct ks as [|j ks].
    { left. exists k. cbn. split; [reflexivity|]. split; [apply H; now left|]. intros R v _. symmetry. apply cproduct_one. }
    cbn [multiply_list]. set (l0 := k :: j :: ks) in *. destruct (existsb (Nat.eqb 0) l0) eqn:Z.
    { left. exists 0. split; [reflexivity|]. split; [exact H0|]. intros R v [V0 _]. rewrite V0. symmetry. apply cproduct_zero; [exact V0|].
      apply existsb_exists in Z. destruct Z as [x [I E]]. apply Nat.eqb_eq in E. congruence. }
    assert (Z0 : ~ In 0 l0).
    { intros I. assert (existsb (Nat.eqb 0) l0 = true) by (apply existsb_exists; exists 0; auto). congruence. }
    destruct (existsb (Nat.eqb 1) l0) eqn:O.
    - change (filter (fun k => negb (k =? 1)) l0) with (without_one l0).
      assert (Hw : forall x, In x (without_one l0) -> In x l0 /\ x <> 1) by (intros x I; apply filter_In in I; destruct I as [I J]; split; [exact I|]; destruct (Nat.eqb_spec x 1); [discriminate|assumption]).
      assert (Vw : forall R (v : nat -> cx R), multiplicative t v -> cproduct v (without_one l0) = cproduct v l0) by (intros R v Mv; apply cproduct_ones; apply Mv).
      destruct (plain_spec t (without_one l0) S1) as [[id [A [B D]]]|[A B]]; [intros x I; apply H; now apply Hw|intros I; now apply Hw in I| |].
      + left. destruct (without_one l0) as [|a [|b r]] eqn:W.
        * exists 1. split; [reflexivity|]. split; [exact H1|]. intros R v Mv. rewrite <- (Vw R v Mv). now apply Mv.
        * exists a. split; [reflexivity|]. split; [apply H; apply Hw; now left|]. intros R v Mv. rewrite <- (Vw R v Mv). symmetry. apply cproduct_one.
        * exists id. split; [exact A|]. split; [exact B|]. intros R v Mv. rewrite <- (Vw R v Mv). now apply D.
      + destruct (without_one l0) as [|a [|b r]] eqn:W.
        * left. exists 1. split; [reflexivity|]. split; [exact H1|]. intros R v Mv. rewrite <- (Vw R v Mv). now apply Mv.
        * left. exists a. split; [reflexivity|]. split; [apply H; apply Hw; now left|]. intros R v Mv. rewrite <- (Vw R v Mv). symmetry. apply cproduct_one.
        * right. split; [exact A|]. split; [exact Z0|]. rewrite <- W in *. clear W A. intros l e Al Zl I P.
          (* the factors without those of the identity *)
          assert (G : forall ks' l', ~ In 0 l' -> all_factors t ks' l' -> exists l'', all_factors t (without_one ks') l'' /\ without_one l'' = without_one l' /\ ~ In 0 l'').
          { intros ks' l' Zl' [ls [F ->]]. induction F as [|x lx ks' ls [ex [Hx Ex]] F IH]; [exists []; split; [exists []; split; [constructor|reflexivity]|]; auto|].
            cbn [concat] in Zl'. rewrite in_app_iff in Zl'. destruct IH as [l'' [G1 [G2 G3]]]; [tauto|]. unfold without_one at 1. cbn [filter concat]. destruct (Nat.eqb_spec x 1) as [->|Nx]; cbn [negb].
            - exists l''. split; [exact G1|]. split; [|exact G3]. rewrite G2. unfold without_one. rewrite filter_app.
              assert (lx = [1]) as ->; [|reflexivity]. rewrite <- Ex. apply (own_factor outcomes srcs nt L MK t 1 (Some []) ex (proj1 S1)); [apply S1|intros ? ? []|exact Hx].
            - exists (lx ++ l''). split; [|split].
              + destruct G1 as [ls' [G4 ->]]. exists (lx :: ls'). split; [constructor; [now exists ex|exact G4]|reflexivity].
              + unfold without_one in *. rewrite !filter_app. now rewrite G2.
              + rewrite in_app_iff. tauto. }
          destruct (G l0 l Zl Al) as [l'' [G1 [G2 G3]]]. rewrite <- G2 in P. now apply (B l'' e G1 G3 I).
    - destruct (plain_spec t l0 S1 H) as [K|[K1 K2]]; [|left; exact K|right; auto].
      intros I. assert (existsb (Nat.eqb 1) l0 = true) by (apply existsb_exists; exists 1; auto). congruence.
  Qed.
  Lemma pair_list t a b : sound_table t -> a < length (ft_syms t) -> b < length (ft_syms t) -> multiply_pair t a b = multiply_list t [a; b].
  Proof.
    intros S1 Ha Hb. unfold multiply_pair, multiply_list. cbn [existsb filter]. rewrite !orb_false_r, (Nat.eqb_sym 0 a), (Nat.eqb_sym 0 b), (Nat.eqb_sym 1 a), (Nat.eqb_sym 1 b).
    destruct (Nat.eqb_spec a 0) as [->|A0]; [reflexivity|]. destruct (Nat.eqb_spec b 0) as [->|B0]; [reflexivity|]. cbn [orb].
    destruct (Nat.eqb_spec a 1) as [->|A1]; cbn [orb negb].
    { destruct (Nat.eqb_spec b 1) as [->|B1]; reflexivity. }
    destruct (Nat.eqb_spec b 1) as [->|B1]; cbn [orb negb]; [reflexivity|].
    destruct (entry_ok t a S1 Ha) as [ea [Ea Na]]. destruct (entry_ok t b S1 Hb) as [eb [Eb Nb]].
    rewrite Ea, Eb. cbn [fbind]. unfold multiply_plain, expand. rewrite ?Ea, ?Eb. cbn [fbind]. rewrite ?Ea, ?Eb. cbn [fbind]. destruct (fundamental ea) eqn:Fa; cbn [negb].
    - destruct (fundamental eb) eqn:Fb; cbn [negb].
      + f_equal. unfold nsort. cbn [app fold_right ninsert]. destruct (Nat.ltb_spec a b); destruct (Nat.leb_spec a b); try lia; try reflexivity. assert (a = b) as -> by lia. reflexivity.
      + reflexivity.
    - reflexivity.
  Qed.
End Values.
