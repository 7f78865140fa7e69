(** Wrappers, witnesses and examples for polynomials of operators. *)
From Coq Require Import List NArith ZArith QArith Qcanon Arith Bool Sorted Lia.
From Verif Require Import CoreModel CoreProofs LocModel LocSpec FieldModel FieldProofs SymModel SymSpec SymProofs SymInstModel SymInstProofs SymWitnessProofs SymFinalProofs
  PolyModel PolySpec PolyProofs PolyTableProofs PolyWitnessProofs PolyFinalProofs AlgModel AlgSpec PauliModel PauliSpec PauliProofs PauliFinalProofs MatInstModel MatInstSpec MatStarProofs
  RawModel RawSpec RawProofs RawInstProofs RawTableProofs.
Import ListNotations.
Local Open Scope nat_scope.

Lemma condense_spec (R : rfield) (A : cspace R) V (rep : hseq -> A) (p : list (hseq * cx R)) : hash_exact V -> represents V rep -> raw_wf V p ->
  condensed V (condense p) /\ poly_in rep (condense p) = poly_in rep p.
Proof. intros HX RP W. split; [now apply condense_condensed|now apply (condense_value R A V HX rep RP)]. Qed.
Lemma normal_form (R : rfield) V (p q : list (hseq * cx R)) : hash_exact V -> condensed V p -> condensed V q ->
  (forall (A : cspace R) (rep : hseq -> A), represents V rep -> poly_in rep p = poly_in rep q) -> p = q.
Proof. intros HX P Q E. apply (condensed_unique R V); auto. Qed.
Lemma sums_spec (R : rfield) (A : cspace R) V (rep : hseq -> A) (p q : list (hseq * cx R)) : hash_exact V -> represents V rep -> raw_wf V p -> raw_wf V q ->
  condensed V (raw_add p q) /\ poly_in rep (raw_add p q) = v_add (poly_in rep p) (poly_in rep q) /\
  condensed V (raw_subtract p q) /\ poly_in rep (raw_subtract p q) = v_add (poly_in rep p) (v_scale (copp c1) (poly_in rep q)).
Proof.
  intros HX RP P Q. assert (F1 : raw_wf V (p ++ q)) by now apply Forall_app.
  assert (F2 : raw_wf V (p ++ map (fun x => (fst x, copp (snd x))) q)) by (apply Forall_app; split; [exact P|now apply neg_wf]).
  split; [now apply condense_condensed|]. split; [now apply (raw_add_value R A V HX rep RP)|]. split; [now apply condense_condensed|]. now apply (raw_subtract_value R A V HX rep RP).
Qed.
Lemma locality_product (R : rfield) (A : cspace R) sc l k (rep : hseq -> A) times : loc_safe sc (l + k) -> represents (loc_wf sc (l + k)) rep -> bilinear times ->
  (forall a b c, loc_wf sc l a -> loc_wf sc k b -> loc_multiply sc a b = Ret c -> rep c = times (rep a) (rep b)) ->
  forall p q : list (hseq * cx R), Forall (fun x => loc_wf sc l (fst x)) p -> Forall (fun x => loc_wf sc k (fst x)) q ->
  exists r, raw_multiply (loc_multiply sc) p q = Ret r /\ condensed (loc_wf sc (l + k)) r /\ poly_in rep r = times (poly_in rep p) (poly_in rep q).
Proof.
  intros S RP BL MU. eapply (star_product R _ _ (loc_wf sc)); eauto; [exact (loc_star sc _ S)|apply loc_phaseless|now apply loc_exact].
Qed.
Lemma pauli_product (R : rfield) (A : cspace R) n l k (rep : hseq -> A) times : pauli_safe n (l + k) -> represents (pauli_word n (l + k)) rep -> bilinear times ->
  (forall a b, pauli_word n l a -> pauli_word n k b -> rep (pauli_multiply n a b) = times (rep a) (rep b)) ->
  forall p q : list (hseq * cx R), Forall (fun x => pauli_word n l (fst x)) p -> Forall (fun x => pauli_word n k (fst x)) q ->
  exists r, raw_multiply (fun a b => Ret (pauli_multiply n a b)) p q = Ret r /\ condensed (pauli_word n (l + k)) r /\ poly_in rep r = times (poly_in rep p) (poly_in rep q).
Proof.
  intros S RP BL MU. eapply (star_product R (pauli_mul n) pauli_conj (pauli_word n)); eauto; [exact (pauli_star n _ S)|apply pauli_word_phaseless|now apply pauli_word_exact|].
  intros a b c Ha Hb E. injection E as <-. now apply MU.
Qed.
Lemma algebraic_product L M c cx fc : decidable_context L M c cx -> is_complete fc (ac_rules cx) true = Ret true -> exists n, forall fuel, n <= fuel ->
  forall (R : rfield) (A : cspace R) l k (rep : hseq -> A) times, l + k <= L -> represents (alg_word L c cx (l + k)) rep -> bilinear times ->
  (forall a b d, alg_word L c cx l a -> alg_word L c cx k b -> multiply fuel cx a b = Ret d -> rep d = times (rep a) (rep b)) ->
  forall p q : list (hseq * FieldModel.cx R), Forall (fun x => alg_word L c cx l (fst x)) p -> Forall (fun x => alg_word L c cx k (fst x)) q ->
  exists r, raw_multiply (multiply fuel cx) p q = Ret r /\ condensed (alg_word L c cx (l + k)) r /\ poly_in rep r = times (poly_in rep p) (poly_in rep q).
Proof.
  intros D C. destruct (alg_star L M c cx fc D C) as [n H]. exists n. intros fuel F R A l k rep times LK RP BL MU.
  eapply (star_product R _ _ (alg_word L c cx)); eauto; [apply alg_phaseless|eapply alg_exact; eauto].
Qed.

(** a symbol merged with a phase comes back with that phase in its weight *)
Lemma scalar_spec : forall (R : rfield) V (p : list (hseq * cx R)), condensed V p -> (forall q, V q -> hs_zero q = false -> hs_ops q = [] -> hs_hash q = 1%N) ->
  (raw_is_scalar p = true <-> p = [] \/ exists q w, p = [(q, w)] /\ hs_ops q = [] /\ w <> c0).
Proof.
  intros R V p [S F] H. unfold raw_is_scalar. rewrite forallb_forall.
  assert (E : forall x : hseq * cx R, (match hs_ops (fst x) with [] => true | _ => false end) = true <-> hs_ops (fst x) = []).
  { intros x. destruct (hs_ops (fst x)); split; auto; discriminate. }
  split.
  - intros A. destruct p as [|x [|y p]]; auto.
    + right. destruct x as [q w]. destruct (F (q, w) (or_introl eq_refl)) as (_ & _ & _ & W). exists q, w. split; auto. split; auto. apply (E (q, w)). apply A. left; auto.
    + exfalso. assert (X : forall z, In z (x :: y :: p) -> hs_hash (fst z) = 1%N).
      { intros z I. destruct (F z I) as (P & _ & Z & _). apply H; auto. apply E, A; auto. }
      inversion S as [|? ? ? L]; subst. inversion L as [|? ? K]; subst. rewrite (X x), (X y) in K by (cbn; auto). lia.
  - intros [->|(q & w & -> & O & W)] x I; [destruct I|]. destruct I as [<-|[]]. apply E. exact O.
Qed.
Lemma phased_round_trip_refuted : exists (t : table) (p q : list (mono Q')) r, reachable_clean anti3_sctx anti3_words t /\ starts t /\ no_null t /\ PolySpec.canonical t id_less p /\
  raw_of_poly t p = Some r /\ construct_raw anti3_sctx t (isort id_less) r = Some q /\ q <> p.
Proof.
  destruct (opt_bool (raw_of_poly t8 [mq 7 false 1 0]) (fun r => match construct_raw anti3_sctx t8 (isort id_less) r with Some q => negb (poly_eqb q [mq 7 false 1 0]) | None => false end)) as [r [E B]]; [vm_compute; reflexivity|].
  apply (opt_bool _ (fun q => negb (poly_eqb q [mq 7 false 1 0]))) in B. destruct B as [q [E' B]].
  exists t8, [mq 7 false 1 0], q, r. split; [exact t8_clean|]. split; [apply t8_good|]. split; [apply t8_good|]. split; [apply canonical_by; vm_compute; reflexivity|]. split; [exact E|]. split; [exact E'|].
  apply pneq. now apply negb_true_iff.
Qed.

(** 2x2 matrices and the Pauli matrices *)
Section Matrices.
  Variable R : rfield.
  Add Field RfM : (r_field R).
  Add Field CfM : (cx_field R).
  Record m2 := mk_m2 { ma : cx R; mb : cx R; mc : cx R; md : cx R }.
  Definition m2_space : cspace R.
  Proof.
    refine (mk_cspace R m2 (mk_m2 c0 c0 c0 c0) (fun x y => mk_m2 (cadd (ma x) (ma y)) (cadd (mb x) (mb y)) (cadd (mc x) (mc y)) (cadd (md x) (md y)))
      (fun k x => mk_m2 (cmul k (ma x)) (cmul k (mb x)) (cmul k (mc x)) (cmul k (md x))) _ _ _ _ _ _ _ _); intros; repeat match goal with x : m2 |- _ => destruct x end; cbn [ma mb mc md]; f_equal; ring.
  Defined.
  Definition m2_mul (x y : m2_space) : m2_space := mk_m2 (cadd (cmul (ma x) (ma y)) (cmul (mb x) (mc y))) (cadd (cmul (ma x) (mb y)) (cmul (mb x) (md y)))
    (cadd (cmul (mc x) (ma y)) (cmul (md x) (mc y))) (cadd (cmul (mc x) (mb y)) (cmul (md x) (md y))).
  Lemma m2_bilinear : bilinear m2_mul.
  Proof. split; intros; repeat match goal with x : vs _ m2_space |- _ => destruct x end; unfold m2_mul; cbn [ma mb mc md v_add v_scale m2_space]; f_equal; ring. Qed.
  Definition m2_word (w : word) : m2 :=
    match w with
    | [0] => mk_m2 c0 c1 c1 c0
    | [1] => mk_m2 c0 (copp ci) ci c0
    | [2] => mk_m2 c1 c0 c0 (copp c1)
    | _ => mk_m2 c1 c0 c0 c1
    end.
  Definition m2_rep (q : hseq) : m2_space := if hs_zero q then v_0 else v_scale (c := m2_space) (sphase R (hs_sign q)) (m2_word (hs_ops q)).
  Lemma m2_represents V : represents V m2_rep.
  Proof.
    split; intros q; unfold m2_rep; [intros _|intros ->; reflexivity]. change (hs_zero (pos q)) with (hs_zero q). change (hs_ops (pos q)) with (hs_ops q). cbn [pos SymModel.set_sign hs_sign sphase].
    destruct (hs_zero q); [symmetry; apply v_scale_zero|]. now rewrite v_scale_1.
  Qed.
  Lemma one_qubit_words L q : pauli_word 1 L q -> In (hs_ops q) [[]; [0]; [1]; [2]] /\ hs_hash q = hash 3 (hs_ops q).
  Proof.
    intros [[->|(H & O & Len & C)] Z]; [now destruct Z|]. split; [|exact H]. destruct (hs_ops q) as [|x [|y w]].
    - now left.
    - pose proof (O x (or_introl eq_refl)) as X. destruct x as [|[|[|x]]]; cbn; auto 6. cbn in X. lia.
    - exfalso. pose proof (O x (or_introl eq_refl)) as X. pose proof (O y (or_intror (or_introl eq_refl))) as Y. unfold pauli_canonical in C. inversion C as [|? ? C' L']; subst. inversion L' as [|? ? L1 L2]; subst.
      assert (x / 3 = 0) by (apply Nat.div_small; lia). assert (y / 3 = 0) by (apply Nat.div_small; lia). lia.
  Qed.
  Lemma m2_multiplicative L a b : pauli_word 1 L a -> pauli_word 1 L b -> m2_rep (pauli_multiply 1 a b) = m2_mul (m2_rep a) (m2_rep b).
  Proof.
    intros Wa Wb. destruct (one_qubit_words L a Wa) as [Oa Ha], (one_qubit_words L b Wb) as [Ob Hb]. destruct a as [ha wa sa], b as [hb wb sb]. cbn [hs_ops hs_hash] in *. subst ha hb. cbn [In] in Oa, Ob.
    destruct Oa as [<-|[<-|[<-|[<-|[]]]]]; destruct Ob as [<-|[<-|[<-|[<-|[]]]]]; destruct sa, sb;
      match goal with |- m2_rep (pauli_multiply 1 ?a ?b) = _ => let r := eval vm_compute in (pauli_multiply 1 a b) in change (pauli_multiply 1 a b) with r end;
      unfold m2_rep; match goal with |- context [hs_zero ?q] => idtac end;
      repeat match goal with |- context [hs_zero ?q] => let z := eval vm_compute in (hs_zero q) in change (hs_zero q) with z end;
      cbv iota; cbn [hs_sign hs_ops m2_word sphase]; unfold m2_mul; cbn [v_scale m2_space ma mb mc md]; f_equal; apply cx_ext; cbn; ring.
  Qed.
End Matrices.
Lemma pauli_matrices_represent (R : rfield) L : represents (pauli_wf 1 L) (m2_rep R) /\ bilinear (m2_mul R) /\
  forall a b, pauli_wf 1 L a /\ hs_hash a <> 0%N -> pauli_wf 1 L b /\ hs_hash b <> 0%N -> m2_rep R (pauli_multiply 1 a b) = m2_mul R (m2_rep R a) (m2_rep R b).
Proof. split; [apply m2_represents|]. split; [apply m2_bilinear|]. intros a b Wa Wb. now apply (m2_multiplicative R L). Qed.
Definition raw_same (a : res (list (hseq * cx Q'))) (b : list (hseq * cx Q')) : bool :=
  match a with
  | Ret l => Nat.eqb (length l) (length b) && forallb (fun x => hs_eqb (fst (fst x)) (fst (snd x)) && ceqb (snd (fst x)) (snd (snd x))) (List.combine l b)
  | _ => false
  end.
Lemma arithmetic_example : let x := pauli_sequence 1 [0] SPos in let y := pauli_sequence 1 [1] SPos in let z := pauli_sequence 1 [2] SPos in
  let e := hseq_const false in let P := [(e, cq 2 0); (x, cq 1 0)] in let Q := [(y, cq 0 1); (x, cq 3 0)] in
  raw_same (raw_multiply (fun a b => Ret (pauli_multiply 1 a b)) P Q) [(e, cq 3 0); (x, cq 6 0); (y, cq 0 2); (z, cq (-1) 0)] = true /\
  raw_same (raw_commutator 1 P Q) [(z, cq (-2) 0)] = true /\ raw_same (raw_anticommutator 1 P Q) [(e, cq 6 0); (x, cq 12 0); (y, cq 0 4)] = true /\
  Forall (fun q => pauli_wf 1 1 q /\ hs_hash q <> 0%N) [e; x; y; z] /\ pauli_safe 1 2.
Proof.
  cbv zeta. split; [vm_compute; reflexivity|]. split; [vm_compute; reflexivity|]. split; [vm_compute; reflexivity|]. split; [|vm_compute; reflexivity].
  repeat (constructor; [split; [right; split; [reflexivity|]; split; [intros k Hk; cbn in Hk; intuition lia|]; split; [cbn; lia|]; repeat constructor|discriminate]|]). constructor.
Qed.
Lemma scalar_example : forall R : rfield, let one := hseq_make 4 [] SPos in let word q := loc_wf [[2;2];[2;2]] 2 q in
  condensed word [(one, c1 : cx R)] /\ (forall q, word q -> hs_zero q = false -> hs_ops q = [] -> hs_hash q = 1%N) /\ raw_is_scalar [(one, c1 : cx R)] = true.
Proof.
  intros R one word. split; [|split].
  - split; [repeat constructor|]. intros x [<-|[]]. cbn [fst snd]. split; [|split; [reflexivity|split; [reflexivity|apply c1_neq_0]]].
    right. split; [reflexivity|]. split; [split; [intros x []|constructor]|cbn; lia].
  - intros q [->|(H & _ & _)] Z E; [discriminate|]. rewrite H, E. reflexivity.
  - vm_compute. reflexivity.
Qed.
