(** Removing a subgroup from the Cayley graph of a finite group does not disconnect it. *)
From Coq Require Import List Arith Bool Lia Permutation.
Import ListNotations.

Section Cut.
  Variables (E : Type) (dec : forall x y : E, {x = y} + {x <> y}) (all : list E).
  Variables (mul : E -> E -> E) (one : E) (inv : E -> E).
  Hypothesis all_nodup : NoDup all.
  Hypothesis all_in : forall x, In x all.
  Hypothesis assoc : forall x y z, mul x (mul y z) = mul (mul x y) z.
  Hypothesis left : forall x, mul one x = x.
  Hypothesis right : forall x, mul x one = x.
  Hypothesis inv_l : forall x, mul (inv x) x = one.
  Hypothesis inv_r : forall x, mul x (inv x) = one.
  Notation set := (E -> bool).
  Definition card (P : set) : nat := length (filter P all).
  Definition sub (P Q : set) : Prop := forall x, P x = true -> Q x = true.
  Definition any (P : set) : bool := existsb P all.
  Lemma any_spec P : any P = true <-> exists x, P x = true.
  Proof. unfold any. rewrite existsb_exists. split; [intros [x [_ H]]; now exists x|intros [x H]; exists x; split; [apply all_in|exact H]]. Qed.
  Lemma filter_le (P Q : set) l : (forall x, P x = true -> Q x = true) -> length (filter P l) <= length (filter Q l).
  Proof.
    intros H. induction l as [|x l IH]; cbn; [lia|]. specialize (H x). destruct (P x); [rewrite H by reflexivity; cbn; lia|destruct (Q x); cbn; lia].
  Qed.
  Lemma card_sub P Q : sub P Q -> card P <= card Q. Proof. intros H. now apply filter_le. Qed.
  Lemma card_ext P Q : (forall x, P x = Q x) -> card P = card Q.
  Proof. intros H. unfold card. now rewrite (filter_ext P Q H). Qed.
  Lemma card_sum P Q : card (fun x => P x || Q x) + card (fun x => P x && Q x) = card P + card Q.
  Proof. unfold card. clear. induction all as [|x l IH]; cbn; [reflexivity|]. destruct (P x), (Q x); cbn; lia. Qed.
  Lemma card_minus P Q : sub Q P -> card (fun x => P x && negb (Q x)) + card Q = card P.
  Proof.
    intros H. unfold card. revert H. clear. intros H. induction all as [|x l IH]; cbn; [reflexivity|]. specialize (H x). destruct (Q x); [rewrite H by reflexivity; cbn; lia|]. destruct (P x); cbn; lia.
  Qed.
  Lemma filter_strict (P Q : set) l : (forall x, P x = true -> Q x = true) -> length (filter Q l) <= length (filter P l) -> forall x, In x l -> Q x = true -> P x = true.
  Proof.
    intros H. induction l as [|y l IH]; intros L x I Qx; [contradiction|]. pose proof (filter_le P Q l H) as LE. specialize (H y) as Hy. cbn in L.
    destruct I as [->|I].
    - rewrite Qx in L. destruct (P x); [reflexivity|]. cbn in L. lia.
    - apply (IH); [|exact I|exact Qx]. destruct (P y) eqn:Py; [rewrite Hy in L by reflexivity; cbn in L; lia|destruct (Q y); cbn in L; lia].
  Qed.
  Lemma card_eq P Q : sub P Q -> card Q <= card P -> forall x, Q x = true -> P x = true.
  Proof. intros H L x Hx. now apply (filter_strict P Q all H L x (all_in x)). Qed.
  Lemma card_pos P x : P x = true -> 1 <= card P.
  Proof.
    intros H. unfold card. assert (I : In x (filter P all)) by (apply filter_In; split; [apply all_in|exact H]). destruct (filter P all); [contradiction|cbn; lia].
  Qed.
  Lemma card_witness P : 1 <= card P -> exists x, P x = true.
  Proof. intros H. unfold card in H. destruct (filter P all) as [|x l] eqn:F; [cbn in H; lia|]. exists x. assert (I : In x (filter P all)) by (rewrite F; now left). now apply filter_In in I. Qed.
  Definition full : nat := length all.
  Lemma card_full P : (forall x, P x = true) -> card P = full.
  Proof. intros H. unfold card, full. clear - H. induction all as [|x l IH]; cbn; [reflexivity|]. rewrite H. cbn. now rewrite IH. Qed.
  Lemma card_not P : card (fun x => negb (P x)) + card P = full.
  Proof. unfold card, full. clear - P. induction all as [|x l IH]; cbn; [reflexivity|]. destruct (P x); cbn; lia. Qed.
  (** translations *)
  Lemma cancel_l x y : mul (inv x) (mul x y) = y. Proof. now rewrite assoc, inv_l, left. Qed.
  Lemma cancel_l' x y : mul x (mul (inv x) y) = y. Proof. now rewrite assoc, inv_r, left. Qed.
  Lemma cancel_r x y : mul (mul y x) (inv x) = y. Proof. now rewrite <- assoc, inv_r, right. Qed.
  Lemma cancel_r' x y : mul (mul y (inv x)) x = y. Proof. now rewrite <- assoc, inv_l, right. Qed.
  Lemma card_bij (P Q : set) (f g : E -> E) : (forall x, g (f x) = x) -> (forall x, f (g x) = x) -> (forall x, Q (f x) = P x) -> card P = card Q.
  Proof.
    intros Hgf Hfg Hpq. unfold card. rewrite <- (map_length f). apply Permutation_length. apply NoDup_Permutation.
    - apply FinFun.Injective_map_NoDup; [|now apply NoDup_filter]. intros a b Hab. now rewrite <- (Hgf a), <- (Hgf b), Hab.
    - now apply NoDup_filter.
    - intros y. split.
      + intros I. apply in_map_iff in I. destruct I as [x [<- I]]. apply filter_In in I. apply filter_In. split; [apply all_in|]. rewrite Hpq. apply I.
      + intros I. apply filter_In in I. apply in_map_iff. exists (g y). split; [apply Hfg|]. apply filter_In. split; [apply all_in|]. rewrite <- Hpq, Hfg. apply I.
  Qed.
  Definition shift (x : E) (P : set) : set := fun y => P (mul (inv x) y).
  Lemma card_shift x P : card (shift x P) = card P.
  Proof. symmetry. apply (card_bij P (shift x P) (mul x) (mul (inv x))); [apply cancel_l|apply cancel_l'|]. intros y. unfold shift. now rewrite cancel_l. Qed.
  Lemma card_rshift x P : card (fun y => P (mul y (inv x))) = card P.
  Proof. symmetry. apply (card_bij P _ (fun y => mul y x) (fun y => mul y (inv x))); [intros y; apply cancel_r|intros y; apply cancel_r'|]. intros y. now rewrite cancel_r. Qed.
  Lemma card_inv P : card (fun y => P (inv y)) = card P.
  Proof.
    assert (II : forall x, inv (inv x) = x). { intros x. rewrite <- (right (inv (inv x))), <- (inv_l x). apply cancel_l. }
    symmetry. apply (card_bij P _ inv inv II II). intros y. now rewrite II.
  Qed.
  Lemma inv_inv x : inv (inv x) = x. Proof. rewrite <- (right (inv (inv x))), <- (inv_l x). apply cancel_l. Qed.
  Lemma inv_mul x y : inv (mul x y) = mul (inv y) (inv x).
  Proof.
    assert (X : mul (mul x y) (mul (inv y) (inv x)) = one) by (rewrite assoc, cancel_r; apply inv_r).
    rewrite <- (right (inv (mul x y))), <- X. apply cancel_l.
  Qed.

  (** the subgroup *)
  Variable H : set.
  Hypothesis H_one : H one = true.
  Hypothesis H_mul : forall x y, H x = true -> H y = true -> H (mul x y) = true.
  Hypothesis H_inv : forall x, H x = true -> H (inv x) = true.
  (** products of sets; [times F T] is F T *)
  Definition times (F T : set) : set := fun y => any (fun x => F x && T (mul (inv x) y)).
  Lemma times_spec F T y : times F T y = true <-> exists x t, F x = true /\ T t = true /\ y = mul x t.
  Proof.
    unfold times. rewrite any_spec. split.
    - intros [x Hx]. apply andb_true_iff in Hx. destruct Hx as [A B]. exists x, (mul (inv x) y). split; [exact A|]. split; [exact B|]. now rewrite cancel_l'.
    - intros [x [t [A [B ->]]]]. exists x. now rewrite A, cancel_l, B.
  Qed.
  Definition rinv (F : set) : Prop := forall x h, F x = true -> H h = true -> F (mul x h) = true.
  (** good connection sets *)
  Record good (T : set) : Prop := mk_good {
    g_one : T one = true;
    g_left : forall h t, H h = true -> T t = true -> T (mul h t) = true;
    g_right : forall t h, T t = true -> H h = true -> T (mul t h) = true;
    g_conn : forall F, (exists x, F x = true) -> (forall x t, F x = true -> T t = true -> F (mul x t) = true) -> forall x, F x = true;
    g_two : card H < card (fun x => T x && negb (H x)) }.
  Definition opp (T : set) : set := fun y => T (inv y).
  Lemma good_opp T : good T -> good (opp T).
  Proof.
    intros [A B C D F]. constructor.
    - unfold opp. replace (inv one) with one; [exact A|]. rewrite <- (right (inv one)). symmetry. apply inv_l.
    - intros h t Hh Ht. unfold opp in *. rewrite inv_mul. apply C; [exact Ht|now apply H_inv].
    - intros t h Ht Hh. unfold opp in *. rewrite inv_mul. apply B; [now apply H_inv|exact Ht].
    - intros P [x0 Hx0] Cl x. destruct (P x) eqn:Px; [reflexivity|exfalso].
      assert (Z : negb (P x0) = true).
      { apply (D (fun y => negb (P y))); [exists x; now rewrite Px|]. intros y t Hy Ht. apply negb_true_iff in Hy. apply negb_true_iff. destruct (P (mul y t)) eqn:Pt; [|reflexivity].
        rewrite <- Hy, <- (cancel_r t y). symmetry. apply Cl; [exact Pt|]. unfold opp. now rewrite inv_inv. }
      rewrite Hx0 in Z. discriminate.
    - rewrite <- (card_inv (fun x => T x && negb (H x))) in F. unfold opp. rewrite (card_ext (fun x => T (inv x) && negb (H x)) (fun y => T (inv y) && negb (H (inv y)))); [exact F|]. intros x. f_equal. f_equal.
      destruct (H x) eqn:Hx; [symmetry; now apply H_inv|]. destruct (H (inv x)) eqn:Hi; [|reflexivity]. apply H_inv in Hi. rewrite inv_inv in Hi. congruence.
  Qed.
  Lemma rinv_card F : rinv F -> (exists x, F x = true) -> card H <= card F.
  Proof.
    intros R [x Hx]. rewrite <- (card_shift x H). apply card_sub. intros y Hy. unfold shift in Hy. rewrite <- (cancel_l' x y). now apply R.
  Qed.
  Lemma times_rinv F T : good T -> rinv (times F T).
  Proof.
    intros Gd y h Hy Hh. apply times_spec in Hy. destruct Hy as [x [t [A [B ->]]]]. apply times_spec. exists x, (mul t h). split; [exact A|]. split; [now apply (g_right T Gd)|]. now rewrite assoc.
  Qed.
  Lemma times_sub F T : good T -> sub F (times F T).
  Proof. intros Gd x Hx. apply times_spec. exists x, one. split; [exact Hx|]. split; [apply (g_one T Gd)|]. now rewrite right. Qed.
  Lemma diff_rinv P Q : rinv P -> rinv Q -> rinv (fun x => P x && negb (Q x)).
  Proof.
    intros A B x h Hx Hh. apply andb_true_iff in Hx. destruct Hx as [X Y]. rewrite (A x h X Hh). cbn. apply negb_true_iff in Y. apply negb_true_iff. destruct (Q (mul x h)) eqn:Qx; [|reflexivity].
    rewrite <- Y, <- (cancel_r h x). symmetry. apply B; [exact Qx|now apply H_inv].
  Qed.
  Lemma boundary_ge F T : good T -> rinv F -> (exists x, F x = true) -> (exists y, times F T y = false) -> card F + card H <= card (times F T).
  Proof.
    intros Gd R Ne [y Hy]. rewrite <- (card_minus (times F T) F (times_sub F T Gd)). enough (card H <= card (fun x => times F T x && negb (F x))) by lia.
    apply rinv_card; [apply diff_rinv; [now apply times_rinv|exact R]|]. apply any_spec. destruct (any (fun x => times F T x && negb (F x))) eqn:Ha; [reflexivity|exfalso].
    assert (Z : F y = true).
    { apply (g_conn T Gd F Ne). intros x t Hx Ht. destruct (F (mul x t)) eqn:Fx; [reflexivity|exfalso]. assert (any (fun x => times F T x && negb (F x)) = true); [|congruence].
      apply any_spec. exists (mul x t). rewrite Fx. cbn. rewrite andb_true_r. apply times_spec. now exists x, t. }
    apply (times_sub F T Gd) in Z. congruence.
  Qed.
  Definition fragment (T F : set) : Prop := rinv F /\ (exists x, F x = true) /\ (exists y, times F T y = false) /\ card (times F T) <= card F + card H.
  Lemma fragment_shift T F x : fragment T F -> fragment T (shift x F).
  Proof.
    assert (TS : forall y, times (shift x F) T y = shift x (times F T) y).
    { intros y. apply eq_true_iff_eq. unfold shift at 2. rewrite !times_spec. split.
      - intros [z [t [A [B ->]]]]. exists (mul (inv x) z), t. split; [exact A|]. split; [exact B|]. now rewrite assoc.
      - intros [z [t [A [B C]]]]. exists (mul x z), t. unfold shift. rewrite cancel_l. split; [exact A|]. split; [exact B|]. rewrite <- assoc, <- C. now rewrite cancel_l'. }
    intros [A [[z Hz] [[y Hy] D]]]. split; [|split; [|split]].
    - intros a h Ha Hh. unfold shift in *. rewrite assoc. now apply A.
    - exists (mul x z). unfold shift. now rewrite cancel_l.
    - exists (mul x y). rewrite TS. unfold shift. now rewrite cancel_l.
    - rewrite (card_ext _ _ TS), !card_shift. exact D.
  Qed.
  Lemma fragment_opp T F : good T -> fragment T F -> fragment (opp T) (fun x => negb (times F T x)).
  Proof.
    intros Gd [R [[x0 Hx0] [[y0 Hy0] L]]]. set (F' := fun x => negb (times F T x)). assert (Dis : sub (times F' (opp T)) (fun x => negb (F x))).
    { intros y Hy. apply times_spec in Hy. destruct Hy as [x [t [A [B ->]]]]. apply negb_true_iff. destruct (F (mul x t)) eqn:Fx; [exfalso|reflexivity].
      unfold F' in A. apply negb_true_iff in A. assert (times F T x = true); [|congruence]. apply times_spec. exists (mul x t), (inv t). split; [exact Fx|]. split; [exact B|]. now rewrite cancel_r. }
    split; [|split; [|split]].
    - intros x h Hx Hh. unfold F' in *. apply negb_true_iff in Hx. apply negb_true_iff. destruct (times F T (mul x h)) eqn:Tx; [|reflexivity]. rewrite <- Hx, <- (cancel_r h x). symmetry. apply times_rinv; [exact Gd|exact Tx|now apply H_inv].
    - exists y0. unfold F'. now rewrite Hy0.
    - exists x0. destruct (times F' (opp T) x0) eqn:Tx; [|reflexivity]. apply Dis in Tx. rewrite Hx0 in Tx. discriminate.
    - pose proof (card_sub _ _ Dis) as C1. pose proof (card_not F) as C2. pose proof (card_not (times F T)) as C3. unfold F' at 2. lia.
  Qed.
  Lemma no_fragment : forall n T F, card F = n -> good T -> fragment T F -> False.
  Proof.
    intros n. induction n as [n IH] using lt_wf_ind. intros T F0 Hn0 Gd Fr0. pose proof Fr0 as [_ [[x0 Hx0] _]].
    set (F := shift (inv x0) F0). assert (Fr : fragment T F) by now apply fragment_shift. assert (Hn : card F = n) by (unfold F; now rewrite card_shift).
    assert (F1 : F one = true) by (unfold F, shift; now rewrite inv_inv, right). clearbody F. clear F0 Hn0 Fr0 x0 Hx0.
    pose proof Fr as [R [Ne [Pr L]]]. pose proof (boundary_ge F T Gd R Ne Pr) as GE.
    assert (Inv : forall x, F x = true -> sub F (shift x F)).
    { intros x Hx. set (F' := shift x F). assert (Fr' : fragment T F') by now apply fragment_shift. pose proof Fr' as [R' [Ne' [Pr' L']]].
      set (I := fun y => F y && F' y). set (U := fun y => F y || F' y).
      assert (C1 : card U + card I = n + n) by (unfold U, I; rewrite card_sum, Hn; unfold F'; now rewrite card_shift, Hn).
      assert (HI : I x = true) by (unfold I, F', shift; rewrite Hx, inv_l, F1; reflexivity).
      assert (RI : rinv I). { intros a h Ha Hh. unfold I in *. apply andb_true_iff in Ha. destruct Ha as [A B]. now rewrite (R a h A Hh), (R' a h B Hh). }
      assert (RU : rinv U). { intros a h Ha Hh. unfold U in *. apply orb_true_iff in Ha. apply orb_true_iff. destruct Ha as [A|A]; [left; now apply R|right; now apply R']. }
      assert (SI : sub (times I T) (fun y => times F T y && times F' T y)).
      { intros y Hy. apply times_spec in Hy. destruct Hy as [a [t [A [B ->]]]]. unfold I in A. apply andb_true_iff in A. destruct A as [A1 A2]. apply andb_true_iff. split; apply times_spec; now exists a, t. }
      assert (SU : sub (times U T) (fun y => times F T y || times F' T y)).
      { intros y Hy. apply times_spec in Hy. destruct Hy as [a [t [A [B ->]]]]. unfold U in A. apply orb_true_iff in A. apply orb_true_iff. destruct A as [A|A]; [left|right]; apply times_spec; now exists a, t. }
      apply card_sub in SU. pose proof (card_sum (times F T) (times F' T)) as C2. assert (Cf' : card F' = n) by (unfold F'; now rewrite card_shift).
      destruct Pr as [y0 Hy0]. assert (PI : exists y, times I T y = false).
      { exists y0. destruct (times I T y0) eqn:Ty; [|reflexivity]. apply SI in Ty. rewrite Hy0 in Ty. discriminate. }
      pose proof (boundary_ge I T Gd RI (ex_intro _ x HI) PI) as GI. apply card_sub in SI. pose proof (card_pos I x HI) as P1.
      destruct (any (fun y => negb (times U T y))) eqn:AU.
      - apply any_spec in AU. destruct AU as [y Hy]. apply negb_true_iff in Hy. assert (PU : exists y, times U T y = false) by now exists y.
        assert (NU : exists a, U a = true) by (exists x; unfold U; now rewrite Hx). pose proof (boundary_ge U T Gd RU NU PU) as GU.
        assert (FI : fragment T I) by (split; [exact RI|split; [now exists x|split; [exact PI|lia]]]).
        assert (SF : sub I F) by (intros a Ha; unfold I in Ha; now apply andb_true_iff in Ha). pose proof (card_sub I F SF) as LI.
        destruct (Nat.eq_dec (card I) n) as [En|Nn].
        + intros a Ha. assert (Ia : I a = true) by (apply (card_eq I F SF); [lia|exact Ha]). unfold I in Ia. now apply andb_true_iff in Ia.
        + exfalso. apply (IH (card I) ltac:(lia) T I eq_refl Gd FI).
      - exfalso. assert (CU : card (times U T) = full).
        { apply card_full. intros y. destruct (times U T y) eqn:Ty; [reflexivity|]. assert (any (fun y => negb (times U T y)) = true); [|congruence]. apply any_spec. exists y. now rewrite Ty. }
        pose proof (fragment_opp T F Gd Fr) as Fo. pose proof (card_not (times F T)) as Cn.
        destruct (le_lt_dec n (card (fun y => negb (times F T y)))) as [Le|Lt]; [|exact (IH _ Lt (opp T) _ eq_refl (good_opp T Gd) Fo)]. lia. }
    (* F is a subgroup equal to H *)
    assert (Inv' : forall x y, F x = true -> F y = true -> F (mul x y) = true).
    { intros x y Hx Hy. assert (Z : shift x F (mul x y) = true) by (unfold shift; now rewrite cancel_l). apply (card_eq F (shift x F) (Inv x Hx)); [rewrite card_shift; lia|exact Z]. }
    assert (Sb : forall x y, F x = true -> F (mul x y) = true -> F y = true). { intros x y Hx Hy. pose proof (Inv x Hx _ Hy) as Z. unfold shift in Z. now rewrite cancel_l in Z. }
    assert (HF : sub H F). { intros h Hh. rewrite <- (left h). now apply R. }
    assert (Cm := card_minus (times F T) F (times_sub F T Gd)). assert (exists w, times F T w && negb (F w) = true) as [w Hw].
    { apply card_witness. pose proof (card_pos H one H_one). lia. }
    apply andb_true_iff in Hw. destruct Hw as [W1 W2]. apply negb_true_iff in W2.
    assert (LF : card F <= card H).
    { rewrite <- (card_rshift w F). transitivity (card (fun y => times F T y && negb (F y))); [|lia]. apply card_sub.
      intros y Hy. set (x := mul y (inv w)) in *. assert (Ey : y = mul x w) by (unfold x; now rewrite cancel_r'). rewrite Ey. apply andb_true_iff. split.
        + apply times_spec in W1. destruct W1 as [a [t [A [B ->]]]]. apply times_spec. exists (mul x a), t. split; [now apply Inv'|]. split; [exact B|]. now rewrite assoc.
        + apply negb_true_iff. destruct (F (mul x w)) eqn:Fx; [|reflexivity]. rewrite <- W2. symmetry. now apply (Sb x). }
    assert (FH : forall x, F x = true -> H x = true) by (apply (card_eq H F HF LF)).
    assert (SH : sub (fun x => T x && negb (H x)) (fun y => times F T y && negb (F y))).
    { intros t Ht. apply andb_true_iff in Ht. destruct Ht as [A B]. apply andb_true_iff. split; [apply times_spec; exists one, t; split; [exact F1|split; [exact A|now rewrite left]]|].
      apply negb_true_iff in B. apply negb_true_iff. destruct (F t) eqn:Ft; [|reflexivity]. apply FH in Ft. congruence. }
    apply card_sub in SH. pose proof (g_two T Gd). lia.
  Qed.

  (** the set [M], outside the subgroup and closed under right multiplication with the generators except for falling into the subgroup, is all
      the rest *)
  Variables (S M : set) (g : E).
  Hypothesis S_gen : forall F, F one = true -> (forall x s, F x = true -> S s = true -> F (mul x s) = true) -> forall x, F x = true.
  Hypothesis H_gen : forall F : set, F one = true -> (forall x s, F x = true -> S s = true -> H s = true -> F (mul x s) = true) -> forall h, H h = true -> F h = true.
  Hypothesis M_out : forall x, M x = true -> H x = false.
  Hypothesis M_left : forall h x, H h = true -> M x = true -> M (mul h x) = true.
  Hypothesis M_step : forall x s, M x = true -> S s = true -> M (mul x s) = true \/ H (mul x s) = true.
  Hypothesis g_in : S g = true.
  Hypothesis g_M : M g = true.
  Lemma S_conn F : (exists x, F x = true) -> (forall x s, F x = true -> S s = true -> F (mul x s) = true) -> forall x, F x = true.
  Proof.
    intros [x0 Hx0] Cl x. assert (Z : shift (inv x0) F (mul (inv x0) x) = true); [|unfold shift in Z; now rewrite inv_inv, cancel_l' in Z].
    apply S_gen; [unfold shift; now rewrite inv_inv, right|]. intros y s Hy Hs. unfold shift in *. rewrite assoc. now apply Cl.
  Qed.
  Lemma no_cut : forall x, M x = true \/ H x = true.
  Proof.
    assert (Rm : forall h, H h = true -> forall x, M x = true -> M (mul x h) = true).
    { intros h Hh. assert (Z : forallb (fun x => implb (M x) (M (mul x h))) all = true).
      { apply (H_gen (fun h => forallb (fun x => implb (M x) (M (mul x h))) all)); [| |exact Hh].
        - apply forallb_forall. intros x _. rewrite right. now destruct (M x).
        - intros y s Hy Ss Hs. apply forallb_forall. intros x _. destruct (M x) eqn:Mx; [cbn|reflexivity]. rewrite forallb_forall in Hy. specialize (Hy x (all_in x)). rewrite Mx in Hy. cbn in Hy.
          rewrite assoc. destruct (M_step _ s Hy Ss) as [A|A]; [exact A|exfalso]. apply M_out in Hy. rewrite <- (cancel_r s (mul x y)) in Hy. rewrite H_mul in Hy; [discriminate|exact A|now apply H_inv]. }
      intros x Mx. rewrite forallb_forall in Z. specialize (Z x (all_in x)). now rewrite Mx in Z. }
    set (W := fun x => M x || H x). intros x. apply orb_true_iff. change (W x = true). destruct (W x) eqn:Wx; [reflexivity|exfalso].
    set (T := fun y => any (fun a => H a && any (fun b => H b && (S (mul (mul (inv a) y) (inv b)) || H y)))).
    assert (TS : forall y, T y = true <-> (H y = true \/ exists a s b, H a = true /\ S s = true /\ H b = true /\ y = mul (mul a s) b)).
    { intros y. unfold T. rewrite any_spec. split.
      - intros [a Ha]. apply andb_true_iff in Ha. destruct Ha as [Ha Hb]. apply any_spec in Hb. destruct Hb as [b Hb]. apply andb_true_iff in Hb. destruct Hb as [Hb Hc]. apply orb_true_iff in Hc.
        destruct Hc as [Hc|Hc]; [right|now left]. exists a, (mul (mul (inv a) y) (inv b)), b. split; [exact Ha|]. split; [exact Hc|]. split; [exact Hb|]. now rewrite <- (assoc a), cancel_r', cancel_l'.
      - intros [Hy|[a [s [b [Ha [Hs [Hb ->]]]]]]].
        + exists one. rewrite H_one. cbn. apply any_spec. exists one. rewrite H_one, Hy. cbn. apply orb_true_r.
        + exists a. rewrite Ha. cbn. apply any_spec. exists b. rewrite Hb. cbn. rewrite <- (assoc a s b), cancel_l, cancel_r, Hs. reflexivity. }
    assert (sN : exists s, S s = true /\ W s = false).
    { destruct (any (fun s => S s && negb (W s))) eqn:As; [apply any_spec in As; destruct As as [s Hs]; apply andb_true_iff in Hs; exists s; split; [apply Hs|now apply negb_true_iff]|exfalso].
      assert (Z : W x = true); [|congruence]. apply S_conn; [exists one; unfold W; rewrite H_one; apply orb_true_r|]. intros y s Hy Hs. unfold W in Hy. apply orb_true_iff in Hy. destruct Hy as [Hy|Hy].
      - unfold W. apply orb_true_iff. now apply M_step.
      - assert (Ws : W s = true). { destruct (W s) eqn:Ws; [reflexivity|]. assert (any (fun s => S s && negb (W s)) = true); [|congruence]. apply any_spec. exists s. now rewrite Hs, Ws. }
        unfold W in *. apply orb_true_iff in Ws. apply orb_true_iff. destruct Ws as [Ws|Ws]; [left; now apply M_left|right; now apply H_mul]. }
    destruct sN as [s [Ss Ws]].
    assert (Gd : good T).
    { constructor.
      - apply TS. now left.
      - intros h t Hh Ht. apply TS in Ht. apply TS. destruct Ht as [Ht|[a [u [b [Ha [Hs [Hb ->]]]]]]]; [left; now apply H_mul|right]. exists (mul h a), u, b. split; [now apply H_mul|]. split; [exact Hs|]. split; [exact Hb|]. now rewrite !assoc.
      - intros t h Ht Hh. apply TS in Ht. apply TS. destruct Ht as [Ht|[a [u [b [Ha [Hs [Hb ->]]]]]]]; [left; now apply H_mul|right]. exists a, u, (mul b h). split; [exact Ha|]. split; [exact Hs|]. split; [now apply H_mul|]. now rewrite !assoc.
      - intros F Ne Cl. apply S_conn; [exact Ne|]. intros y u Hy Hs. apply Cl; [exact Hy|]. apply TS. right. exists one, u, one. rewrite H_one, left, right. auto.
      - assert (Dj : forall y, M y = true -> W y = true) by (intros y Hy; unfold W; now rewrite Hy).
        assert (Wl : forall h y, H h = true -> W (mul h y) = W y).
        { intros h y Hh. apply eq_true_iff_eq. unfold W. rewrite !orb_true_iff. split; intros [A|A].
          - left. rewrite <- (cancel_l h y). apply M_left; [now apply H_inv|exact A].
          - right. rewrite <- (cancel_l h y). apply H_mul; [now apply H_inv|exact A].
          - left. now apply M_left.
          - right. now apply H_mul. }
        assert (Cg : card (fun y => H (mul y (inv g))) = card H) by apply card_rshift. assert (Cs : card (fun y => H (mul y (inv s))) = card H) by apply card_rshift.
        pose proof (card_sum (fun y => H (mul y (inv g))) (fun y => H (mul y (inv s)))) as C.
        assert (Z : card (fun y => H (mul y (inv g)) && H (mul y (inv s))) = 0).
        { destruct (card (fun y => H (mul y (inv g)) && H (mul y (inv s)))) eqn:Ec; [reflexivity|exfalso]. destruct (card_witness (fun y => H (mul y (inv g)) && H (mul y (inv s))) ltac:(lia)) as [y Hy].
          apply andb_true_iff in Hy. destruct Hy as [A B]. assert (W y = true) by (rewrite <- (cancel_r' g y), Wl by exact A; now apply Dj). assert (W y = false) by (rewrite <- (cancel_r' s y), Wl by exact B; exact Ws). congruence. }
        assert (P1 : 1 <= card H) by (apply (card_pos H one H_one)).
        assert (L : card (fun y => H (mul y (inv g)) || H (mul y (inv s))) <= card (fun x => T x && negb (H x))).
        { apply card_sub. intros y Hy. apply orb_true_iff in Hy. apply andb_true_iff. destruct Hy as [A|A]; (split; [apply TS; right; eexists _, _, one; split; [exact A|]; split; [|split; [exact H_one|rewrite right, cancel_r'; reflexivity]]; assumption|]).
          - apply negb_true_iff. apply M_out. rewrite <- (cancel_r' g y). now apply M_left.
          - apply negb_true_iff. assert (W y = false) as Wy by (rewrite <- (cancel_r' s y), Wl by exact A; exact Ws). unfold W in Wy. now apply orb_false_iff in Wy. }
        lia. }
    assert (Wr : forall y h, W y = true -> H h = true -> W (mul y h) = true).
    { intros y h Hy Hh. unfold W in *. apply orb_true_iff in Hy. apply orb_true_iff. destruct Hy as [Hy|Hy]; [left; now apply Rm|right; now apply H_mul]. }
    assert (MT : sub (times M T) W).
    { intros y Hy. apply times_spec in Hy. destruct Hy as [a [t [A [B ->]]]]. apply TS in B. destruct B as [B|[c [u [b [Hc [Hs [Hb ->]]]]]]]; [apply Wr; [unfold W; now rewrite A|exact B]|].
      rewrite assoc. apply Wr; [|exact Hb]. rewrite assoc. unfold W. apply orb_true_iff. apply M_step; [now apply Rm|exact Hs]. }
    apply (no_fragment (card M) T M eq_refl Gd). split; [intros y h Hy Hh; now apply Rm|]. split; [now exists g|]. split.
    - exists x. destruct (times M T x) eqn:Tx; [|reflexivity]. apply MT in Tx. congruence.
    - pose proof (card_sub _ _ MT) as L1. pose proof (card_sum M H). unfold W in L1. lia.
  Qed.
End Cut.
