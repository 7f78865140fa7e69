(** Proofs about polynomials of operators. *)
From Coq Require Import List NArith ZArith Arith Bool Sorted Lia.
From Verif Require Import CoreModel CoreProofs FieldModel FieldProofs SymModel SymSpec PolyModel AlgModel PauliModel RawModel RawSpec.
Import ListNotations.

Lemma pos_same q : hs_sign q = SPos -> pos q = q.
Proof. destruct q as [h o s]. cbn. now intros ->. Qed.
Lemma pos_sign q : hs_sign (pos q) = SPos. Proof. reflexivity. Qed.
Lemma hseq_ext a b : hs_hash a = hs_hash b -> hs_ops a = hs_ops b -> hs_sign a = hs_sign b -> a = b.
Proof. destruct a, b. cbn. congruence. Qed.

Section Space.
  Variable R : rfield.
  Variable A : cspace R.
  Add Field Rf : (r_field R).
  Add Field Cf : (cx_field R).
  Notation raw := (list (hseq * cx R)).
  Notation "x +v y" := (@v_add R A x y) (at level 50, left associativity).
  Notation "a *v x" := (@v_scale R A a x) (at level 40).
  Lemma v_0_r x : x +v v_0 = x. Proof. rewrite v_comm. apply v_0_l. Qed.
  Lemma v_scale_zero a : a *v v_0 = v_0.
  Proof. rewrite <- (v_scale_0 R A v_0) at 1. rewrite <- v_scale_mul. replace (cmul a c0) with (@c0 R) by ring. apply v_scale_0. Qed.
  Lemma v_shuffle x y z u : (x +v y) +v (z +v u) = (x +v z) +v (y +v u).
  Proof. rewrite <- !v_assoc. f_equal. rewrite !v_assoc. f_equal. apply v_comm. Qed.
  Lemma v_left x y z : x +v (y +v z) = y +v (x +v z).
  Proof. rewrite !v_assoc. f_equal. apply v_comm. Qed.
  Definition v_opp (x : A) : A := copp c1 *v x.
  Lemma v_opp_r x : x +v v_opp x = v_0.
  Proof. unfold v_opp. rewrite <- (v_scale_1 R A x) at 1. rewrite <- v_add_scale. replace (cadd c1 (copp c1)) with (@c0 R) by ring. apply v_scale_0. Qed.

  Variable V : hseq -> Prop.
  Hypothesis HX : hash_exact V.
  Hypothesis PH : phaseless V.
  Variable rep : hseq -> A.
  Hypothesis RP : represents V rep.
  Notation value := (poly_in rep).

  Lemma value_cons x (p : raw) : value (x :: p) = (snd x *v rep (fst x)) +v value p. Proof. reflexivity. Qed.
  Lemma value_nil : value (@nil (hseq * cx R)) = v_0. Proof. reflexivity. Qed.
  Lemma value_app (p q : raw) : value (p ++ q) = value p +v value q.
  Proof. induction p as [|x p IH]; cbn [app]; [now rewrite value_nil, v_0_l|]. now rewrite !value_cons, IH, v_assoc. Qed.
  Lemma raw_elem_pos q w : fst (@raw_elem R q w) = pos q /\ hs_sign (fst (@raw_elem R q w)) = SPos.
  Proof. unfold raw_elem. destruct (hs_sign q) eqn:E; cbn; auto. split; [|exact E]. symmetry. now apply pos_same. Qed.
  Lemma raw_elem_value q w : V q -> snd (raw_elem q w) *v rep (fst (raw_elem q w)) = w *v rep q.
  Proof.
    intro Vq. rewrite (rp_phase V rep RP q Vq). rewrite <- v_scale_mul. destruct (raw_elem_pos q w) as [-> _]. f_equal. unfold raw_elem.
    destruct (hs_sign q); cbn [snd sphase]; ring.
  Qed.
  Lemma collect_value x (m : raw) : V (fst x) -> hs_sign (fst x) = SPos -> raw_wf V m -> value (collect x m) = (snd x *v rep (fst x)) +v value m.
  Proof.
    intros Vx Sx. induction m as [|y m IH]; intro F; cbn [collect]; [reflexivity|]. inversion F as [|? ? [Vy Sy] F']; subst.
    destruct (N.ltb_spec (hs_hash (fst x)) (hs_hash (fst y))); [reflexivity|]. destruct (N.eqb_spec (hs_hash (fst x)) (hs_hash (fst y))) as [E|E].
    - rewrite !value_cons. cbn [fst snd]. assert (fst x = fst y) as -> by (apply hseq_ext; auto; congruence). rewrite v_add_scale, !v_assoc. f_equal. apply v_comm.
    - rewrite !value_cons, (IH F'). apply v_left.
  Qed.
  Lemma collect_wf x (m : raw) : V (fst x) -> hs_sign (fst x) = SPos -> raw_wf V m -> raw_wf V (collect x m).
  Proof.
    intros Vx Sx. induction m as [|y m IH]; intro F; cbn [collect]; [repeat constructor; auto|]. inversion F as [|? ? [Vy Sy] F']; subst.
    destruct (N.ltb _ _); [constructor; auto; split; auto|]. destruct (N.eqb _ _); constructor; auto. apply IH, F'.
  Qed.
  Lemma condense_value (p : raw) : raw_wf V p -> value (condense p) = value p.
  Proof.
    intro F. unfold condense. set (p1 := match p with [x] => if hs_zero (fst x) || is_zero (snd x) then [] else p | _ => p end).
    assert (E1 : raw_wf V p1 /\ value p1 = value p).
    { subst p1. destruct p as [|x [|y p]]; auto. destruct (hs_zero (fst x)) eqn:Z; cbn [orb].
      - split; [constructor|]. rewrite value_cons, value_nil, (rp_zero V rep RP _ Z), v_scale_zero. now rewrite v_0_l.
      - destruct (is_zero (snd x)) eqn:W; [|auto]. split; [constructor|]. unfold is_zero in W. apply ceqb_spec in W. rewrite value_cons, value_nil, W, v_scale_0. now rewrite v_0_l. }
    clearbody p1. destruct E1 as [F1 E1]. rewrite <- E1. clear p F E1.
    assert (E2 : forall m : raw, value (filter (fun x => negb (is_zero (snd x))) m) = value m).
    { induction m as [|x m IH]; [reflexivity|]. cbn [filter]. destruct (is_zero (snd x)) eqn:W; cbn [negb]; [|now rewrite !value_cons, IH].
      unfold is_zero in W. apply ceqb_spec in W. now rewrite IH, value_cons, W, v_scale_0, v_0_l. }
    rewrite E2. enough (G : forall m : raw, raw_wf V m -> value (fold_left (fun m x => if hs_zero (fst x) then m else collect x m) p1 m) = value m +v value p1).
    { rewrite G; [|constructor]. now rewrite value_nil, v_0_l. }
    induction p1 as [|x p IH]; intros m Fm; cbn [fold_left]; [now rewrite value_nil, v_0_r|]. inversion F1 as [|? ? [Vx Sx] F']; subst. rewrite (IH F'); [|destruct (hs_zero _); [exact Fm|now apply collect_wf]].
    rewrite value_cons. destruct (hs_zero (fst x)) eqn:Z.
    - now rewrite (rp_zero V rep RP _ Z), v_scale_zero, v_0_l.
    - rewrite collect_value by assumption. rewrite v_assoc. f_equal. apply v_comm.
  Qed.
  Lemma neg_value (p : raw) : value (map (fun x => (fst x, copp (snd x))) p) = copp c1 *v value p.
  Proof.
    induction p as [|x p IH]; cbn [map]; [now rewrite value_nil, v_scale_zero|]. rewrite !value_cons, IH, v_scale_add, <- v_scale_mul. cbn [fst snd]. do 2 f_equal. ring.
  Qed.
  Lemma raw_add_value (p q : raw) : raw_wf V p -> raw_wf V q -> value (raw_add p q) = value p +v value q.
  Proof. intros P Q. unfold raw_add. rewrite condense_value; [apply value_app|]. now apply Forall_app. Qed.
  Lemma neg_wf (q : raw) : raw_wf V q -> raw_wf V (map (fun x => (fst x, copp (snd x))) q).
  Proof. intro Q. unfold raw_wf in *. rewrite Forall_map. cbn [fst]. exact Q. Qed.
  Lemma raw_subtract_value (p q : raw) : raw_wf V p -> raw_wf V q -> value (raw_subtract p q) = value p +v (copp c1 *v value q).
  Proof. intros P Q. unfold raw_subtract. rewrite condense_value; [rewrite value_app; now rewrite neg_value|]. apply Forall_app. split; [exact P|now apply neg_wf]. Qed.

  (** products *)
  Section Product.
    Variables (op : hseq -> hseq -> res hseq) (f : hseq -> hseq -> hseq) (wt : cx R -> cx R -> cx R).
    Variables (VP VQ : hseq -> Prop).
    Hypothesis OP : forall a b, VP a -> VQ b -> op a b = Ret (f a b).
    Hypothesis FV : forall a b, VP a -> VQ b -> V (f a b).
    Let over (U : hseq -> Prop) (p : raw) := Forall (fun x => U (fst x)) p.
    Notation term x y := (wt (snd x) (snd y) *v rep (f (fst x) (fst y))).
    Lemma product_row_value x (q : raw) : VP (fst x) -> over VQ q ->
      exists r, product_row op wt x q = Ret r /\ raw_wf V r /\ value r = fold_right (fun y s' => term x y +v s') v_0 q.
    Proof.
      intros Vx. induction q as [|y q IH]; intro F; cbn [product_row].
      - exists []. repeat split; constructor.
      - inversion F as [|? ? Vy F']; subst. destruct (IH F') as [r [E [W Val]]]. rewrite (OP _ _ Vx Vy), E. cbn [bind]. eexists. split; [reflexivity|].
        destruct (raw_elem_pos (f (fst x) (fst y)) (wt (snd x) (snd y))) as [E1 E2]. split.
        + constructor; [|exact W]. split; [rewrite E1; apply PH; auto|exact E2].
        + cbn [fold_right]. rewrite value_cons, Val, raw_elem_value by auto. reflexivity.
    Qed.
    Lemma product_terms_value (p q : raw) : over VP p -> over VQ q ->
      exists r, product_terms op wt p q = Ret r /\ raw_wf V r /\ value r = all_pairs (fun x y => term x y) p q.
    Proof.
      intros Fp Fq. induction p as [|x p IH]; cbn [product_terms].
      - exists []. repeat split; constructor.
      - inversion Fp as [|? ? Vx F']; subst. destruct (IH F') as [r [E [W Val]]]. destruct (product_row_value x q Vx Fq) as [r' [E' [W' Val']]].
        rewrite E', E. cbn [bind]. eexists. split; [reflexivity|]. split; [now apply Forall_app|]. rewrite value_app, Val, Val'. reflexivity.
    Qed.
    Lemma distributed_value (p q : raw) : over VP p -> over VQ q ->
      exists r, distributed_product op wt p q = Ret r /\ value r = all_pairs (fun x y => term x y) p q.
    Proof.
      intros Fp Fq. destruct (product_terms_value p q Fp Fq) as [r [E [W Val]]]. unfold distributed_product. rewrite E. cbn [bind]. eexists. split; [reflexivity|].
      now rewrite condense_value.
    Qed.
    (** ... in an algebra *)
    Variables (k : cx R) (mul : A -> A -> A).
    Hypothesis BL : bilinear mul.
    Hypothesis MUL : forall a b, VP a -> VQ b -> k *v rep (f a b) = mul (rep a) (rep b).
    Hypothesis WT : forall a b, wt a b = cmul (cmul a b) k.
    Lemma mul_0_l y : mul v_0 y = v_0.
    Proof. rewrite <- (v_scale_0 R A v_0) at 1. rewrite (bl_scale_l mul BL). apply v_scale_0. Qed.
    Lemma mul_0_r y : mul y v_0 = v_0.
    Proof. rewrite <- (v_scale_0 R A v_0) at 1. rewrite (bl_scale_r mul BL). apply v_scale_0. Qed.
    Lemma pairs_product (p q : raw) : over VP p -> over VQ q -> all_pairs (fun x y => term x y) p q = mul (value p) (value q).
    Proof.
      intros Fp Fq. induction p as [|x p IH]; [now rewrite value_nil, mul_0_l|]. inversion Fp as [|? ? Vx F']; subst. cbn [all_pairs fold_right]. change (fold_right _ v_0 p) with (all_pairs (fun x y => term x y) p q).
      rewrite (IH F'), value_cons, (bl_add_l mul BL). f_equal. clear Fp F' IH. induction q as [|y q IH]; [now rewrite value_nil, mul_0_r|]. inversion Fq as [|? ? Vy F']; subst.
      cbn [fold_right]. rewrite (IH F'), value_cons, (bl_add_r mul BL). f_equal. rewrite WT, v_scale_mul, (MUL _ _ Vx Vy), (bl_scale_l mul BL), (bl_scale_r mul BL), v_scale_mul. reflexivity.
    Qed.
    Lemma algebra_value (p q : raw) : over VP p -> over VQ q -> exists r, distributed_product op wt p q = Ret r /\ value r = mul (value p) (value q).
    Proof. intros Fp Fq. destruct (distributed_value p q Fp Fq) as [r [E Val]]. exists r. split; [exact E|]. now rewrite Val, pairs_product. Qed.
  End Product.
End Space.

Section Condensed.
  Variable R : rfield.
  Add Field Rf2 : (r_field R).
  Add Field Cf2 : (cx_field R).
  Notation raw := (list (hseq * cx R)).
  Variable V : hseq -> Prop.
  Let less (x y : hseq * cx R) := (hs_hash (fst x) < hs_hash (fst y))%N.
  Let nice (x : hseq * cx R) := V (fst x) /\ hs_sign (fst x) = SPos /\ hs_zero (fst x) = false.
  Lemma collect_sorted x (m : raw) : nice x -> StronglySorted less m -> Forall nice m ->
    StronglySorted less (collect x m) /\ Forall nice (collect x m) /\ forall h, (h < hs_hash (fst x))%N -> Forall (fun y => (h < hs_hash (fst y))%N) m -> Forall (fun y => (h < hs_hash (fst y))%N) (collect x m).
  Proof.
    intros Nx S F. induction m as [|y m IH]; cbn [collect]; [repeat split; auto; repeat constructor; auto|]. inversion F as [|? ? Ny F']; inversion S as [|? ? S' L]; subst.
    destruct (N.ltb_spec (hs_hash (fst x)) (hs_hash (fst y))) as [H|H].
    - split; [|split; [constructor; auto|intros h Hh Fh; constructor; auto]]. constructor; [exact S|]. constructor; [exact H|]. eapply Forall_impl; [|exact L]. intros z Hz. unfold less in *. lia.
    - destruct (N.eqb_spec (hs_hash (fst x)) (hs_hash (fst y))) as [E|E].
      + split; [|split]; [constructor; [exact S'|exact L]|constructor; [exact Ny|exact F']|]. intros h Hh Fh. inversion Fh; subst. constructor; auto.
      + destruct (IH S' F') as [A [B C]]. split; [|split]; [constructor; [exact A|apply C; [lia|exact L]]|constructor; auto|]. intros h Hh Fh. inversion Fh; subst. constructor; auto.
  Qed.
  Lemma filter_sorted (P : hseq * cx R -> bool) m : StronglySorted less m -> StronglySorted less (filter P m).
  Proof.
    induction m as [|x m IH]; intro S; [constructor|]. inversion S as [|? ? S' L]; subst. cbn [filter]. destruct (P x); [|auto]. constructor; [auto|].
    rewrite Forall_forall in *. intros y Hy. apply filter_In in Hy. apply L, Hy.
  Qed.
  Lemma condense_condensed (p : raw) : raw_wf V p -> condensed V (condense p).
  Proof.
    intro F. unfold condense. set (p1 := match p with [x] => _ | _ => p end). assert (F1 : raw_wf V p1) by (subst p1; destruct p as [|x [|y p]]; auto; destruct (hs_zero (fst x) || is_zero (snd x)); [constructor|exact F]).
    clearbody p1. clear p F. assert (G : forall m : raw, StronglySorted less m -> Forall nice m ->
      StronglySorted less (fold_left (fun m x => if hs_zero (fst x) then m else collect x m) p1 m) /\ Forall nice (fold_left (fun m x => if hs_zero (fst x) then m else collect x m) p1 m)).
    { induction p1 as [|x p IH]; intros m S Fm; cbn [fold_left]; [auto|]. inversion F1 as [|? ? [Vx Sx] F']; subst. apply (IH F'); destruct (hs_zero (fst x)) eqn:Z; auto; apply collect_sorted; auto; repeat split; auto. }
    destruct (G [] (SSorted_nil _) (Forall_nil _)) as [S N]. split; [now apply filter_sorted|]. intros x Hx. apply filter_In in Hx. destruct Hx as [Hx Zx].
    rewrite Forall_forall in N. destruct (N x Hx) as [A [B C]]. repeat split; auto. intro E. rewrite E in Zx. unfold is_zero in Zx. now rewrite ceqb_refl in Zx.
  Qed.

  (** normal form: the weight of each word can be read off with a linear functional *)
  Definition cx_space : cspace R.
  Proof. refine (mk_cspace R (cx R) c0 cadd cmul _ _ _ _ _ _ _ _); intros; ring. Defined.
  Definition reader (h : N) (q : hseq) : cx R := if hs_zero q then c0 else if N.eqb (hs_hash q) h then sphase R (hs_sign q) else c0.
  Lemma reader_represents h : @represents R cx_space V (reader h).
  Proof.
    split; intros q; unfold reader; [intros _|intros ->; reflexivity]. unfold hs_zero. cbn [pos SymModel.set_sign hs_hash hs_ops hs_sign].
    destruct (N.eqb _ 0); [change (@c0 R = cmul (sphase R (hs_sign q)) c0); ring|]. destruct (N.eqb _ h).
    - change (sphase R (hs_sign q) = cmul (sphase R (hs_sign q)) c1); ring.
    - change (@c0 R = cmul (sphase R (hs_sign q)) c0); ring.
  Qed.
  Definition read (h : N) (p : raw) : cx R := @poly_in R cx_space (reader h) p.
  Lemma read_cons h x (p : raw) : read h (x :: p) = cadd (cmul (snd x) (reader h (fst x))) (read h p). Proof. reflexivity. Qed.
  Lemma reader_absent h (p : raw) : (forall x, In x p -> hs_hash (fst x) <> h) -> read h p = c0.
  Proof.
    induction p as [|x p IH]; intro H; [reflexivity|]. rewrite read_cons, IH by (intros; apply H; now right).
    assert (reader h (fst x) = @c0 R) as ->; [|ring]. unfold reader. destruct (hs_zero _); [easy|]. destruct (N.eqb_spec (hs_hash (fst x)) h) as [E|E]; [|easy]. exfalso. apply (H x); [now left|exact E].
  Qed.
  Lemma reader_present (p : raw) x : condensed V p -> In x p -> read (hs_hash (fst x)) p = snd x.
  Proof.
    intros [S N] Hx. induction p as [|y p IH]; [easy|]. inversion S as [|? ? S' L]; subst. rewrite read_cons. destruct (N y (or_introl eq_refl)) as [Vy [Sy [Zy Wy]]]. rewrite Forall_forall in L. destruct Hx as [->|Hx].
    - rewrite reader_absent by (intros z Hz; specialize (L z Hz); cbn beta in L; lia). unfold reader. rewrite Zy, Sy, N.eqb_refl. cbn [sphase]. ring.
    - rewrite (IH S'); auto; [|intros z Hz; apply N; now right]. specialize (L x Hx). cbn beta in L. unfold reader. rewrite Zy. destruct (N.eqb_spec (hs_hash (fst y)) (hs_hash (fst x))); [lia|ring].
  Qed.
  Lemma read_in (p : raw) h : read h p <> c0 -> exists x, In x p /\ hs_hash (fst x) = h.
  Proof.
    intro N. destruct (existsb (fun x => N.eqb (hs_hash (fst x)) h) p) eqn:E.
    - apply existsb_exists in E. destruct E as [x [Hx E]]. apply N.eqb_eq in E. eauto.
    - exfalso. apply N, reader_absent. intros x Hx E'. assert (existsb (fun x => N.eqb (hs_hash (fst x)) h) p = true); [|congruence]. apply existsb_exists. exists x. split; [exact Hx|now apply N.eqb_eq].
  Qed.
  Lemma sorted_same (p q : raw) : StronglySorted less p -> StronglySorted less q -> (forall x, In x p <-> In x q) -> p = q.
  Proof.
    revert q. induction p as [|x p IH]; intros [|y q] Sp Sq H; [reflexivity|exfalso; apply (H y); now left|exfalso; apply (H x); now left|].
    inversion Sp as [|? ? Sp' Lp]; inversion Sq as [|? ? Sq' Lq]; subst. rewrite Forall_forall in Lp, Lq. unfold less in Lp, Lq.
    assert (x = y) as <-.
    { destruct (proj1 (H x) (or_introl eq_refl)) as [->|Hx]; [reflexivity|]. destruct (proj2 (H y) (or_introl eq_refl)) as [->|Hy]; [reflexivity|]. specialize (Lp y Hy). specialize (Lq x Hx). lia. }
    f_equal. apply IH; auto. intro z. split; intro Hz.
    - destruct (proj1 (H z) (or_intror Hz)) as [<-|]; [|assumption]. specialize (Lp x Hz). lia.
    - destruct (proj2 (H z) (or_intror Hz)) as [<-|]; [|assumption]. specialize (Lq x Hz). lia.
  Qed.
  Lemma condensed_unique (p q : raw) : hash_exact V -> condensed V p -> condensed V q -> (forall rep : hseq -> cx_space, represents V rep -> poly_in rep p = poly_in rep q) -> p = q.
  Proof.
    intros HX. assert (G : forall p q : raw, condensed V p -> condensed V q -> (forall rep : hseq -> cx_space, represents V rep -> poly_in rep p = poly_in rep q) -> forall x, In x p -> In x q).
    { intros p' q' P Q E x Hx. pose proof (E _ (reader_represents (hs_hash (fst x)))) as Ex. change (read (hs_hash (fst x)) p' = read (hs_hash (fst x)) q') in Ex. rewrite (reader_present p' x P Hx) in Ex. destruct (proj2 P x Hx) as [Vx [Sx [Zx Wx]]].
      destruct (read_in q' (hs_hash (fst x))) as [y [Hy Ey]]; [now rewrite <- Ex|]. rewrite <- Ey, (reader_present q' y Q Hy) in Ex. destruct (proj2 Q y Hy) as [Vy [Sy [Zy Wy]]].
      replace x with y; [exact Hy|]. destruct x as [x wx], y as [y wy]. cbn in *. subst wy. f_equal. apply hseq_ext; auto; congruence. }
    intros P Q E. apply sorted_same; [apply P|apply Q|]. intro x. split; apply G; auto. intros rep H. symmetry. now apply E.
  Qed.
  Lemma condensed_wf (p : raw) : condensed V p -> raw_wf V p.
  Proof. intros [_ N]. apply Forall_forall. intros x Hx. destruct (N x Hx) as [A [B _]]. auto. Qed.
  Lemma condense_id (p : raw) : hash_exact V -> condensed V p -> condense p = p.
  Proof. intros HX P. apply condensed_unique; auto; [now apply condense_condensed, condensed_wf|]. intros rep RP. apply (condense_value R cx_space V HX rep RP). now apply condensed_wf. Qed.
End Condensed.
