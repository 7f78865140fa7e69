(** Concrete matrices: what the arithmetic does to them, and where it goes wrong. *)
From Coq Require Import List NArith ZArith QArith Qcanon Arith Bool Lia.
From Verif Require Import CoreModel CoreSpec CoreProofs AlgModel LocModel LocSpec LocProofs FieldModel FieldProofs SymModel SymSpec SymProofs SymFinalProofs SymInstModel SymInstProofs ChshProofs
  PolyModel PolySpec PolyProofs PolyTableProofs PolyFinalProofs PolyWitnessProofs ChshWitnessProofs RawModel RawSpec FacModel FacSpec FacWitnessProofs AriModel AriSpec AriProofs AriMulProofs AriMul2Proofs AriValProofs.
Import ListNotations.
Local Open Scope nat_scope.

Definition chsh_mul (a b : hseq) : hseq := match loc_multiply chsh_scenario a b with Ret q => q | _ => hseq_const true end.
Definition h4 (w : word) : hseq := hseq_make 4 w SPos.
Lemma chsh_one_identity : one_identity chsh_words.
Proof.
  intros q [->|(H & [O _] & Len)] Z E; [discriminate Z|]. destruct q as [h o s]. cbn in *. subst o. unfold pos. cbn. unfold hseq_const. f_equal. rewrite H. reflexivity.
Qed.
(** a matrix of the context with its table *)
Definition made (ops : list hseq) (d : nat) : table * monomat Q' := match from_ops chsh_sctx false d ops c1 chsh_table with Done t m => (t, m) | _ => (chsh_table, zero_matrix d) end.
(** the matrix of A0, A1 and their products; and the 1x1 identity *)
Definition two_tab : table := fst (made two_matrix 2).
Definition two_mm : monomat Q' := snd (made two_matrix 2).
Definition one_mm : monomat Q' := snd (made [hseq_const false] 1).
Lemma one_words : Forall chsh_words [hseq_const false]. Proof. constructor; [exact (proj1 (lw_one _ _ chsh_lawful))|constructor]. Qed.
Lemma made_spec ops d : length ops = d * d -> Forall chsh_words ops -> exists t m, from_ops (R := Q') chsh_sctx false d ops c1 chsh_table = Done t m /\ later chsh_sctx chsh_words chsh_table t.
Proof.
  intros L F. destruct (from_ops_spec chsh_sctx chsh_words chsh_lawful chsh_unsigned Q' false d ops (c1 : cx Q') chsh_table chsh_reach F L) as (t & m & E & LT & _).
  - discriminate.
  - exists t, m. split; [exact E|]. exact (proj1 LT).
Qed.
Lemma two_tab_later : later chsh_sctx chsh_words chsh_table two_tab /\ reachable chsh_sctx chsh_words two_tab.
Proof.
  destruct (made_spec two_matrix 2 eq_refl (proj2 two_ok)) as (t & m & E & LT). unfold two_tab, made. rewrite E. split; [exact LT|]. exact (reachable_later chsh_sctx chsh_words _ _ chsh_reach LT).
Qed.
Lemma two_ops : mm_ops two_mm = Some two_matrix. Proof. vm_compute. reflexivity. Qed.
Lemma one_ops : mm_ops one_mm = Some [hseq_const false]. Proof. vm_compute. reflexivity. Qed.
Lemma words_by (l : list word) : forallb (fun w => match loc_simplify chsh_scenario w with Ret (Some u) => if list_eq_dec Nat.eq_dec u w then Nat.leb (length w) 4 else false | _ => false end) l = true -> Forall chsh_words (map h4 l).
Proof.
  intro H. apply Forall_map, Forall_forall. intros w I. rewrite forallb_forall in H. specialize (H w I). apply chsh_word.
  - destruct (loc_simplify chsh_scenario w) as [[u|]| |]; try discriminate H. destruct (list_eq_dec _ u w) as [->|]; [reflexivity|discriminate H].
  - destruct (loc_simplify chsh_scenario w) as [[u|]| |]; try discriminate H. destruct (list_eq_dec _ u w); [now apply Nat.leb_le|discriminate H].
Qed.
(** A0 times the matrix, from the left *)
Lemma two_times : times chsh_mul true (h4 [0]) two_matrix = map h4 [[0]; [0;1;0]; [0;1]; [0;1]]. Proof. vm_compute. reflexivity. Qed.
Lemma two_products : products_ok chsh_words chsh_mul true (h4 [0]) two_matrix.
Proof. split; [rewrite two_times; apply words_by; vm_compute; reflexivity|discriminate]. Qed.
Lemma two_known q : known_ops chsh_sctx false (times chsh_mul true q two_matrix). Proof. discriminate. Qed.
(** 2 A0 - i A0 A1 *)
Definition two_poly : list (hseq * cx Q') := [(h4 [0], cq 2 0); (h4 [0;1], cq 0 (-1))].
Lemma two_times2 : times chsh_mul true (h4 [0;1]) two_matrix = map h4 [[0;1;0]; [0;1;0]; [0;1;0;1]; [0;1]]. Proof. vm_compute. reflexivity. Qed.
Lemma plain_by l : Forall chsh_words l -> plain_self_conjugates chsh_sctx l.
Proof.
  intros F q I S. rewrite Forall_forall in F. specialize (F q I). unfold same_word in S.
  assert (P : pos (cx_conj chsh_sctx q) = pos (cx_conj chsh_sctx (pos q))) by (rewrite (lw_phase _ _ chsh_lawful q F); reflexivity). rewrite P in S.
  pose proof (loc_conj_sign chsh_scenario 4 q chsh_safe F) as G. change (loc_sctx chsh_scenario (fun _ => [])) with chsh_sctx in G. rewrite <- S at 2. destruct (cx_conj chsh_sctx (pos q)) as [h o s]. cbn in G |- *. now subst.
Qed.
Lemma two_terms : terms_ok chsh_sctx chsh_words Q' false chsh_mul true two_poly two_matrix.
Proof.
  intros x [<-|[<-|[]]]; cbn [fst]; [rewrite two_times|rewrite two_times2].
  - split; [apply words_by; vm_compute; reflexivity|]. split; [discriminate|]. apply plain_by, words_by; vm_compute; reflexivity.
  - split; [apply words_by; vm_compute; reflexivity|]. split; [discriminate|]. apply plain_by, words_by; vm_compute; reflexivity.
Qed.
(** sums *)
Lemma isort_order t : term_order t (@id_less Q') /\ sorts t id_less (isort (@id_less Q')).
Proof. split; [apply id_less_order|apply isort_sorts, id_less_order]. Qed.
Definition mat_a : smx Q' := SM (mk_mm 1 [mq 2 true 0 1] false None c1 false false).
Definition mat_b : smx Q' := SP (mk_pm 1 [chsh_poly]).
Lemma mat_a_ok : well_formed chsh_table id_less mat_a.
Proof. split; [reflexivity|]. constructor; [|constructor]. split; [vm_compute; lia|]. intros [H|H]; vm_compute in H; discriminate H. Qed.
Lemma mat_b_ok : well_formed chsh_table id_less mat_b.
Proof. split; [reflexivity|]. constructor; [exact chsh_canonical|constructor]. Qed.

(** ** What goes wrong *)
Definition v_i (id : nat) : cx Q' := match id with 0 => c0 | 2 => ci | _ => c1 end.
Lemma v_i_assignment : assignment chsh_table v_i. Proof. apply assignment_by; [reflexivity|reflexivity|vm_compute; reflexivity]. Qed.
Definition out_is {A} (o : outcome A) (f : table -> A -> bool) : bool := match o with Done t a => f t a | _ => false end.
Lemma out_bool {A} (o : outcome A) f : out_is o f = true -> exists t a, o = Done t a /\ f t a = true.
Proof. destruct o as [t a| |]; try discriminate. intro H. now exists t, a. Qed.
Definition same_symbols (a b : table) : bool := Nat.eqb (length (t_syms a)) (length (t_syms b)) && forallb (fun p => Bool.eqb (sy_herm (fst p)) (sy_herm (snd p)) && Bool.eqb (sy_anti (fst p)) (sy_anti (snd p))) (List.combine (t_syms a) (t_syms b)).
(** multiplying the 1x1 matrix of the identity by the symbol X = A0A1 gives the matrix of A1A0 *)
Lemma times_symbol_refuted : exists (x : mono Q') t' a v, assignment t' v /\ entry v (SM one_mm) 0 = Some c1 /\
  multiply_mono chsh_sctx chsh_mul false true x (SM one_mm) chsh_table = Done t' a /\ entry v a 0 <> Some (term_value v x).
Proof.
  destruct (out_bool (multiply_mono chsh_sctx chsh_mul false true (mq 2 false 1 0) (SM one_mm) chsh_table)
    (fun t' a => (forallb (fun x => (negb (sy_herm (snd x)) || r_eqb Q' (cim (v_i (fst x))) (r0 Q')) && (negb (sy_anti (snd x)) || r_eqb Q' (cre (v_i (fst x))) (r0 Q'))) (List.combine (seq 0 (length (t_syms t'))) (t_syms t')))
      && match entry v_i a 0 with Some z => negb (ceqb z (term_value v_i (mq 2 false 1 0))) | None => true end)) as (t' & a & E & B); [vm_compute; reflexivity|].
  apply andb_prop in B. destruct B as [B1 B2]. exists (mq 2 false 1 0), t', a, v_i. split; [apply assignment_by; [reflexivity|reflexivity|exact B1]|]. split.
  - destruct (opt_bool (entry v_i (SM one_mm) 0) (fun z => ceqb z c1)) as (z & Ez & Bz); [vm_compute; reflexivity|]. rewrite Ez. apply ceqb_spec in Bz. now rewrite Bz.
  - split; [exact E|]. destruct (entry v_i a 0) as [z|]; [|discriminate]. intro H. apply some_inj in H. rewrite H, ceqb_refl in B2. discriminate B2.
Qed.
(** the product of the 1x1 identity with i is called Hermitian *)
Lemma hermitian_refuted : exists t' (m' : monomat Q') v, mm_multiply chsh_sctx chsh_mul false true (hseq_const false) ci one_mm chsh_table = Done t' m' /\ mm_herm m' = true /\
  assignment t' v /\ agrees flat_E t' v /\ ~ hermitian_values v (SM m').
Proof.
  destruct (out_bool (mm_multiply chsh_sctx chsh_mul false true (hseq_const false) ci one_mm chsh_table) (fun t' m' => mm_herm m' && Nat.eqb (mm_dim m') 1 &&
    match entry chsh_v (SM m') 0 with Some z => negb (ceqb z (cconj z)) | None => false end && Nat.eqb (length (t_syms t')) (length (t_syms chsh_table)))) as (t' & m' & E & B); [vm_compute; reflexivity|].
  apply andb_prop in B. destruct B as [B BL]. apply andb_prop in B. destruct B as [B1 B2]. apply andb_prop in B1. destruct B1 as [B1 BD]. apply Nat.eqb_eq in BD, BL. exists t', m', chsh_v. split; [exact E|]. split; [exact B1|].
  assert (T : t' = chsh_table).
  { assert (K : match mm_multiply (R := Q') chsh_sctx chsh_mul false true (hseq_const false) ci one_mm chsh_table with Done t _ => t | _ => table_start end = chsh_table) by (vm_compute; reflexivity). rewrite E in K. exact K. }
  rewrite T. split; [exact chsh_assignment|]. split; [exact chsh_agrees|]. intro H. destruct (entry chsh_v (SM m') 0) as [z|] eqn:Z; [|discriminate B2]. cbn [smx_dim] in H.
  assert (X : z = cconj z) by (apply (H 0 0 z z); rewrite ?BD; cbn [Nat.mul Nat.add smx_dim]; rewrite ?BD; try lia; exact Z). rewrite <- X, ceqb_refl in B2. discriminate B2.
Qed.
Definition num_one : monomat Q' := value_dense chsh_table true 1 [c1].
Lemma value_hermitian_refuted : exists t' (m' : monomat Q') v, vm_multiply chsh_sctx (hseq_const false) ci num_one chsh_table = Done t' m' /\ mm_herm m' = true /\
  assignment t' v /\ agrees flat_E t' v /\ ~ hermitian_values v (SM m').
Proof.
  destruct (out_bool (vm_multiply chsh_sctx (hseq_const false) ci num_one chsh_table) (fun t' m' => mm_herm m' && Nat.eqb (mm_dim m') 1 &&
    match entry chsh_v (SM m') 0 with Some z => negb (ceqb z (cconj z)) | None => false end)) as (t' & m' & E & B); [vm_compute; reflexivity|].
  apply andb_prop in B. destruct B as [B1 B2]. apply andb_prop in B1. destruct B1 as [B1 BD]. apply Nat.eqb_eq in BD. exists t', m', chsh_v. split; [exact E|]. split; [exact B1|].
  assert (T : t' = chsh_table).
  { assert (K : match vm_multiply (R := Q') chsh_sctx (hseq_const false) ci num_one chsh_table with Done t _ => t | _ => table_start end = chsh_table) by (vm_compute; reflexivity). rewrite E in K. exact K. }
  rewrite T. split; [exact chsh_assignment|]. split; [exact chsh_agrees|]. intro H. destruct (entry chsh_v (SM m') 0) as [z|] eqn:Z; [|discriminate B2]. cbn [smx_dim] in H.
  assert (X : z = cconj z) by (apply (H 0 0 z z); rewrite ?BD; cbn [Nat.mul Nat.add smx_dim]; rewrite ?BD; try lia; exact Z). rewrite <- X, ceqb_refl in B2. discriminate B2.
Qed.
(** a matrix of numbers times one, or times any other number or symbol *)
Lemma value_times_refuted : exists (m : monomat Q') (x y : mono Q'), m = value_dense chsh_table true 1 [c1] /\ x = mk_mono 1 false c1 /\ y = mk_mono 1 false (cadd c1 c1) /\
  multiply_mono chsh_sctx chsh_mul false true x (SM m) chsh_table = Undef /\ multiply_mono chsh_sctx chsh_mul false true y (SM m) chsh_table = Throw chsh_table /\
  (exists t' a, multiply_poly chsh_sctx chsh_mul false (fun _ => isort id_less) (fun _ => id_less) true [y; mk_mono 3 false c1] (SM m) chsh_table = Done t' a).
Proof.
  exists num_one, (mk_mono 1 false c1), (mk_mono 1 false (cadd c1 c1)). split; [reflexivity|]. split; [reflexivity|]. split; [reflexivity|]. split; [|split].
  - reflexivity.
  - assert (K : ceqb (cadd (c1 : cx Q') c1) c1 = false) by (vm_compute; reflexivity). unfold multiply_mono. cbn [m_id m_f Nat.eqb andb]. rewrite K. reflexivity.
  - destruct (out_bool (multiply_poly chsh_sctx chsh_mul false (fun _ => isort id_less) (fun _ => id_less) true [mk_mono 1 false (cadd c1 c1 : cx Q'); mk_mono 3 false c1] (SM num_one) chsh_table) (fun _ _ => true)) as (t' & a & E & _); [vm_compute; reflexivity|].
    now exists t', a.
Qed.
(** a polynomial matrix plus zero, and times one *)
Lemma polynomial_refuted : exists a : smx Q', well_formed chsh_table id_less a /\ add_mono chsh_table (isort id_less) id_less a (mk_mono 0 false c0) = AThrow /\
  multiply_mono chsh_sctx chsh_mul false true (mk_mono 1 false c1) a chsh_table = Throw chsh_table.
Proof. exists mat_b. split; [exact mat_b_ok|]. split; [vm_compute; reflexivity|reflexivity]. Qed.
(** a symbol plus a matrix with a zero entry *)
Lemma sum_canonical_refuted : exists (a : smx Q') x p, well_formed chsh_table id_less a /\ PolySpec.canonical chsh_table id_less [x] /\ add_mono chsh_table (isort id_less) id_less a x = AOk p /\
  ~ well_formed chsh_table id_less (SP p).
Proof.
  exists (SM (zero_matrix 1)), (mq 2 false 1 0), (mk_pm 1 [[mk_mono 0 false c0; mq 2 false 1 0]]). split.
  { split; [reflexivity|]. constructor; [|constructor]. split; [vm_compute; lia|]. intros _. reflexivity. }
  split; [apply canonical_by; vm_compute; reflexivity|]. split.
  { assert (Z : is_zero (m_f (mq 2 false 1 0)) = false) by (vm_compute; reflexivity). unfold add_mono. rewrite Z. reflexivity. }
  intros [_ H]. cbn [pm_cells] in H. apply Forall_inv in H. pose proof (cp_terms _ _ _ H (mk_mono 0 false c0) (or_introl eq_refl)) as (_ & N & _). now apply N.
Qed.
(** [0 1; 0 0], stored sparsely *)
Lemma sparse_refuted : exists l : list (nat * nat * cx Q'), sparse_ok 2 l /\ mm_herm (value_sparse chsh_table true 2 l) = true /\ ~ hermitian_data 2 (sp_at l).
Proof.
  exists [(0, 1, c1)]. split; [split; [constructor; [intros []|constructor]|]|split].
  - intros row col z [E|[]]. injection E as <- <- _. lia.
  - reflexivity.
  - intro H. specialize (H 0 1 ltac:(lia) ltac:(lia)). apply (f_equal cre) in H. cbn in H. apply (rneq (r0 Q') (r1 Q')); [vm_compute; reflexivity|exact H].
Qed.
(** [0 1; -1 0], given as real numbers *)
Lemma anti_refuted : exists data : list (cx Q'), length data = 2 * 2 /\ antihermitian_data 2 (at_ 2 data) /\ mm_anti (value_dense chsh_table true 2 data) = false /\
  mm_anti (value_dense chsh_table false 2 data) = true.
Proof.
  exists [c0; copp c1; c1; c0]. split; [reflexivity|]. split.
  - intros row col Lr Lc. destruct row as [|[|row]]; [| |lia]; (destruct col as [|[|col]]; [| |lia]); cbn; apply cx_ext; cbn; apply (r_eqb_spec Q'); vm_compute; reflexivity.
  - split; vm_compute; reflexivity.
Qed.
Lemma value_case : reachable chsh_sctx chsh_words chsh_table /\ chsh_words (hseq_make 4 [0;1] SIm) /\ sized (SM num_one) /\ Forall (number Q') (mm_cells num_one).
Proof.
  destruct (value_dense_spec Q' chsh_table true 1 [c1] eq_refl) as (_ & _ & S & F & _). split; [exact chsh_reach|]. split; [apply chsh_word; [vm_compute; reflexivity|cbn; lia]|]. split; [exact S|exact F].
Qed.
(** the polynomial 3 + (2+i) A0A1 - i A1A0 + 5 A0B0 times the matrix of A0, A1 and their products; and the symbol A0B0 times it *)
Definition ab_word : hseq := match symbol_word chsh_table 3 with Some u => u | None => hseq_const true end.
Lemma ab_case : symbol_word chsh_table 3 = Some ab_word /\ products_ok chsh_words chsh_mul true ab_word two_matrix.
Proof.
  split; [vm_compute; reflexivity|]. split; [|intro H; vm_compute in H; discriminate H]. assert (E : times chsh_mul true ab_word two_matrix = map h4 [[0;2]; [0;1;0;2]; [0;1;2]; [0;1;2]]) by (vm_compute; reflexivity).
  rewrite E. apply words_by. vm_compute. reflexivity.
Qed.
Lemma raw_case : raw_ok chsh_words two_poly /\ forall x, In x two_poly -> hs_sign (fst x) = SPos /\ hs_zero (fst x) = false.
Proof.
  split; [|intros x [<-|[<-|[]]]; split; vm_compute; reflexivity]. unfold raw_ok. constructor; [apply chsh_word; [vm_compute; reflexivity|cbn; lia]|]. constructor; [apply chsh_word; [vm_compute; reflexivity|cbn; lia]|constructor].
Qed.
