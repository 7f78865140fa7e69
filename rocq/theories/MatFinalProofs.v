(** The statements about matrices of concrete contexts, put together. *)
From Coq Require Import List NArith Arith Bool Lia.
From Verif Require Import CoreModel CoreSpec CoreProofs AlgModel AlgSpec AlgProofs AlgContextProofs PauliModel PauliSpec PauliFinalProofs LocModel LocSpec LocSortProofs LocProofs
  SymInstModel SymInstProofs ParModel ParProofs MatModel MatSpec MatProofs MatRunProofs MatInstModel MatInstSpec MatInstProofs MatStarProofs MatWitnessProofs.
Import ListNotations.

(** what a finished parallel run without aliases returned *)
Definition returned {A} (s : cstate (mat_mem A) signal) : option (list (option A)) := m_ret (c_mem s).

Lemma row_length cj d : length (row_gen cj d) = dim (col_gen d).
Proof. unfold row_gen, col_gen, dim. now rewrite !map_length. Qed.

Lemma parallel_plain {A} (f : A -> A -> A) (cj sm : A -> A) rows cols nonh N l s : length rows = length cols -> 0 < N ->
  (nonh = false -> hermitian_by f cj rows cols) ->
  exec (start (programs f cj sm rows cols nonh false N nothing_throws) (fresh cols)) l s -> finished s ->
  returned s = Some (map Some (st_generate f rows cols)).
Proof.
  intros Hl HN HH X F. apply (parallel_result f cj sm rows cols nonh false N l s Hl HN HH); try assumption. discriminate.
Qed.

Section Star.
  Variables (mul : hseq -> hseq -> res hseq) (cj : hseq -> res hseq) (D : nat -> hseq -> Prop) (L : nat).
  Hypothesis SW : star_words mul cj D L.
  Lemma moment_parallel sm lev d nonh N l s : Forall (D lev) d -> lev + lev <= L -> 0 < N ->
    exec (start (programs (moment_functor mul) (rconj cj) sm (row_gen cj d) (col_gen d) nonh false N nothing_throws) (fresh (col_gen d))) l s -> finished s ->
    returned s = Some (map Some (moment_matrix mul cj d)).
  Proof.
    intros Hd Hl HN X F. apply (parallel_plain (moment_functor mul) (rconj cj) sm (row_gen cj d) (col_gen d) nonh N l s (row_length cj d) HN); try assumption. intros _. now apply (moment_hermitian_by mul cj D L SW lev).
  Qed.
  Lemma moment_parallel_aliased sm lev d nonh N l s : Forall (D lev) d -> lev + lev <= L -> 0 < N ->
    (forall x, In x (moment_matrix mul cj d) -> sm (rconj cj x) = rconj cj (sm x)) ->
    exec (start (programs (moment_functor mul) (rconj cj) sm (row_gen cj d) (col_gen d) nonh true N nothing_throws) (fresh (col_gen d))) l s -> finished s ->
    returned s = Some (map Some (moment_matrix mul cj d)) /\ m_ret_al (c_mem s) = Some (map Some (map sm (moment_matrix mul cj d))).
  Proof.
    intros Hd Hl HN Hsm X F. apply (parallel_result (moment_functor mul) (rconj cj) sm (row_gen cj d) (col_gen d) nonh true N l s (row_length cj d) HN); try assumption.
    - intros _. now apply (moment_hermitian_by mul cj D L SW lev).
    - intros _ _. exact Hsm.
  Qed.
  Lemma localizing_parallel sm lev k w d b unexpected N l s : Forall (D lev) d -> D k w -> lev + k + lev <= L -> 0 < N ->
    (b = true -> cj w = Ret w) ->
    exec (start (programs (localizing_functor mul w) (rconj cj) sm (row_gen cj d) (col_gen d) (could_be_non_hermitian b unexpected) false N nothing_throws) (fresh (col_gen d))) l s -> finished s ->
    returned s = Some (map Some (localizing_matrix mul cj w d)).
  Proof.
    intros Hd Hw Hl HN Hb X F. apply (parallel_plain (localizing_functor mul w) (rconj cj) sm (row_gen cj d) (col_gen d) (could_be_non_hermitian b unexpected) N l s (row_length cj d) HN); try assumption. intro E.
    assert (Hb' : b = true) by (unfold could_be_non_hermitian in E; destruct b; [reflexivity|discriminate]).
    apply (localizing_hermitian_by mul cj D L SW lev k); auto.
  Qed.
  Lemma moment_is_hermitian lev d : Forall (D lev) d -> lev + lev <= L -> hermitian_matrix (rconj cj) (length d) (moment_matrix mul cj d).
  Proof.
    intros Hd Hl. replace (length d) with (length (col_gen d)) by apply map_length. apply hermitian_by_matrix; [apply (row_length cj d)|]. now apply (moment_hermitian_by mul cj D L SW lev).
  Qed.
  Lemma localizing_is_hermitian lev k w d : Forall (D lev) d -> D k w -> lev + k + lev <= L -> cj w = Ret w ->
    hermitian_matrix (rconj cj) (length d) (localizing_matrix mul cj w d).
  Proof.
    intros Hd Hw Hl Cw. replace (length d) with (length (col_gen d)) by apply map_length. apply hermitian_by_matrix; [apply (row_length cj d)|].
    now apply (localizing_hermitian_by mul cj D L SW lev k).
  Qed.
End Star.

(** entries *)
Lemma moment_entry mul cj d r c a b : nth_error d r = Some a -> nth_error d c = Some b ->
  nth_error (moment_matrix mul cj d) (c * length d + r) = Some (bind (cj a) (fun x => mul x b)) /\ length (moment_matrix mul cj d) = length d * length d.
Proof.
  intros Ha Hb. destruct (generated_st (moment_functor mul) (row_gen cj d) (col_gen d)) as [G1 G2]. fold (moment_matrix mul cj d) in G1, G2.
  assert (RL : length (row_gen cj d) = length d) by apply map_length. assert (CL : length (col_gen d) = length d) by apply map_length. rewrite RL, ?CL in *. split; [|exact G1].
  rewrite (G2 r c (cj a) (Ret b)); [reflexivity|unfold row_gen; rewrite nth_error_map, Ha; reflexivity|unfold col_gen; rewrite nth_error_map, Hb; reflexivity].
Qed.
Lemma localizing_entry mul cj w d r c a b : nth_error d r = Some a -> nth_error d c = Some b ->
  nth_error (localizing_matrix mul cj w d) (c * length d + r) = Some (bind (cj a) (fun x => bind (mul w b) (fun y => mul x y))) /\ length (localizing_matrix mul cj w d) = length d * length d.
Proof.
  intros Ha Hb. destruct (generated_st (localizing_functor mul w) (row_gen cj d) (col_gen d)) as [G1 G2]. fold (localizing_matrix mul cj w d) in G1, G2.
  assert (RL : length (row_gen cj d) = length d) by apply map_length. assert (CL : length (col_gen d) = length d) by apply map_length. rewrite RL, ?CL in *. split; [|exact G1].
  rewrite (G2 r c (cj a) (Ret b)); [reflexivity|unfold row_gen; rewrite nth_error_map, Ha; reflexivity|unfold col_gen; rewrite nth_error_map, Hb; reflexivity].
Qed.

(** a locality word judged Hermitian by its hash is *)
Lemma loc_word_hermitian sc L w : loc_safe sc L -> loc_wf sc L w -> localizing_should_be_hermitian (loc_conjugate sc) w = Ret true -> loc_conjugate sc w = Ret w.
Proof.
  intros S W. unfold localizing_should_be_hermitian. destruct (loc_conj_spec sc L w S W) as [Wc Ec]. set (c := SymModel.cx_conj _ w) in *. rewrite Ec. cbn [bind].
  intro H. injection H as H. apply andb_true_iff in H as [H1 H2]. apply N.eqb_eq in H2.
  destruct W as [->|(A1 & A2 & A3)].
  { reflexivity. }
  assert (NZ : hs_hash w <> 0%N) by (rewrite A1; apply (hash_nonzero _ L); [exact S|apply A2|exact A3]).
  destruct Wc as [E|(B1 & B2 & B3)]; [rewrite E in H2; cbn in H2; congruence|].
  assert (EO : hs_ops w = hs_ops c) by (apply (hash_inj (total_opers sc) L); [exact S|apply A2|apply B2|exact A3|exact B3|congruence]).
  assert (ES : hs_sign c = hs_sign w).
  { unfold loc_conjugate in Ec. destruct (hs_zero w) eqn:Z; [unfold hs_zero in Z; apply N.eqb_eq in Z; congruence|].
    unfold loc_sequence in Ec. destruct (loc_simplify sc (rev (hs_ops w))) as [[t|]| |]; cbn [bind] in Ec; try discriminate.
    - injection Ec as Ec. rewrite <- Ec. cbn. unfold hs_imaginary in H1. destruct (hs_sign w); cbn in *; congruence || reflexivity.
    - injection Ec as Ec. rewrite <- Ec in H2. cbn in H2. congruence. }
  f_equal. destruct w as [h o s], c as [h' o' s']. cbn in *. congruence.
Qed.

(** products with the identity *)
Lemma loc_identity_mul sc L b : loc_safe sc L -> loc_wf sc L b -> loc_multiply sc (hseq_const false) b = Ret b /\ loc_conjugate sc (hseq_const false) = Ret (hseq_const false).
Proof.
  intros S W. split; [|reflexivity]. destruct (wf_mkseq sc L b S W) as [->|(w & s & -> & O & Len & C)]; [reflexivity|].
  change (hseq_const false) with (mkseq sc SPos (nf sc (Some []))). rewrite (mul_mkseq sc L); [|exact S|cbn; lia|exact Len|intros x []|exact O].
  destruct s; reflexivity.
Qed.
Lemma first_row mul cj D L lev d : star_words mul cj D L -> (forall l b, l <= L -> D l b -> mul (hseq_const false) b = Ret b) -> cj (hseq_const false) = Ret (hseq_const false) ->
  Forall (D lev) d -> lev <= L -> nth_error d 0 = Some (hseq_const false) -> forall c b, nth_error d c = Some b ->
  nth_error (moment_matrix mul cj d) (c * length d) = Some (Ret b).
Proof.
  intros _ Hi Hc Hd Hl H0 c b Hb. rewrite <- (Nat.add_0_r (c * length d)). rewrite (proj1 (moment_entry mul cj d 0 c _ b H0 Hb)). rewrite Hc. cbn [bind].
  rewrite (Hi lev b Hl); [reflexivity|]. rewrite Forall_forall in Hd. apply Hd. eapply nth_error_In, Hb.
Qed.
Lemma loc_first_row sc L d : loc_safe sc (L + L) -> Forall (loc_wf sc L) d -> nth_error d 0 = Some (hseq_const false) -> forall c b, nth_error d c = Some b ->
  nth_error (moment_matrix (loc_multiply sc) (loc_conjugate sc) d) (c * length d) = Some (Ret b).
Proof.
  intros S Hd H0. apply (first_row _ _ (loc_wf sc) (L + L) L); try assumption; try lia; [now apply loc_star| |reflexivity].
  intros l b Hl Hb. apply (loc_identity_mul sc l); [now apply (loc_safe_mono sc l (L + L))|exact Hb].
Qed.
Lemma pauli_first_row n L d : pauli_safe n (L + L) -> Forall (pauli_word n L) d -> nth_error d 0 = Some (hseq_const false) -> forall c b, nth_error d c = Some b ->
  nth_error (moment_matrix (pauli_mul n) pauli_conj d) (c * length d) = Some (Ret b).
Proof.
  intros S Hd H0. apply (first_row _ _ (pauli_word n) (L + L) L); try assumption; try lia; [now apply pauli_star| |reflexivity].
  intros l b Hl [Wb _]. unfold pauli_mul. f_equal. apply (multiply_identity n l); [now apply (pauli_safe_mono n l (L + L))|exact Wb].
Qed.

(** what the entries mean *)
Lemma loc_entry_means sc L (A : star_algebra) (v : nat -> A) d r c a b q : loc_safe sc (L + L) -> Forall (loc_wf sc L) d -> loc_model sc A v ->
  (forall x, valid_oper sc x -> aeq A (v (op_number sc x)) (astar A (v (op_number sc x)))) ->
  nth_error d r = Some a -> nth_error d c = Some b ->
  nth_error (moment_matrix (loc_multiply sc) (loc_conjugate sc) d) (c * length d + r) = Some (Ret q) ->
  aeq A (den A v q) (amul A (astar A (den A v a)) (den A v b)).
Proof.
  intros S Hd M SA Ha Hb E. rewrite (proj1 (moment_entry _ _ d r c a b Ha Hb)) in E. injection E as E. rewrite Forall_forall in Hd.
  pose proof (Hd a (nth_error_In _ _ Ha)) as Wa. pose proof (Hd b (nth_error_In _ _ Hb)) as Wb.
  assert (SL : loc_safe sc L) by (apply (loc_safe_mono sc L (L + L)); [lia|exact S]).
  destruct (loc_conj_spec sc L a SL Wa) as [Wc Ec]. rewrite Ec in E. cbn [bind] in E.
  eapply aeq_trans; [apply (loc_multiply_sound sc L L A v _ b q S Wc Wb M E)|]. apply amul_cong; [|apply aeq_refl].
  apply (loc_conjugate_sound sc L A v a _ SL Wa M SA Ec).
Qed.

(** the Hermiticity check of operator matrices *)
Lemma cell_eqb_wf r L x y : hash_safe r L -> wf_like r L x -> wf_like r L y -> hs_eqb x y = true <-> x = y.
Proof.
  intros S Wx Wy. split; [|intros ->; unfold hs_eqb; rewrite N.eqb_refl; now destruct (hs_sign y)].
  unfold hs_eqb. destruct (N.eqb_spec (hs_hash x) (hs_hash y)) as [E|E]; [|discriminate]. intro H.
  assert (EO : hs_ops x = hs_ops y) by now apply (wf_like_hash r L).
  assert (ES : hs_sign x = hs_sign y) by (destruct (hs_sign x), (hs_sign y); cbn in H; congruence).
  destruct x as [h o s], y as [h' o' s']. cbn in *. congruence.
Qed.
Lemma check_spec (cj : hseq -> res hseq) (V : hseq -> Prop) r L n m :
  hash_safe r L -> (forall q, V q -> wf_like r L q) -> (forall q, V q -> exists c, cj q = Ret c /\ V c /\ cj c = Ret q) ->
  length m = n * n -> Forall (fun x => exists q, x = Ret q /\ V q) m ->
  match find_first_index cell_eqb (rconj cj) NoFuel n m with
  | Some p => hermitian_failure (rconj cj) n m p /\ forall q, earlier q p -> ~ hermitian_failure (rconj cj) n m q
  | None => hermitian_matrix (rconj cj) n m
  end.
Proof.
  intros S WV CV Hlen Hm. set (P := fun x : res hseq => exists q, x = Ret q /\ V q) in *.
  assert (EQ : forall x y, P x -> P y -> cell_eqb x (rconj cj y) = true <-> x = rconj cj y).
  { intros x y (q & -> & Vq) (q' & -> & Vq'). cbn [rconj bind]. destruct (CV q' Vq') as (c & Ec & Vc & _). rewrite Ec. cbn [cell_eqb].
    rewrite (cell_eqb_wf r L q c S (WV q Vq) (WV c Vc)). split; [now intros ->|intro H; injection H; auto]. }
  assert (INV : forall x, P x -> rconj cj (rconj cj x) = x).
  { intros x (q & -> & Vq). cbn [rconj bind]. destruct (CV q Vq) as (c & Ec & _ & Ecc). rewrite Ec. cbn [bind]. exact Ecc. }
  pose proof (find_first_spec _ cell_eqb (rconj cj) NoFuel P EQ n m Hm Hlen) as H.
  destruct (find_first_index _ _ _ _ _) as [p|]; [exact H|].
  apply (no_failure_hermitian _ cell_eqb (rconj cj) NoFuel P EQ n m Hm Hlen INV). exact H.
Qed.
Lemma check_none (cj : hseq -> res hseq) (V : hseq -> Prop) r L n m :
  hash_safe r L -> (forall q, V q -> wf_like r L q) -> (forall q, V q -> exists c, cj q = Ret c /\ V c /\ cj c = Ret q) ->
  length m = n * n -> Forall (fun x => exists q, x = Ret q /\ V q) m ->
  hermitian_matrix (rconj cj) n m -> find_first_index cell_eqb (rconj cj) NoFuel n m = None.
Proof.
  intros S WV CV Hlen Hm HM. pose proof (check_spec cj V r L n m S WV CV Hlen Hm) as H. destruct (find_first_index _ _ _ _ _) as [p|]; [|reflexivity].
  exfalso. destruct H as [H _]. destruct p as [r0 c0]. destruct H as (H1 & x & y & Ex & Ey & F). apply F. destruct HM as [_ HM]. apply (HM r0 c0); try assumption; lia.
Qed.

(** length of runs *)
Lemma run_bounded {A} (f : A -> A -> A) (cj sm : A -> A) rows cols nonh can_alias N throws l s :
  exec (start (programs f cj sm rows cols nonh can_alias N throws) (fresh cols)) l s ->
  length l <= list_sum (map (@length _) (threads f rows cols nonh can_alias N throws)).
Proof.
  intro X. apply exec_bounded in X.
  assert (E : remaining (start (programs f cj sm rows cols nonh can_alias N throws) (fresh cols)) = list_sum (map (@length _) (threads f rows cols nonh can_alias N throws))).
  { unfold remaining. cbn [start c_progs]. unfold programs. rewrite map_map. f_equal. apply map_ext. intro. apply map_length. }
  lia.
Qed.

Lemma commutator_parallel n L sm lev k w d unexpected N l s : pauli_safe n L -> Forall (fun q => pauli_wf n lev q /\ hs_hash q <> 0%N) d -> pauli_wf n k w -> hs_hash w <> 0%N -> lev + lev <= L -> 0 < N ->
  exec (start (programs (commutator_functor n w) (rconj pauli_conj) sm (row_gen pauli_conj d) (col_gen d)
         (could_be_non_hermitian (commutator_should_be_hermitian w) unexpected) false N nothing_throws) (fresh (col_gen d))) l s -> finished s ->
  m_ret (c_mem s) = Some (map Some (st_generate (commutator_functor n w) (row_gen pauli_conj d) (col_gen d))).
Proof.
  intros S Hd Ww Zw Hl HN X F. apply (parallel_plain (commutator_functor n w) (rconj pauli_conj) sm (row_gen pauli_conj d) (col_gen d) (could_be_non_hermitian (commutator_should_be_hermitian w) unexpected) N l s (row_length pauli_conj d) HN); try assumption.
  intro E. apply (commutator_hermitian_by n L lev k w d S Hd Hl (conj Ww Zw)). unfold could_be_non_hermitian in E. now destruct (commutator_should_be_hermitian w).
Qed.
Lemma anticommutator_parallel n L sm lev k w d unexpected N l s : pauli_safe n L -> Forall (fun q => pauli_wf n lev q /\ hs_hash q <> 0%N) d -> pauli_wf n k w -> hs_hash w <> 0%N -> lev + lev <= L -> 0 < N ->
  exec (start (programs (anticommutator_functor n w) (rconj pauli_conj) sm (row_gen pauli_conj d) (col_gen d)
         (could_be_non_hermitian (anticommutator_should_be_hermitian w) unexpected) false N nothing_throws) (fresh (col_gen d))) l s -> finished s ->
  m_ret (c_mem s) = Some (map Some (st_generate (anticommutator_functor n w) (row_gen pauli_conj d) (col_gen d))).
Proof.
  intros S Hd Ww Zw Hl HN X F. apply (parallel_plain (anticommutator_functor n w) (rconj pauli_conj) sm (row_gen pauli_conj d) (col_gen d) (could_be_non_hermitian (anticommutator_should_be_hermitian w) unexpected) N l s (row_length pauli_conj d) HN); try assumption.
  intro E. apply (anticommutator_hermitian_by n L lev k w d S Hd Hl (conj Ww Zw)). unfold could_be_non_hermitian in E. now destruct (anticommutator_should_be_hermitian w).
Qed.
