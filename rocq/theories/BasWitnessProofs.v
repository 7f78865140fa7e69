(** Concrete matrices. *)
From Coq Require Import List NArith ZArith Arith Bool Sorted Permutation Lia Ring QArith Qcanon.
From Verif Require Import CoreModel FieldModel FieldProofs SymModel SymSpec SymProofs SymFinalProofs SymWitnessProofs.
From Verif Require Import PolyModel PolySpec PolyProofs PolyTableProofs PolyBasisModel PolyWitnessProofs PolyFinalProofs FacModel FacSpec BasModel BasSpec BasFinalProofs BasThmProofs.
Import ListNotations.
Local Open Scope nat_scope.

Section Conj.
  Variable R : rfield.
  Add Ring Rr : (F_R (r_field R)).
  Lemma conj_terms (v : nat -> cx R) id cj f f' : f' = cconj f -> value v [mk_mono id (negb cj) f'] = cconj (value v [mk_mono id cj f]).
  Proof. intros ->. unfold value. cbn [fold_right]. unfold term_value. cbn [m_id m_cj m_f]. destruct cj; apply cx_ext; cbn; ring. Qed.
  Lemma herm_terms (v : nat -> cx R) id f f' : cim (v id) = r0 R -> f' = cconj f -> value v [mk_mono id false f'] = cconj (value v [mk_mono id false f]).
  Proof. intros E ->. unfold value. cbn [fold_right]. unfold term_value. cbn [m_id m_cj m_f]. apply cx_ext; cbn; rewrite E; ring. Qed.
End Conj.
(** a Hermitian matrix with a generic symbol off the diagonal *)
Definition cells8 : list (mono Q') := [mq 1 false 1 0; mq 6 true 2 (-3); mq 6 false 2 3; mq 3 false 5 0].
Lemma real8 v id : assignment t8 v -> herm t8 id = true -> id < length (t_syms t8) -> cim (v id : cx Q') = r0 Q'.
Proof. intros A H L. destruct (in_table_sym t8 id L) as [s S]. apply (as_herm t8 v A id s S). now rewrite <- (herm_sym t8 id s S). Qed.
Lemma len8 : length (t_syms t8) = 8. Proof. vm_compute. reflexivity. Qed.
Lemma cells8_ok : Forall (in_table t8) cells8.
Proof. assert (G : forallb (fun x : mono Q' => Nat.ltb (m_id x) (length (t_syms t8))) cells8 = true) by (vm_compute; reflexivity). rewrite forallb_forall in G. apply Forall_forall. intros x I. now apply Nat.ltb_lt, G. Qed.
Lemma cconj8 a b : cq a (- b) = cconj (cq a b).
Proof. unfold cq, cconj. cbn [cre cim]. f_equal. apply Qc_is_canon. change (Qred (- b) == Qred (- Qred b))%Q. now rewrite !Qred_correct. Qed.
Lemma cells8_hermitian : truly_hermitian t8 2 (mono_entry 2 cells8).
Proof.
  intros v A r c Hr Hc. unfold mono_entry, by_columns. destruct r as [|[|r]]; [| |lia]; (destruct c as [|[|c]]; [| |lia]); cbn [nth Nat.mul Nat.add cells8].
  - apply herm_terms; [now rewrite (as_one t8 v A)|exact (cconj8 1 0)].
  - apply (conj_terms Q' v 6 false). exact (cconj8 2 3).
  - apply (conj_terms Q' v 6 true). exact (cconj8 2 (-3)).
  - apply herm_terms; [apply real8; [exact A|vm_compute; reflexivity|rewrite len8; lia]|exact (cconj8 5 0)].
Qed.
(** ... and as a matrix of polynomials with a sum off the diagonal, over symbols that are Hermitian or anti-Hermitian *)
Definition polys8 : list (list (mono Q')) := [[mq 1 false 1 0]; [mq 2 false 2 3; mq 3 false 0 1]; [mq 2 false (-2) 3; mq 3 false 0 (-1)]; [mq 3 false 5 0; mq 4 false 1 0]].
Lemma polys8_canonical : Forall (canonical t8 id_less) polys8.
Proof. repeat (constructor; [apply canonical_by; vm_compute; reflexivity|]). constructor. Qed.
Definition pos8 (x : Q') : bool := Qle_bool 0 (this x).
Lemma polys8_flag : test_hermicity t8 2 polys8 = true. Proof. vm_compute. reflexivity. Qed.
Lemma polys8_flagged : forall p x, In p polys8 -> In x p -> herm t8 (m_id x) = true \/ anti t8 (m_id x) = true.
Proof.
  assert (G : forallb (forallb (fun x : mono Q' => herm t8 (m_id x) || anti t8 (m_id x))) polys8 = true) by (vm_compute; reflexivity).
  intros p x Ip Ix. rewrite forallb_forall in G. specialize (G p Ip). rewrite forallb_forall in G. specialize (G x Ix). now apply orb_true_iff in G.
Qed.
Lemma polys8_hermitian : truly_hermitian t8 2 (poly_entry 2 polys8).
Proof. apply (hermicity_means t8 Q' id_less (id_less_order Q' t8) 2 polys8); [apply t8_good|apply t8_good|exact polys8_canonical|exact polys8_flagged|exact polys8_flag]. Qed.

(** ** counterexamples *)
Lemma bout_bool {R} (o : bout R) (f : basis R -> bool) : match o with BOk b => f b | _ => false end = true -> exists b, o = BOk b /\ f b = true.
Proof. destruct o as [b| |]; try discriminate. eauto. Qed.
Definition opM : list hseq := [hseq_const false; hseq_make 3 [0] SPos; hseq_make 3 [0] SPos; hseq_const false].
Definition cellsI : list (mono Q') := match st_build 2 opM true (ci : cx Q') t8 with Some l => flat_map (fun o => match o with Some e => [e] | None => [] end) l | None => [] end.
Lemma all_some {A} (l : list (option A)) : forallb (fun o => match o with Some _ => true | None => false end) l = true -> l = map Some (flat_map (fun o => match o with Some e => [e] | None => [] end) l).
Proof. induction l as [|[a|] l IH]; cbn; [reflexivity| |discriminate]. intro H. now rewrite <- IH. Qed.
Lemma cellsI_built : st_build 2 opM true (ci : cx Q') t8 = Some (map Some cellsI).
Proof.
  destruct (opt_bool (st_build 2 opM true (ci : cx Q') t8) (forallb (fun o => match o with Some _ => true | None => false end))) as [l [E B]]; [vm_compute; reflexivity|].
  unfold cellsI. rewrite E. f_equal. now apply all_some.
Qed.
Lemma opM_hermitian : hermitian_matrix anti3_sctx 2 opM.
Proof.
  intros r q a b Hr Hq Ea Eb. destruct r as [|[|r]]; [| |lia]; (destruct q as [|[|q]]; [| |lia]); cbn in Ea, Eb; injection Ea as <-; injection Eb as <-; vm_compute; reflexivity.
Qed.
Lemma prefactor_refuted : exists (t : table) (ops : list hseq) (cells : list (mono Q')) m b v r q,
  reachable_clean anti3_sctx anti3_words t /\ starts t /\ elements_ok anti3_words 2 ops /\ hermitian_matrix anti3_sctx 2 ops /\ st_build 2 ops true (ci : cx Q') t = Some (map Some cells) /\
  mono_matrix t 2 true cells = Some m /\ create_basis true true false t m = BOk b /\ assignment t v /\ r < 2 /\ q < 2 /\ combination t v b r q <> value v (mono_entry 2 cells r q).
Proof.
  destruct (opt_bool (mono_matrix t8 2 true cellsI) (fun m => match create_basis true true false t8 m with BOk b => negb (ceqb (combination t8 v8 b 1 0) (value v8 (mono_entry 2 cellsI 1 0))) | _ => false end)) as [m [Em B]]; [vm_compute; reflexivity|].
  apply bout_bool in B. destruct B as [b [Eb B]]. exists t8, opM, cellsI, m, b, v8, 1, 0.
  split; [exact t8_clean|]. split; [apply t8_good|]. split; [split; [reflexivity|]; repeat (constructor; [apply anti3_in; vm_compute; reflexivity|]); constructor|]. split; [exact opM_hermitian|]. split; [exact cellsI_built|]. split; [exact Em|]. split; [exact Eb|]. split; [exact v8_assignment|].
  split; [lia|]. split; [lia|]. apply cneq. now apply negb_true_iff in B.
Qed.
Definition polysN : list (list (mono Q')) := [[mq 1 false 1 0]; [mq 6 false 5 0]; [mq 6 false 2 0]; [mq 1 false 1 0]].
Lemma hermicity_refuted : exists (t : table) (cells : list (list (mono Q'))) (nonneg : Q' -> bool) m b v r q,
  reachable_clean anti3_sctx anti3_words t /\ starts t /\ no_null t /\ Forall (canonical t id_less) cells /\ length cells = 2 * 2 /\
  nonneg (r1 Q') = true /\ nonneg (ropp Q' (r1 Q')) = false /\
  poly_matrix t nonneg 2 cells = Some m /\ sm_herm m = true /\ create_basis false true false t m = BOk b /\ assignment t v /\ r < 2 /\ q < 2 /\ combination t v b r q <> value v (poly_entry 2 cells r q).
Proof.
  destruct (opt_bool (poly_matrix t8 pos8 2 polysN) (fun m => sm_herm m && match create_basis false true false t8 m with BOk b => negb (ceqb (combination t8 v8 b 0 1) (value v8 (poly_entry 2 polysN 0 1))) | _ => false end)) as [m [Em B]]; [vm_compute; reflexivity|].
  apply andb_true_iff in B. destruct B as [Hm B]. apply bout_bool in B. destruct B as [b [Eb B]]. exists t8, polysN, pos8, m, b, v8, 0, 1.
  split; [exact t8_clean|]. split; [apply t8_good|]. split; [apply t8_good|]. split; [repeat (constructor; [apply canonical_by; vm_compute; reflexivity|]); constructor|]. split; [reflexivity|]. split; [vm_compute; reflexivity|]. split; [vm_compute; reflexivity|].
  split; [exact Em|]. split; [exact Hm|]. split; [exact Eb|]. split; [exact v8_assignment|]. split; [lia|]. split; [lia|]. apply cneq. now apply negb_true_iff in B.
Qed.

(** ** cases *)
Lemma monomial_sets (R : rfield) c V : lawful c V -> forall t, reachable_clean c V t -> forall d hermitian (cells : list (mono R)) m b, starts t -> length cells = d * d -> Forall (in_table t) cells ->
  mono_matrix t d hermitian cells = Some m -> represents t d (mono_entry d cells) b ->
  (StronglySorted lt (sm_real m) /\ forall k, In k (sm_real m) <-> nonzero d (nth k (b_real b) zero_matrix)) /\
  (StronglySorted lt (sm_imag m) /\ forall k, In k (sm_imag m) <-> nonzero d (nth k (b_imag b) zero_matrix)).
Proof. intros LW t RC d h cells m b. exact (mono_sets c V LW t RC R id_less (id_less_order R t) d h cells m b). Qed.
Definition cells8r : list (mono Q') := [mq 1 false 1 0; mq 6 true 2 0; mq 6 false 2 0; mq 3 false 5 0].
Lemma built_complex : exists m, mono_matrix t8 2 true cells8 = Some m /\ sm_ccoef m = true.
Proof. apply (opt_bool (mono_matrix t8 2 true cells8) (@sm_ccoef _)). vm_compute. reflexivity. Qed.
Lemma built_real : exists m, mono_matrix t8 2 true cells8r = Some m /\ sm_ccoef m = false.
Proof. destruct (opt_bool (mono_matrix t8 2 true cells8r) (fun m => negb (sm_ccoef m))) as [m [E B]]; [vm_compute; reflexivity|]. exists m. split; [exact E|]. apply negb_true_iff. exact B. Qed.
Lemma both_bases : exists b b', represents t8 2 (mono_entry 2 cells8) b /\ represents t8 2 (mono_entry 2 cells8) b' /\
  exists m, mono_matrix t8 2 true cells8 = Some m /\ create_basis true true false t8 m = BOk b /\ create_basis true false false t8 m = BOk b'.
Proof.
  destruct (monomial_basis Q' _ _ anti3_lawful t8 t8_clean 2 true cells8 eq_refl cells8_ok (fun _ => cells8_hermitian)) as [m [E B]].
  destruct (B true) as [b [E1 B1]]. destruct (B false) as [b' [E2 B2]]. exists b, b'. split; [exact B1|]. split; [exact B2|]. exists m. split; [exact E|]. split; [exact E1|exact E2].
Qed.
Lemma a_basis : exists b, represents t8 2 (mono_entry 2 cells8) b.
Proof. destruct both_bases as (b & b' & B & _). exists b; assumption. Qed.
Definition nats_eqb (a b : list nat) : bool := if list_eq_dec Nat.eq_dec a b then true else false.
Lemma nats_eqb_eq a b : nats_eqb a b = true -> a = b.
Proof. unfold nats_eqb. destruct (list_eq_dec Nat.eq_dec a b); [auto|discriminate]. Qed.
Lemma poly_sets_case : exists m, poly_matrix t8 pos8 2 polys8 = Some m /\ sm_symbols m = [1; 2; 3; 4] /\ exists b, represents t8 2 (poly_entry 2 polys8) b.
Proof.
  destruct (opt_bool (poly_matrix t8 pos8 2 polys8) (fun m => nats_eqb (sm_symbols m) [1; 2; 3; 4])) as [m [E B]]; [vm_compute; reflexivity|]. exists m. split; [exact E|]. split; [apply nats_eqb_eq; assumption|].
  destruct (polynomial_basis _ _ anti3_lawful t8 t8_clean Q' id_less (id_less_order Q' t8) pos8 eq_refl eq_refl 2 polys8 eq_refl polys8_canonical) as [m' [_ B']].
  destruct (B' (fun _ => polys8_hermitian) true) as [b [_ B2]]. exists b; assumption.
Qed.
Lemma mono_sets_case : exists m, mono_matrix t8 2 true cells8 = Some m /\ sm_real m = [0; 1; 4] /\ sm_imag m = [1] /\ exists b, represents t8 2 (mono_entry 2 cells8) b.
Proof.
  destruct (opt_bool (mono_matrix t8 2 true cells8) (fun m => nats_eqb (sm_real m) [0; 1; 4] && nats_eqb (sm_imag m) [1])) as [m [E B]]; [vm_compute; reflexivity|]. apply andb_true_iff in B. destruct B as [B1 B2].
  exists m. split; [exact E|]. split; [apply nats_eqb_eq; assumption|]. split; [apply nats_eqb_eq; assumption|exact a_basis].
Qed.
Lemma polys8_rev : test_hermicity t8 2 (rev polys8) = true. Proof. vm_compute. reflexivity. Qed.
