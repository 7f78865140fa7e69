(** Examples and counterexamples for C65. *)
From Coq Require Import List Arith NArith ZArith QArith Qcanon Bool Sorted Permutation Lia.
From Verif Require Import CoreModel FieldModel FieldProofs SymModel SymSpec SymWitnessProofs PolyModel PolySpec PolyProofs PolyTableProofs PolyFinalProofs PolyWitnessProofs ParModel DerModel DerSpec DerCoreProofs DerProofs DerFinalProofs DerThmProofs.
Import ListNotations.
Local Open Scope nat_scope.

Section Wrap.
  Context {R : rfield}.
  Variables (positive : R -> bool) (srt : list (mono R) -> list (mono R)) (solve : mapcore R -> option (solution R)) (t : table) (x : input R).
  Hypothesis Rd : ready positive srt solve t x.
  Lemma w_images v : assignment t v -> acts x t v -> exists m, make_map positive srt solve t table_start x = MBuilt m /\ assignment (s_target m) (new_values m v) /\ length (s_inv m) = length (t_syms (s_target m)) /\
    (forall i id cj f, i < in_cols x -> map_index t i = Some (id, false) -> id <> 0 -> (cj = true -> cim f = r0 R) ->
      exists p, apply_mono m (mk_mono id cj f) = Some p /\ canonical (s_target m) id_less p /\ value (new_values m v) p = cmul f (if cj then cconj (image x t v i) else image x t v i)) /\
    (forall y, length (t_syms t) <= m_id y -> apply_mono m y = None).
  Proof. destruct Rd. now apply f_images. Qed.
  Lemma w_invariant v m : assignment t v -> acts x t v -> invariant x t v -> make_map positive srt solve t table_start x = MBuilt m ->
    forall p, (forall y, In y p -> covered x t (m_id y) /\ (m_cj y = true -> cim (m_f y) = r0 R)) ->
    exists q, apply_poly srt m p = Some q /\ canonical (s_target m) id_less q /\ value (new_values m v) q = value v p.
  Proof. destruct Rd. now apply f_invariant. Qed.
  Lemma w_monomial v m y p : assignment t v -> acts x t v -> make_map positive srt solve t table_start x = MBuilt m -> apply_mono m y = Some p ->
    (s_mono m = false -> apply_monomial m y = None) /\ (s_mono m = true -> exists z, apply_monomial m y = Some z /\ term_value (new_values m v) z = value (new_values m v) p).
  Proof.
    intros A B E Ep. split; intros M; [unfold apply_monomial; now rewrite M|]. destruct (w_images v A B) as [m' [E' [As _]]]. rewrite E in E'. injection E' as <-.
    apply monomial_value; [eapply map_monomial, E|apply As|exact M|exact Ep].
  Qed.
End Wrap.
Lemma w_refuses (R : rfield) (positive : R -> bool) srt solve t x target m :
  (forall i, i < in_cols x -> map_index t i = None -> make_map positive srt solve t target x = MThrow) /\
  (forall r, well_formed x -> indexed t (in_cols x) -> r < in_rows x -> entry x r 0 <> (if Nat.eqb r 0 then r1 R else r0 R) -> make_map positive srt solve t target x = MThrow) /\
  (length (t_syms target) <> 2 -> make_map positive srt solve t target x <> MBuilt m).
Proof. split; [intros; now apply (refuses_words positive srt solve t target x i)|]. split; [intros r; apply refuses_first|apply refuses_target]. Qed.
Lemma w_average (R : rfield) (inv : R) mats n t v c :
  image (Dense n n (average inv mats)) t v c = cmul (creal inv) (csum mats (fun d => image (Dense n n d) t v c)) /\
  forall d, permuted_by n mats d -> c < n -> lsum (seq 0 n) (fun r => cmul (creal (d r c)) (image (Dense n n (average inv mats)) t v r)) = image (Dense n n (average inv mats)) t v c.
Proof. split; [apply average_value|intros d; apply average_fixed]. Qed.

(** a processor: the core times the identity *)
Definition plain_solve {R : rfield} (c : mapcore R) : option (solution R) :=
  let n := length (mc_rows c) in
  Some (mk_solution n true (mk_matrix (length (mc_cols c)) n (fun a b => nth b (nth a (mc_core c) []) (r0 R))) (mk_matrix n n (fun i j => if Nat.eqb i j then r1 R else r0 R))).
Section Plain.
  Context {R : rfield}.
  Add Ring Rr4 : (F_R (r_field R)).
  Lemma rsum_pick (f : nat -> R) b : forall n s, (s <= b -> b < s + n -> fold_right (fun k acc => radd R (rmul R (f k) (if Nat.eqb k b then r1 R else r0 R)) acc) (r0 R) (seq s n) = f b) /\
    (b < s -> fold_right (fun k acc => radd R (rmul R (f k) (if Nat.eqb k b then r1 R else r0 R)) acc) (r0 R) (seq s n) = r0 R).
  Proof.
    induction n as [|n IH]; intros s; cbn [seq fold_right]; (split; [intros L1 L2|intros L]); [lia|reflexivity| |].
    - destruct (Nat.eqb_spec s b) as [->|N]; [rewrite (proj2 (IH (S b))) by lia; ring|]. rewrite (proj1 (IH (S s))) by lia. ring.
    - destruct (Nat.eqb_spec s b); [lia|]. rewrite (proj2 (IH (S s))) by lia. ring.
  Qed.
  Lemma plain_processes : processes (@plain_solve R).
  Proof.
    intros c _ _. eexists. split; [reflexivity|]. split; [|split; [reflexivity|]].
    - unfold check_solution. cbn [so_dense so_map so_inv so_out x_rows x_cols]. now rewrite !Nat.eqb_refl.
    - intros a b La Lb. cbn [so_map so_inv so_out x_at]. unfold rsum. apply (proj1 (rsum_pick (fun k => nth k (nth a (mc_core c) []) (r0 R)) b (length (mc_rows c)) 0)); lia.
  Qed.
End Plain.

(** words of up to two of X, Y, Z with Y X = - X Y; the symmetry exchanges X and Y *)
Definition tD : table := table_after anti3_sctx [OFill 2; OUpdateMap 2].
(** 1 X Y Z XX XY XZ YY YZ ZX ZY ZZ *)
Definition one12 (r c : nat) : Q' := if Nat.eqb r c then r1 Q' else r0 Q'.
Definition swap12 (r c : nat) : Q' :=
  if Nat.eqb c 5 then (if Nat.eqb r 5 then ropp Q' (r1 Q') else r0 Q')
  else if Nat.eqb r (nth c [0; 2; 1; 3; 7; 5; 8; 4; 6; 10; 9; 11] 0) then r1 Q' else r0 Q'.
Definition half : Q' := Q2Qc (1 # 2).
Definition sym12 : input Q' := Dense 12 12 (average half [one12; swap12]).
Definition pos_q (z : Q') : bool := match Qccompare z (Q2Qc 0) with Gt => true | _ => false end.
Definition srt_q : list (mono Q') -> list (mono Q') := isort id_less.
Definition vD (id : nat) : cx Q' := match id with 1 => c1 | 2 | 3 => cq 2 0 | 4 => cq 3 0 | 5 | 8 => cq 5 0 | 7 | 9 => cq 1 2 | 10 => cq 7 0 | _ => c0 end.
Lemma srt_q_sorts s : sorts s id_less srt_q. Proof. apply isort_sorts, id_less_order. Qed.
Lemma indexed_by t n : match map_index t 0 with Some (1, false) => true | _ => false end = true -> forallb (fun i => match map_index t i with Some (id, _) => Nat.ltb id (length (t_syms t)) | None => false end) (seq 0 n) = true -> indexed t n.
Proof.
  intros H F. split; [destruct (map_index t 0) as [[[|[|k]] []]|]; try discriminate; reflexivity|]. intros i L. rewrite forallb_forall in F. specialize (F i ltac:(apply in_seq; lia)). destruct (map_index t i) as [[id cj]|]; [|discriminate]. exists id, cj. split; [reflexivity|]. now apply Nat.ltb_lt.
Qed.
Lemma tD_starts : starts tD. Proof. vm_compute. do 3 eexists. repeat split. Qed.
Lemma ready_D : ready pos_q srt_q plain_solve tD sym12.
Proof. constructor; [vm_compute; reflexivity|exact srt_q_sorts|apply plain_processes|exact I|apply indexed_by; vm_compute; reflexivity|exact tD_starts]. Qed.
Lemma vD_assignment : assignment tD vD. Proof. apply assignment_by; [reflexivity|reflexivity|vm_compute; reflexivity]. Qed.
(** different unconjugated words have different symbols *)
Definition told_apart (t : table) (n : nat) : bool := forallb (fun i => forallb (fun j => match map_index t i, map_index t j with Some (a, false), Some (b, false) => Nat.eqb i j || negb (Nat.eqb a b) | _, _ => true end) (seq 0 n)) (seq 0 n).
Lemma acts_by (x : input Q') t v : (1 <=? in_rows x) && (in_rows x <=? in_cols x) && forallb (fun r => r_eqb Q' (entry x r 0) (if Nat.eqb r 0 then r1 Q' else r0 Q')) (seq 0 (in_rows x)) && told_apart t (in_cols x) = true -> acts x t v.
Proof.
  intros H. apply andb_true_iff in H. destruct H as [H T]. apply andb_true_iff in H. destruct H as [H F]. apply andb_true_iff in H. destruct H as [H1 H2]. apply Nat.leb_le in H1, H2.
  split; [exact H1|]. split; [exact H2|]. split.
  - intros r L. rewrite forallb_forall in F. apply (r_eqb_spec Q'), F, in_seq. lia.
  - intros i j id Li Lj Ei Ej. unfold told_apart in T. rewrite forallb_forall in T. specialize (T i ltac:(apply in_seq; lia)). rewrite forallb_forall in T. specialize (T j ltac:(apply in_seq; lia)). rewrite Ei, Ej, Nat.eqb_refl, orb_false_r in T. apply Nat.eqb_eq in T. now subst.
Qed.
Lemma acts_D v : acts sym12 tD v. Proof. apply acts_by. vm_compute. reflexivity. Qed.
Lemma invariant_by (x : input Q') t v : forallb (fun i => match map_index t i with Some (_, false) => ceqb (image x t v i) (word_value t v i) | _ => true end) (seq 0 (in_cols x)) = true -> invariant x t v.
Proof. intros F i id L E. rewrite forallb_forall in F. specialize (F i ltac:(apply in_seq; lia)). rewrite E in F. now apply ceqb_spec. Qed.
Lemma invariant_D : invariant sym12 tD vD. Proof. apply invariant_by. vm_compute. reflexivity. Qed.
(** the polynomial (2 + i) X Z + 3 (Y Z)* - Z *)
Definition pD : list (mono Q') := [mq 4 false (-1) 0; mq 7 false 2 1; mq 9 true 3 0].
Definition is_built {R : rfield} (m : made R) (f : symmap R -> bool) : bool := match m with MBuilt m => f m | _ => false end.
Lemma built_by {R : rfield} (m : made R) f : is_built m f = true -> exists s, m = MBuilt s /\ f s = true.
Proof. destruct m; cbn; try discriminate. eauto. Qed.
Lemma map_D : exists m, make_map pos_q srt_q plain_solve tD table_start sym12 = MBuilt m /\
  (length (t_syms (s_target m)) =? 10) && negb (s_mono m) && match apply_poly srt_q m pD with Some q => (length q =? 5) && negb (ceqb (value (new_values m vD) q) c0) | None => false end = true.
Proof. apply built_by. vm_compute. reflexivity. Qed.
Lemma covered_D y : In y pD -> covered sym12 tD (m_id y) /\ (m_cj y = true -> cim (m_f y) = r0 Q').
Proof.
  intros [<-|[<-|[<-|[]]]]; cbn [m_id m_cj m_f mq cq cim]; (split; [split; [discriminate|]|discriminate || reflexivity]).
  - exists 3. split; [cbn; lia|vm_compute; reflexivity].
  - exists 6. split; [cbn; lia|vm_compute; reflexivity].
  - exists 8. split; [cbn; lia|vm_compute; reflexivity].
Qed.
(** i times the conjugate of X Z *)
Lemma conjugate_refuted : exists (positive : Q' -> bool) srt solve t x v m i id f p, ready positive srt solve t x /\ assignment t v /\ acts x t v /\ invariant x t v /\ make_map positive srt solve t table_start x = MBuilt m /\
  i < in_cols x /\ map_index t i = Some (id, false) /\ apply_mono m (mk_mono id true f) = Some p /\ value (new_values m v) p <> cmul f (cconj (image x t v i)).
Proof.
  destruct (built_by (make_map pos_q srt_q plain_solve tD table_start sym12) (fun m => match apply_mono m (mk_mono 7 true (cq 0 1)) with Some p => negb (ceqb (value (new_values m vD) p) (cmul (cq 0 1) (cconj (image sym12 tD vD 6)))) | None => false end)) as [m [E F]]; [vm_compute; reflexivity|].
  destruct (apply_mono m (mk_mono 7 true (cq 0 1))) as [p|] eqn:Ep; [|discriminate]. apply negb_true_iff in F.
  exists pos_q, srt_q, plain_solve, tD, sym12, vD, m, 6, 7, (cq 0 1), p. split; [exact ready_D|]. split; [exact vD_assignment|]. split; [apply acts_D|]. split; [exact invariant_D|]. split; [exact E|]. split; [cbn; lia|]. split; [vm_compute; reflexivity|]. split; [exact Ep|]. now apply cneq.
Qed.
(** all words of up to two operators are symbols, the map knows words of up to one *)
Definition t1 : table := table_after anti3_sctx [OFill 2; OUpdateMap 1].
Definition one4 : input Q' := Dense 4 4 one12.
Lemma ready_1 : ready pos_q srt_q plain_solve t1 one4.
Proof. constructor; [vm_compute; reflexivity|exact srt_q_sorts|apply plain_processes|exact I|apply indexed_by; vm_compute; reflexivity|vm_compute; do 3 eexists; repeat split]. Qed.
Lemma beyond_refuted : exists (positive : Q' -> bool) srt solve t x v m id, ready positive srt solve t x /\ assignment t v /\ acts x t v /\ invariant x t v /\ make_map positive srt solve t table_start x = MBuilt m /\
  id < length (t_syms t) /\ v id <> c0 /\ apply_mono m (mk_mono id false c1) = Some [] /\ t_map_len t = 1 /\ allowed (t_map_len t) 1 (WMoment 1) = false /\ allowed (t_map_len t) 1 (WDerived 0) = true.
Proof.
  destruct (built_by (make_map pos_q srt_q plain_solve t1 table_start one4) (fun m => match apply_mono m (mk_mono 7 false c1) with Some [] => true | _ => false end)) as [m [E F]]; [vm_compute; reflexivity|].
  exists pos_q, srt_q, plain_solve, t1, one4, vD, m, 7. split; [exact ready_1|]. split; [apply assignment_by; [reflexivity|reflexivity|vm_compute; reflexivity]|]. split; [apply acts_by; vm_compute; reflexivity|]. split; [apply invariant_by; vm_compute; reflexivity|]. split; [exact E|]. split; [vm_compute; lia|]. split; [apply cneq; vm_compute; reflexivity|].
  split; [destruct (apply_mono m (mk_mono 7 false c1)) as [[|]|]; [reflexivity|discriminate F|discriminate F]|]. split; [vm_compute; reflexivity|]. split; vm_compute; reflexivity.
Qed.
(** a monomial map: the words of odd degree in Z vanish *)
Definition odd12 (r c : nat) : Q' := if Nat.eqb r c then (if existsb (Nat.eqb c) [3; 6; 8; 9; 10] then ropp Q' (r1 Q') else r1 Q') else r0 Q'.
Definition mon12 : input Q' := Dense 12 12 (average half [one12; odd12]).
Lemma ready_M : ready pos_q srt_q plain_solve tD mon12.
Proof. constructor; [vm_compute; reflexivity|exact srt_q_sorts|apply plain_processes|exact I|apply indexed_by; vm_compute; reflexivity|exact tD_starts]. Qed.
Lemma acts_M v : acts mon12 tD v. Proof. apply acts_by. vm_compute. reflexivity. Qed.
Lemma map_M : exists m, make_map pos_q srt_q plain_solve tD table_start mon12 = MBuilt m /\ s_mono m && match apply_mono m (mq 5 false 2 0) with Some p => (length p =? 1) | None => false end && match apply_mono m (mq 7 true 2 0) with Some p => (length p =? 0) | None => false end = true.
Proof. apply built_by. vm_compute. reflexivity. Qed.
(** the two matrices are a group *)
Lemma permuted_by_test (mats mats' : list (nat -> nat -> Q')) n d : Permutation mats mats' -> length mats = length mats' ->
  forallb (fun ef => forallb (fun r => forallb (fun c => r_eqb Q' (product n (fst ef) d r c) (snd ef r c)) (seq 0 n)) (seq 0 n)) (List.combine mats mats') = true -> permuted_by n mats d.
Proof.
  intros P L F. exists mats'. split; [exact P|]. clear P. revert mats' L F. induction mats as [|e mats IH]; intros [|f mats'] L F; try discriminate; [constructor|]. cbn [List.combine forallb] in F. apply andb_true_iff in F. destruct F as [F1 F2]. constructor; [|apply IH; [now injection L|exact F2]].
  intros r c Lr Lc. rewrite forallb_forall in F1. specialize (F1 r ltac:(apply in_seq; lia)). rewrite forallb_forall in F1. specialize (F1 c ltac:(apply in_seq; lia)). now apply (r_eqb_spec Q').
Qed.
Lemma group_D d : In d [one12; swap12] -> permuted_by 12 [one12; swap12] d.
Proof.
  intros [<-|[<-|[]]].
  - apply (permuted_by_test _ [one12; swap12]); [apply Permutation_refl|reflexivity|vm_compute; reflexivity].
  - apply (permuted_by_test _ [swap12; one12]); [apply perm_swap|reflexivity|vm_compute; reflexivity].
Qed.
(** a factorization with pivoting: (0 2 / 4 6) with both rows and columns exchanged is (6 4 / 2 0) = (1 0 / 1/3 1) (6 4 / 0 -4/3) *)
Definition lu2 (A : list (list Q')) : nat * (nat -> nat -> Q') * (nat -> nat) * (nat -> nat) :=
  (2, (fun i j => Q2Qc match i, j with 0, 0 => 6 # 1 | 0, _ => 4 # 1 | _, 0 => 1 # 3 | _, _ => -4 # 3 end), (fun i => 1 - i), (fun j => 1 - j)).
Definition core2 : mapcore Q' := mk_core [3; 4] [1; 5] [] [r0 Q'; r0 Q'] (map (map (fun z => Q2Qc z)) [[0 # 1; 2 # 1]; [4 # 1; 6 # 1]]%Q).
Lemma lu2_contract : lu_contract lu2 (mc_core core2) 2.
Proof.
  unfold lu_contract. intros i j Li Lj. cbn [mc_core core2 map length] in Li. destruct i as [|[|i]]; [| |lia]; (destruct j as [|[|j]]; [| |lia]); apply (r_eqb_spec Q'); vm_compute; reflexivity.
Qed.
(** a first column that is not the identity *)
Definition bad12 : input Q' := Dense 12 12 (fun r c => if Nat.eqb r (if Nat.eqb c 0 then 1 else c) then r1 Q' else r0 Q').
Lemma bad12_case : well_formed bad12 /\ indexed tD (in_cols bad12) /\ entry bad12 0 0 <> r1 Qc_rfield /\ map_index table_start 1 = None /\ length (t_syms tD) = 11.
Proof. split; [exact I|]. split; [apply indexed_by; vm_compute; reflexivity|]. split; [apply rneq; vm_compute; reflexivity|]. split; vm_compute; reflexivity. Qed.
