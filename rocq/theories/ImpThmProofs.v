(** Sessions of imports. *)
From Coq Require Import List NArith ZArith Arith Bool Lia Field.
From Verif Require Import CoreModel CoreSpec FieldModel FieldProofs SymModel SymSpec SymProofs SymFinalProofs SymMoreProofs PolyModel PolySpec PolyTableProofs BasModel BasSpec BasFinalProofs ImpModel ImpSpec ImpProofs ImpRunProofs.
Import ListNotations.

Section Thm.
  Context {R : rfield}.
  Add Field Rft : (r_field R).
  Add Field Cft : (cx_field R).
  Notation mono := (mono R).
  Definition narrower (t t' : table) : Prop := length (t_syms t) <= length (t_syms t') /\ forall v : nat -> cx R, assignment t' v -> assignment t v.
  Definition mat_ok (t : table) (m : imat R) : Prop :=
    length (im_cells m) = im_dim m * im_dim m /\ Forall (in_table t) (im_cells m) /\ (im_herm m = true -> truly_hermitian t (im_dim m) (mono_entry (im_dim m) (im_cells m))).
  Definition sound (s : imsys R) : Prop := imported_table (sys_table s) /\ Forall (mat_ok (sys_table s)) (sys_mats s).
  Lemma narrower_in t t' (x : mono) : narrower t t' -> in_table t x -> in_table t' x.
  Proof. intros [L _] I. unfold in_table in *. lia. Qed.
  Lemma narrower_ok t t' m : narrower t t' -> mat_ok t m -> mat_ok t' m.
  Proof.
    intros N (A & B & C). split; [exact A|]. split; [eapply Forall_impl; [|exact B]; intros x; now apply narrower_in|]. intros H v As. apply C; [exact H|]. now apply N.
  Qed.
  Lemma canonical_entry t (v : nat -> cx R) d (cells : list mono) i j : assignment t v -> Forall (in_table t) cells -> length cells = d * d -> i < d -> j < d ->
    entry_value v d (map (canonical_mono t) cells) i j = entry_value v d cells i j.
  Proof.
    intros A F L Hi Hj. rewrite !entry_elem. unfold elem.
    rewrite (nth_indep _ (mk_mono 0 false c0) (canonical_mono t (mk_mono 0 false c0))) by (rewrite map_length, L; nia). rewrite map_nth.
    apply canonical_mono_value; [exact A|]. rewrite Forall_forall in F. apply F. apply nth_In. rewrite L. nia.
  Qed.
  Lemma canonical_ok t d herm b (cells : list mono) b' : mat_ok t (mk_imat d herm cells b) -> mat_ok t (mk_imat d herm (map (canonical_mono t) cells) b').
  Proof.
    intros (A & B & C). cbn [im_dim im_herm im_cells] in *. split; [cbn; now rewrite map_length|]. split; cbn [im_dim im_herm im_cells].
    - apply Forall_forall. intros x I. apply in_map_iff in I. destruct I as (y & <- & I). apply canonical_mono_in. rewrite Forall_forall in B. now apply B.
    - intros H v As r q Hr Hq. pose proof (C H v As r q Hr Hq) as E. fold (entry_value v d cells q r) (entry_value v d cells r q) in E.
      fold (entry_value v d (map (canonical_mono t) cells) q r) (entry_value v d (map (canonical_mono t) cells) r q).
      rewrite !canonical_entry by assumption. exact E.
  Qed.
  Lemma renumber_ok t t' m : narrower t t' -> mat_ok t m -> mat_ok t' (renumber t' m).
  Proof. intros N H. apply (narrower_ok t t') in H; [|exact N]. destruct m as [d h cs b]. unfold renumber. cbn [im_dim im_herm im_cells im_basis]. eapply canonical_ok. exact H. Qed.

  (** one import *)
  Lemma import_done s cplx hermitian d cells s' : sound s -> input_ok d cells -> import_matrix cplx hermitian d cells s = Some (true, s') ->
    narrower (sys_table s) (sys_table s') /\ sound s' /\ sys_real s' = sys_real s /\ sys_real s && cplx = false /\
    (forall v, assignment (sys_table s') v <-> assignment (sys_table s) v /\ imposes (sys_real s) cplx hermitian d cells (length (t_syms (sys_table s'))) v) /\
    exists ch old, sys_mats s' = old ++ [mk_imat d hermitian (map (canonical_mono (sys_table s')) cells) None] /\
      old = (if (ch : bool) then map (renumber (sys_table s')) (sys_mats s) else sys_mats s) /\
      (ch = false -> forall id, flags_at (sys_table s') (S id) = flags_at (sys_table s) (S id)).
  Proof.
    intros [T MO] IO H. unfold import_matrix in H. destruct (sys_real s && cplx) eqn:RC; [discriminate|].
    destruct (import_bits (sys_real s) cplx hermitian d cells (sys_table s)) as [[re im]|] eqn:IB; [|discriminate].
    destruct (merge_bits (sys_table s) re im) as [t' ch|t'|] eqn:M; try discriminate. apply some_inj in H. injection H as <-. cbn [sys_table sys_mats sys_real].
    assert (LR : length re = S (max_symbol (sys_table s) cells)) by (apply (import_bits_means (fun _ => c0) eq_refl _ _ _ _ _ _ _ _ IO IB)).
    assert (LI : length im = S (max_symbol (sys_table s) cells)) by (apply (import_bits_means (fun _ => c0) eq_refl _ _ _ _ _ _ _ _ IO IB)).
    assert (E1 : length re = length im) by congruence. assert (E2 : length (t_syms (sys_table s)) <= length re) by (rewrite LR; apply max_symbol_spec).
    assert (AS : forall v, assignment t' v <-> assignment (sys_table s) v /\ imposes (sys_real s) cplx hermitian d cells (length (t_syms t')) v).
    { intro v. destruct (merge_means _ re im t' ch v T E1 E2 M) as [L A]. rewrite A, L, LR. split; intros [P Q]; (split; [exact P|]).
      - apply (import_bits_means v (as_zero _ _ P) _ _ _ _ _ _ _ _ IO IB). exact Q.
      - apply (import_bits_means v (as_zero _ _ P) _ _ _ _ _ _ _ _ IO IB). exact Q. }
    assert (L' : length (t_syms t') = length re) by (apply (merge_means _ re im t' ch (fun _ => c0 : cx R) T E1 E2 M)).
    assert (N : narrower (sys_table s) t') by (split; [lia|intros v Q; now apply AS]).
    assert (NEW : mat_ok t' (mk_imat d hermitian (map (canonical_mono t') cells) None)).
    { apply (canonical_ok t' d hermitian None cells None). split; [apply IO|]. split; cbn [im_dim im_herm im_cells].
      - apply Forall_forall. intros x I. unfold in_table. rewrite L', LR. now apply max_symbol_spec.
      - intros HH v Q r q Hr Hq. apply AS in Q. destruct Q as [_ (_ & _ & Q)]. exact (Q HH r q Hr Hq). }
    split; [exact N|]. split; [|split; [reflexivity|split; [reflexivity|split; [exact AS|]]]].
    - split; [exact (imported_more _ _ _ _ _ T M)|]. cbn [sys_mats sys_table]. apply Forall_app. split; [|constructor; [exact NEW|constructor]]. destruct ch.
      + apply Forall_forall. intros m I. apply in_map_iff in I. destruct I as (m0 & <- & I). apply (renumber_ok (sys_table s)); [exact N|]. rewrite Forall_forall in MO. now apply MO.
      + eapply Forall_impl; [|exact MO]. intro m. now apply narrower_ok.
    - exists ch. eexists. split; [reflexivity|]. split; [reflexivity|]. intros -> id.
      destruct (update_flags _ _ imported_lawful _ re im t' false (clean_reachable _ _ _ (imported_clean _ T)) M) as (_ & _ & [_ K]).
      destruct (flags_at t' (S id)) as [a b] eqn:Ea, (flags_at (sys_table s) (S id)) as [a' b'] eqn:Eb. destruct (Bool.bool_dec a a') as [->|D]; [destruct (Bool.bool_dec b b') as [->|D]; [reflexivity|]|].
      + discriminate K. exists id. rewrite Ea, Eb. congruence.
      + discriminate K. exists id. rewrite Ea, Eb. congruence.
  Qed.
  Lemma import_failed (s : imsys R) cplx hermitian d cells s' : import_matrix cplx hermitian d cells s = Some (false, s') -> sys_mats s' = sys_mats s /\ sys_real s' = sys_real s /\
    (sys_table s' = sys_table s \/ half_way cplx hermitian d cells s).
  Proof.
    intro H. unfold import_matrix in H. destruct (sys_real s && cplx) eqn:RC; [apply some_inj in H; injection H as <-; auto|].
    destruct (import_bits (sys_real s) cplx hermitian d cells (sys_table s)) as [[re im]|] eqn:IB; [|apply some_inj in H; injection H as <-; auto].
    destruct (merge_bits (sys_table s) re im) as [t' ch|t'|] eqn:M; try discriminate. apply some_inj in H. injection H as <-. cbn. split; [reflexivity|]. split; [reflexivity|].
    right. exists re, im, t'. auto.
  Qed.
  Lemma import_defined (s : imsys R) cplx hermitian d cells : sound s -> input_ok d cells -> import_matrix cplx hermitian d cells s <> None.
  Proof.
    intros [T _] IO H. unfold import_matrix in H. destruct (sys_real s && cplx); [discriminate|].
    destruct (import_bits (sys_real s) cplx hermitian d cells (sys_table s)) as [[re im]|] eqn:IB; [|discriminate].
    destruct (import_bits_means (fun _ => c0 : cx R) eq_refl _ _ _ _ _ _ _ _ IO IB) as (LR & LI & _).
    destruct (merge_cases (sys_table s) re im T) as [(t' & b & E)|(t' & id & r & i & E & _)]; [congruence|rewrite LR; apply max_symbol_spec| |]; rewrite E in H; discriminate.
  Qed.

  (** the basis of a matrix *)
  Lemma nth_error_put {A} (l : list A) k m x i : nth_error l k = Some m -> nth_error (firstn k l ++ x :: skipn (S k) l) i = if Nat.eqb i k then Some x else nth_error l i.
  Proof.
    revert l i. induction k as [|k IH]; intros [|y l] i H; cbn in H; try discriminate.
    - destruct i; reflexivity.
    - destruct i as [|i]; [reflexivity|]. cbn [firstn skipn app nth_error Nat.eqb]. now apply IH.
  Qed.
  Lemma mat_basis t m : imported_table t -> mat_ok t m -> exists x, mono_matrix t (im_dim m) (im_herm m) (im_cells m) = Some x /\
    forall is_dense, exists b, create_basis true is_dense false t x = BOk b /\ represents t (im_dim m) (mono_entry (im_dim m) (im_cells m)) b.
  Proof. intros T (A & B & C). exact (monomial_basis R imported_sctx imported_words imported_lawful t (imported_clean t T) _ _ _ A B C). Qed.
  Lemma skipn_S {A} (l : list A) : forall k, skipn (S k) l = skipn 1 (skipn k l).
  Proof. induction l as [|y l IH]; intros [|k]; try reflexivity. change (skipn (S k) l = skipn 1 (skipn k l)). apply IH. Qed.
  Lemma basis_sound is_dense (s : imsys R) k o s' : sound s -> get_basis is_dense k s = Some (o, s') -> sound s' /\ sys_table s' = sys_table s /\ sys_real s' = sys_real s.
  Proof.
    intros [T MO] H. unfold get_basis in H. destruct (nth_error (sys_mats s) k) as [m|] eqn:K; [|discriminate].
    destruct (im_basis m) as [b|] eqn:B; [apply some_inj in H; injection H as <- <-; repeat split; assumption|].
    assert (OK : mat_ok (sys_table s) m) by (rewrite Forall_forall in MO; apply MO; eapply nth_error_In; exact K).
    destruct (mat_basis (sys_table s) m T OK) as (x & EX & BX). destruct (BX is_dense) as (b & EB & _). rewrite EX, EB in H. apply some_inj in H. injection H as <- <-. cbn [sys_table sys_real].
    split; [|split; reflexivity]. split; [exact T|]. cbn [sys_mats sys_table]. rewrite <- (firstn_skipn k (sys_mats s)) in MO. apply Forall_app in MO. destruct MO as [M1 M2].
    apply Forall_app. split; [exact M1|]. constructor; [exact OK|]. rewrite <- (firstn_skipn 1 (skipn k (sys_mats s))) in M2. apply Forall_app in M2. destruct M2 as [_ M2].
    change (Forall (mat_ok (sys_table s)) (skipn (S k) (sys_mats s))). rewrite skipn_S. exact M2.
  Qed.
  Lemma session_sound is_dense (s : imsys R) : session is_dense s -> sound s.
  Proof.
    induction 1 as [pr|s o s' SS IH Q E].
    - split; [exact imported_start|constructor].
    - destruct o as [cplx hermitian d cells|k]; cbn in E, Q.
      + destruct Q as [IO NH]. destruct (import_matrix cplx hermitian d cells s) as [[ok s1]|] eqn:M; [|discriminate]. cbn in E. apply some_inj in E. subst s1. destruct ok.
        * now apply (import_done s cplx hermitian d cells s' IH IO).
        * destruct (import_failed _ _ _ _ _ _ M) as (A & B & [C|C]); [|contradiction]. destruct IH as [T MO]. split; [now rewrite C|now rewrite A, C].
      + destruct (get_basis is_dense k s) as [[o s1]|] eqn:G; apply some_inj in E; subst; [|exact IH]. now apply (basis_sound is_dense s k o s').
  Qed.
End Thm.
