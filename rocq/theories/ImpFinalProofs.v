(** The statements about imports. *)
From Coq Require Import List NArith ZArith Arith Bool Lia Field.
From Verif Require Import CoreModel CoreSpec FieldModel FieldProofs SymModel SymSpec SymFinalProofs PolyModel PolySpec PolyFinalProofs BasModel BasSpec BasFinalProofs ImpModel ImpSpec ImpProofs ImpRunProofs ImpThmProofs.
Import ListNotations.

Section Final.
  Context {R : rfield}.
  Add Field Rff : (r_field R).
  Add Field Cff : (cx_field R).
  Notation mono := (mono R).
  Variable is_dense : bool.
  Lemma f_meaning (s : imsys R) cplx hermitian d cells s' : session is_dense s -> input_ok d cells -> import_matrix cplx hermitian d cells s = Some (true, s') ->
    forall v, assignment (sys_table s') v <-> assignment (sys_table s) v /\ imposes (sys_real s) cplx hermitian d cells (length (t_syms (sys_table s'))) v.
  Proof. intros SE IO H. apply (import_done s cplx hermitian d cells s' (session_sound is_dense s SE) IO H). Qed.
  Lemma f_new_symbols (s : imsys R) cplx hermitian d cells s' : session is_dense s -> input_ok d cells -> import_matrix cplx hermitian d cells s = Some (true, s') ->
    length (t_syms (sys_table s)) <= length (t_syms (sys_table s')) /\ Forall (in_table (sys_table s')) cells.
  Proof.
    intros SE IO H. pose proof (session_sound is_dense s SE) as SO. destruct (import_done s cplx hermitian d cells s' SO IO H) as ([L _] & _). split; [exact L|].
    unfold import_matrix in H. destruct (sys_real s && cplx); [discriminate|]. destruct (import_bits (sys_real s) cplx hermitian d cells (sys_table s)) as [[re im]|] eqn:IB; [|discriminate].
    destruct (merge_bits (sys_table s) re im) as [t' ch|t'|] eqn:M; try discriminate. apply some_inj in H. injection H as <-. cbn [sys_table] in *.
    destruct (import_bits_means (fun _ => c0 : cx R) eq_refl _ _ _ _ _ _ _ _ IO IB) as (LR & LI & _).
    destruct (merge_means (sys_table s) re im t' ch (fun _ => c0 : cx R) (proj1 SO)) as [E _]; [congruence|rewrite LR; apply max_symbol_spec|exact M|].
    apply Forall_forall. intros x I. unfold in_table. rewrite E, LR. now apply max_symbol_spec.
  Qed.
  Lemma alive_value t id : starts t -> no_null t -> 0 < id -> id < length (t_syms t) -> exists v : nat -> cx R, assignment t v /\ v id <> c0.
  Proof.
    intros ST NN P L. destruct (Nat.eq_dec id 1) as [->|N1].
    - exists (only_one R). split; [exact (only_assignment R t ST)|]. cbn. intro E. apply (f_equal cre) in E. cbn in E. exact (r1_neq_0 R E).
    - exists (and_one R id (if herm t id then c1 else ci)). split.
      + apply (and_one_assignment R t ST); [lia| |].
        * intros ->. reflexivity.
        * intro A. destruct (herm t id) eqn:H; [elim (NN id P L H A)|reflexivity].
      + unfold and_one. rewrite (proj2 (Nat.eqb_neq id 1) N1), Nat.eqb_refl. destruct (herm t id); intro E; [apply (f_equal cre) in E|apply (f_equal cim) in E]; cbn in E; exact (r1_neq_0 R E).
  Qed.
  Lemma f_accepts (s : imsys R) cplx hermitian d cells s' : session is_dense s -> input_ok d cells -> import_matrix cplx hermitian d cells s = Some (true, s') ->
    forall id, 0 < id -> id < length (t_syms (sys_table s')) -> exists v, assignment (sys_table s) v /\ imposes (sys_real s) cplx hermitian d cells (length (t_syms (sys_table s'))) v /\ v id <> c0.
  Proof.
    intros SE IO H id P L. destruct (import_done s cplx hermitian d cells s' (session_sound is_dense s SE) IO H) as (_ & [T _] & _ & _ & AS & _).
    destruct (imported_good _ T) as [ST NN]. destruct (alive_value _ id ST NN P L) as (v & A & B). exists v. apply AS in A. destruct A. auto.
  Qed.
  Lemma imposes_less pr cplx hermitian d (cells : list mono) n n' v : n <= n' -> imposes pr cplx hermitian d cells n' v -> imposes pr cplx hermitian d cells n v.
  Proof. intros L (A & B). split; [|exact B]. intros P id I. apply A; [exact P|lia]. Qed.
  Lemma max_least t (cells : list mono) n : 0 < n -> length (t_syms t) <= n -> (forall x, In x cells -> m_id x < n) -> S (max_symbol t cells) <= n.
  Proof.
    intros P L H. unfold max_symbol. assert (G : forall xs m, m < n -> (forall x : mono, In x xs -> m_id x < n) -> fold_left (fun n x => Nat.max n (m_id x)) xs m < n).
    { induction xs as [|x xs IH]; intros m Lm Hx; cbn [fold_left]; [exact Lm|]. apply IH; [|intros; apply Hx; now right]. specialize (Hx x (or_introl eq_refl)). lia. }
    apply G; [lia|exact H].
  Qed.
  Lemma norm_zero (f g x : cx R) : cim f = r0 R -> cim g = r0 R -> cmul (cmul f f) (cmul x (cconj x)) = cmul (cmul g g) (cmul x (cconj x)) -> g <> f -> g <> copp f -> x = c0.
  Proof.
    intros F G E N1 N2. rewrite (real_cx f F), (real_cx g G) in *. set (a := cre f) in *. set (b := cre g) in *. clearbody a b. destruct x as [p q].
    apply (f_equal cre) in E. cbn in E. set (w := radd R (rmul R p p) (rmul R q q)).
    assert (Q : rmul R (rmul R (radd R b (ropp R a)) (radd R b a)) w = r0 R).
    { transitivity (radd R (rmul R (rmul R b b) w) (ropp R (rmul R (rmul R a a) w))); [ring|].
      replace (rmul R (rmul R a a) w) with (rmul R (rmul R b b) w); [ring|]. unfold w. symmetry. match type of E with ?l = ?r => transitivity l; [ring|rewrite E; ring] end. }
    assert (D1 : radd R b (ropp R a) <> r0 R).
    { intro Z. apply N1. replace b with (radd R (radd R b (ropp R a)) a) by ring. rewrite Z. apply cx_ext; cbn; ring. }
    assert (D2 : radd R b a <> r0 R).
    { intro Z. apply N2. replace b with (radd R (radd R b a) (ropp R a)) by ring. rewrite Z. apply cx_ext; cbn; ring. }
    assert (W : w = r0 R). { apply (rmul_zero (radd R b a)); [|exact D2]. apply (rmul_zero (radd R b (ropp R a))); [|exact D1]. rewrite <- Q. ring. }
    unfold w in W. apply cx_ext; cbn; [now apply (r_real R p q)|]. apply (r_real R q p). rewrite <- W. ring.
  Qed.
  Lemma mismatch_zero cplx pr d (cells : list mono) n v i j : input_ok d cells -> i < d -> j < d -> imposes pr cplx true d cells n v ->
    m_id (elem d cells i j) = m_id (elem d cells j i) -> m_f (elem d cells j i) <> m_f (elem d cells i j) -> m_f (elem d cells j i) <> copp (m_f (elem d cells i j)) ->
    v (m_id (elem d cells i j)) = c0.
  Proof.
    intros [LC FC] Hi Hj (_ & _ & H) I N1 N2. specialize (H eq_refl i j Hi Hj). rewrite !entry_elem in H.
    assert (Fa : cim (m_f (elem d cells i j)) = r0 R) by (apply FC; now apply elem_in). assert (Fb : cim (m_f (elem d cells j i)) = r0 R) by (apply FC; now apply elem_in).
    apply (norm_zero (m_f (elem d cells i j)) (m_f (elem d cells j i))); try assumption.
    set (a := elem d cells i j) in *. set (b := elem d cells j i) in *. clearbody a b. unfold term_value in H. rewrite <- I in H. rewrite (real_cx _ Fa), (real_cx _ Fb) in *.
    assert (K : cmul (cmul (creal (cre (m_f b))) (if m_cj b then cconj (v (m_id a)) else v (m_id a))) (cconj (cmul (creal (cre (m_f b))) (if m_cj b then cconj (v (m_id a)) else v (m_id a)))) =
                cmul (cmul (creal (cre (m_f a))) (if m_cj a then cconj (v (m_id a)) else v (m_id a))) (cconj (cmul (creal (cre (m_f a))) (if m_cj a then cconj (v (m_id a)) else v (m_id a))))).
    { rewrite H. rewrite cconj_conj. ring. }
    assert (C : forall (e : R) (x : cx R) (c : bool), cmul (cmul (creal e) (if c then cconj x else x)) (cconj (cmul (creal e) (if c then cconj x else x))) = cmul (cmul (creal e) (creal e)) (cmul x (cconj x))).
    { intros e x c. destruct c; apply cx_ext; cbn; ring. }
    rewrite !C in K. symmetry. exact K.
  Qed.
  Lemma f_refuses (s : imsys R) cplx hermitian d cells s' : session is_dense s -> input_ok d cells -> import_matrix cplx hermitian d cells s = Some (false, s') ->
    (sys_real s = true /\ cplx = true) \/
    (hermitian = true /\ exists i j, i < j /\ j < d /\ (m_id (elem d cells i j) <> m_id (elem d cells j i) \/
       (m_id (elem d cells i j) = 0 /\ m_id (elem d cells j i) = 0 /\ m_f (elem d cells j i) <> m_f (elem d cells i j) /\ m_f (elem d cells j i) <> copp (m_f (elem d cells i j))))) \/
    (exists id, 0 < id /\ forall n v, length (t_syms (sys_table s)) <= n -> (forall x, In x cells -> m_id x < n) -> assignment (sys_table s) v -> imposes (sys_real s) cplx hermitian d cells n v -> v id = c0).
  Proof.
    intros SE IO H. pose proof (session_sound is_dense s SE) as [T _]. unfold import_matrix in H. destruct (sys_real s && cplx) eqn:RC.
    { left. apply andb_true_iff in RC. exact RC. }
    right. destruct (import_bits (sys_real s) cplx hermitian d cells (sys_table s)) as [[re im]|] eqn:IB.
    - right. destruct (import_bits_means (fun _ => c0 : cx R) eq_refl _ _ _ _ _ _ _ _ IO IB) as (LR & LI & _).
      destruct (merge_cases (sys_table s) re im T) as [(t' & b & E)|(t' & id & r & i & E & P & L & E1 & E2 & F1 & F2)]; [congruence|rewrite LR; apply max_symbol_spec|rewrite E in H; discriminate|].
      exists id. split; [exact P|]. intros n v Ln Lx A Q.
      assert (ME : means (re, im) v).
      { apply (import_bits_means v (as_zero _ _ A) _ _ _ _ _ _ _ _ IO IB). apply (imposes_less _ _ _ _ _ _ n); [|exact Q]. apply max_least; [|exact Ln|exact Lx].
        destruct (proj1 (imported_good _ T)) as (s0 & s1 & l & ES & _). rewrite ES in Ln. cbn in Ln. lia. }
      destruct ME as [M1 M2]. cbn [fst snd] in M1, M2. apply assignment_flags in A. destruct A as (_ & _ & A). destruct (A id) as [A1 A2].
      apply orb_true_iff in F1. apply orb_true_iff in F2. apply cx_ext; cbn.
      + destruct F2 as [F2|F2]; [now apply A2|]. apply M1. rewrite E1. now destruct r.
      + destruct F1 as [F1|F1]; [now apply A1|]. apply M2. rewrite E2. now destruct i.
    - apply import_bits_none in IB. destruct IB as [HH (i & j & L & Ld & K)]. cbv zeta in K. destruct K as [K|(K1 & K2 & K3)]; [left; split; [exact HH|]; exists i, j; auto|].
      destruct (Nat.eq_dec (m_id (elem d cells i j)) 0) as [Z|Z].
      + left. split; [exact HH|]. exists i, j. split; [exact L|]. split; [exact Ld|]. right. split; [exact Z|]. split; [congruence|auto].
      + right. exists (m_id (elem d cells i j)). split; [lia|]. intros n v _ _ _ Q. subst hermitian. eapply mismatch_zero; try eassumption. lia.
  Qed.
  Lemma f_defined (s : imsys R) cplx hermitian d cells : session is_dense s -> input_ok d cells -> exists ok s', import_matrix cplx hermitian d cells s = Some (ok, s').
  Proof.
    intros SE IO. pose proof (import_defined s cplx hermitian d cells (session_sound is_dense s SE) IO) as N. destruct (import_matrix cplx hermitian d cells s) as [[ok s']|]; [eauto|congruence].
  Qed.
  Lemma f_values (s : imsys R) cplx hermitian d cells s' : session is_dense s -> input_ok d cells -> import_matrix cplx hermitian d cells s = Some (true, s') ->
    exists old m, sys_mats s' = old ++ [m] /\ im_dim m = d /\ im_herm m = hermitian /\ im_basis m = None /\
      forall v, assignment (sys_table s') v -> Forall2 (same_entries v) (sys_mats s) old /\ forall i j, i < d -> j < d -> entry_value v d (im_cells m) i j = entry_value v d cells i j.
  Proof.
    intros SE IO H. pose proof (session_sound is_dense s SE) as SO. destruct (import_done s cplx hermitian d cells s' SO IO H) as (N & _ & _ & _ & _ & ch & old & EM & EO & _).
    exists old. eexists. split; [exact EM|]. cbn [im_dim im_herm im_basis im_cells]. split; [reflexivity|]. split; [reflexivity|]. split; [reflexivity|]. intros v A. split.
    - rewrite EO. assert (SAME : forall m : imat R, same_entries v m m) by (intro m; repeat split). destruct ch.
      + assert (G : forall ms, Forall (mat_ok (sys_table s)) ms -> Forall2 (same_entries v) ms (map (renumber (sys_table s')) ms)); [|apply G, SO].
        induction ms as [|m ms IH]; intro F; cbn [map]; [constructor|]. inversion F as [|? ? (F1 & F2 & F3) F4]. subst. constructor; [|now apply IH].
        repeat split. cbn [renumber im_cells]. intros i j Hi Hj. apply canonical_entry; try assumption. eapply Forall_impl; [|exact F2]. intro x. now apply narrower_in.
      + clear EO EM. induction (sys_mats s); constructor; auto.
    - intros i j Hi Hj. apply canonical_entry; try assumption; [|apply IO]. eapply f_new_symbols; eassumption.
  Qed.
  Lemma f_failed (s : imsys R) cplx hermitian d cells s' : import_matrix cplx hermitian d cells s = Some (false, s') ->
    sys_mats s' = sys_mats s /\ sys_real s' = sys_real s /\ (~ half_way cplx hermitian d cells s -> s' = s).
  Proof.
    intro H. destruct (import_failed s cplx hermitian d cells s' H) as (A & B & C). split; [exact A|]. split; [exact B|]. intro N. destruct C as [C|C]; [|contradiction].
    destruct s, s'. cbn in *. congruence.
  Qed.
  Lemma f_hermitian (s : imsys R) k m : session is_dense s -> nth_error (sys_mats s) k = Some m -> im_herm m = true ->
    forall v, assignment (sys_table s) v -> forall i j, i < im_dim m -> j < im_dim m -> entry_value v (im_dim m) (im_cells m) j i = cconj (entry_value v (im_dim m) (im_cells m) i j).
  Proof.
    intros SE K H v A i j Hi Hj. destruct (session_sound is_dense s SE) as [_ MO]. rewrite Forall_forall in MO. destruct (MO m (nth_error_In _ _ K)) as (_ & _ & C). exact (C H v A i j Hi Hj).
  Qed.
  Lemma f_basis (s : imsys R) k m : session is_dense s -> nth_error (sys_mats s) k = Some m -> im_basis m = None ->
    exists b s', get_basis is_dense k s = Some (BOk b, s') /\ represents (sys_table s) (im_dim m) (mono_entry (im_dim m) (im_cells m)) b /\
      sys_table s' = sys_table s /\ sys_real s' = sys_real s /\
      (forall i, nth_error (sys_mats s') i = if Nat.eqb i k then Some (mk_imat (im_dim m) (im_herm m) (im_cells m) (Some b)) else nth_error (sys_mats s) i) /\
      get_basis is_dense k s' = Some (BOk b, s').
  Proof.
    intros SE K B. destruct (session_sound is_dense s SE) as [T MO]. rewrite Forall_forall in MO. destruct (mat_basis (sys_table s) m T (MO m (nth_error_In _ _ K))) as (x & EX & BX).
    destruct (BX is_dense) as (b & EB & RB). set (s' := mk_imsys (sys_real s) (sys_table s) (firstn k (sys_mats s) ++ mk_imat (im_dim m) (im_herm m) (im_cells m) (Some b) :: skipn (S k) (sys_mats s))).
    exists b, s'. assert (N : forall i, nth_error (sys_mats s') i = if Nat.eqb i k then Some (mk_imat (im_dim m) (im_herm m) (im_cells m) (Some b)) else nth_error (sys_mats s) i).
    { intro i. unfold s'. cbn [sys_mats]. eapply nth_error_put. exact K. }
    split; [unfold get_basis; rewrite K, B, EX, EB; reflexivity|]. split; [exact RB|]. split; [reflexivity|]. split; [reflexivity|]. split; [exact N|].
    unfold get_basis. rewrite (N k), Nat.eqb_refl. reflexivity.
  Qed.
  (** bases after the imports *)
  Definition fresh_bases (s : imsys R) : Prop := forall k m b, nth_error (sys_mats s) k = Some m -> im_basis m = Some b -> represents (sys_table s) (im_dim m) (mono_entry (im_dim m) (im_cells m)) b.
  Lemma run_session l : forall s s' : imsys R, session is_dense s -> each is_dense quiet s l -> irun is_dense s l = Some s' -> session is_dense s'.
  Proof.
    induction l as [|o l IH]; intros s s' SE Q E; cbn in E; [apply some_inj in E; now subst|]. destruct Q as [Q1 Q2]. destruct (istep is_dense s o) as [s1|] eqn:ST; [|discriminate].
    apply (IH s1); [exact (se_step is_dense s o s1 SE Q1 ST)|now apply Q2|exact E].
  Qed.
  Definition no_bases (s : imsys R) : Prop := forall m, In m (sys_mats s) -> im_basis m = None.
  Lemma imports_no_bases l : forall s s' : imsys R, no_bases s -> Forall is_import l -> irun is_dense s l = Some s' -> no_bases s'.
  Proof.
    induction l as [|o l IH]; intros s s' NB F E; cbn in E; [apply some_inj in E; now subst|]. inversion F as [|? ? F1 F2]. subst. destruct (istep is_dense s o) as [s1|] eqn:ST; [|discriminate].
    apply (IH s1 s'); [|exact F2|exact E]. destruct o as [cplx hermitian d cells|]; [|contradiction]. cbn in ST. unfold import_matrix in ST.
    destruct (sys_real s && cplx); [apply some_inj in ST; now subst|]. destruct (import_bits _ _ _ _ _ _) as [[re im]|]; [|apply some_inj in ST; now subst].
    destruct (merge_bits _ _ _) as [t' ch|t'|]; try discriminate; apply some_inj in ST; subst s1; [|exact NB]. intros m I. cbn [sys_mats snd] in I. apply in_app_or in I. destruct I as [I|[<-|[]]]; [|reflexivity].
    destruct ch; [|now apply NB]. apply in_map_iff in I. destruct I as (m0 & <- & I). exact (NB m0 I).
  Qed.
  Lemma bases_fresh l : forall s s' : imsys R, session is_dense s -> fresh_bases s -> Forall (fun o => ~ is_import o) l -> irun is_dense s l = Some s' -> session is_dense s' /\ fresh_bases s'.
  Proof.
    induction l as [|o l IH]; intros s s' SE FB F E; cbn in E; [apply some_inj in E; now subst|]. inversion F as [|? ? F1 F2]. subst. destruct (istep is_dense s o) as [s1|] eqn:ST; [|discriminate].
    assert (SE1 : session is_dense s1) by (apply (se_step is_dense s o s1 SE); [destruct o; [elim F1; exact I|exact I]|exact ST]).
    apply (IH s1 s' SE1); [|exact F2|exact E]. destruct o as [cplx hermitian d cells|k]; [elim F1; exact I|]. cbn in ST. destruct (nth_error (sys_mats s) k) as [m|] eqn:K.
    - destruct (im_basis m) as [b|] eqn:B.
      + unfold get_basis in ST. rewrite K, B in ST. apply some_inj in ST. now subst.
      + destruct (f_basis s k m SE K B) as (b & s2 & G & RB & T2 & _ & N2 & _). rewrite G in ST. apply some_inj in ST. subst s2. intros i m' b' Ni Bi. rewrite N2 in Ni. rewrite T2.
        destruct (Nat.eqb i k); [|now apply (FB i)]. apply some_inj in Ni. subst m'. cbn in Bi. apply some_inj in Bi. subst b'. exact RB.
    - unfold get_basis in ST. rewrite K in ST. apply some_inj in ST. now subst.
  Qed.
  Lemma f_imports_first pr l1 l2 (s1 s : imsys R) : Forall is_import l1 -> Forall (fun o => ~ is_import o) l2 -> each is_dense quiet (ifresh pr) l1 ->
    irun is_dense (ifresh pr) l1 = Some s1 -> irun is_dense s1 l2 = Some s -> forall k m, nth_error (sys_mats s) k = Some m ->
    exists b s', get_basis is_dense k s = Some (BOk b, s') /\ represents (sys_table s) (im_dim m) (mono_entry (im_dim m) (im_cells m)) b.
  Proof.
    intros F1 F2 Q E1 E2 k m K. pose proof (run_session l1 _ s1 (se_start is_dense pr) Q E1) as S1.
    assert (NB : no_bases s1) by (apply (imports_no_bases l1 (ifresh pr) s1); [intros x []|exact F1|exact E1]).
    destruct (bases_fresh l2 s1 s S1) as [SS FB]; [intros i x b I B; rewrite (NB x (nth_error_In _ _ I)) in B; discriminate|exact F2|exact E2|].
    destruct (im_basis m) as [b|] eqn:B.
    - exists b, s. split; [unfold get_basis; rewrite K, B; reflexivity|]. exact (FB k m b K B).
    - destruct (f_basis s k m SS K B) as (b & s' & G & RB & _). now exists b, s'.
  Qed.
  Lemma f_real (s : imsys R) : session is_dense s -> sys_real s = true -> forall v, assignment (sys_table s) v -> forall id, id < length (t_syms (sys_table s)) -> cim (v id) = r0 R.
  Proof.
    induction 1 as [pr|s o s' SS IH Q E]; intros PR v A id L.
    - destruct id as [|[|id]]; [now rewrite (as_zero _ _ A)|now rewrite (as_one _ _ A)|cbn in L; lia].
    - destruct o as [cplx hermitian d cells|k]; cbn in E, Q.
      + destruct Q as [IO NH]. destruct (import_matrix cplx hermitian d cells s) as [[ok s1]|] eqn:M; [|discriminate]. cbn in E. apply some_inj in E. subst s1. destruct ok.
        * destruct (import_done s cplx hermitian d cells s' (session_sound is_dense s SS) IO M) as (_ & _ & RR & _ & AS & _). apply AS in A. destruct A as [_ (A & _)]. apply A; [congruence|exact L].
        * destruct (f_failed _ _ _ _ _ _ M) as (_ & _ & C). specialize (C NH). subst s'. now apply IH.
      + destruct (get_basis is_dense k s) as [[o s1]|] eqn:G; apply some_inj in E; subst; [|now apply IH].
        destruct (basis_sound is_dense s k o s' (session_sound is_dense s SS) G) as (_ & T & RR). rewrite T in *. apply IH; congruence || assumption.
  Qed.
End Final.
