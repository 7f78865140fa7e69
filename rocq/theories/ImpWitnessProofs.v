(** Concrete imports. *)
From Coq Require Import List NArith ZArith Arith Bool Lia Ring QArith Qcanon.
From Verif Require Import CoreModel FieldModel FieldProofs SymModel SymSpec SymFinalProofs PolyModel PolySpec PolyWitnessProofs BasModel BasSpec BasFinalProofs ImpModel ImpSpec ImpProofs ImpRunProofs ImpThmProofs ImpFinalProofs.
Import ListNotations.
Local Open Scope nat_scope.

Definition input_b (d : nat) (cells : list (mono Q')) : bool :=
  Nat.eqb (length cells) (d * d) && forallb (fun x => r_eqb Q' (cim (m_f x)) (r0 Q') && (negb (ceqb (m_f x) c0) || Nat.eqb (m_id x) 0)) cells.
Lemma input_by d cells : input_b d cells = true -> input_ok d cells.
Proof.
  intro H. apply andb_prop in H. destruct H as [L F]. apply Nat.eqb_eq in L. split; [exact L|]. intros x I. rewrite forallb_forall in F. specialize (F x I). apply andb_prop in F. destruct F as [F G].
  split; [now apply (r_eqb_spec Q')|]. intro Z. rewrite Z, ceqb_refl in G. now apply Nat.eqb_eq in G.
Qed.
Definition accepted (cplx hermitian : bool) (d : nat) (cells : list (mono Q')) (s : imsys Q') : bool :=
  match import_matrix cplx hermitian d cells s with Some (ok, _) => ok | None => false end.
Lemma accepted_by cplx hermitian d cells s : accepted cplx hermitian d cells s = true -> exists s', import_matrix cplx hermitian d cells s = Some (true, s').
Proof. unfold accepted. destruct (import_matrix cplx hermitian d cells s) as [[[] s']|]; try discriminate. eauto. Qed.
Lemma accepted_whole cplx hermitian d cells s : accepted cplx hermitian d cells s = true -> ~ half_way cplx hermitian d cells s.
Proof. unfold accepted, import_matrix. intros H (re & im & t' & A & B & C). rewrite A, B, C in H. discriminate. Qed.
Definition quiet_b (s : imsys Q') (o : iop Q') : bool :=
  match o with IImport cplx hermitian d cells => input_b d cells && accepted cplx hermitian d cells s | IBasis _ => true end.
Lemma quiet_by s o : quiet_b s o = true -> quiet s o.
Proof. destruct o as [cplx hermitian d cells|k]; cbn; [|auto]. intro H. apply andb_prop in H. destruct H as [A B]. split; [now apply input_by|now apply accepted_whole]. Qed.
Fixpoint each_b (s : imsys Q') (l : list (iop Q')) : bool :=
  match l with [] => true | o :: l' => quiet_b s o && match istep true s o with Some s' => each_b s' l' | None => false end end.
Lemma each_by l : forall s, each_b s l = true -> each true quiet s l /\ exists s', irun true s l = Some s'.
Proof.
  induction l as [|o l IH]; intros s H; cbn [each_b] in H; [split; [exact I|now exists s]|]. apply andb_prop in H. destruct H as [A B]. cbn [irun each].
  destruct (istep true s o) as [s1|] eqn:E; [|discriminate]. destruct (IH s1 B) as [P Q]. split; [|exact Q]. split; [now apply quiet_by|]. intros s' E'. injection E' as <-. exact P.
Qed.
Definition istate (pr : bool) (l : list (iop Q')) : imsys Q' := match irun true (ifresh pr) l with Some s => s | None => ifresh pr end.
Lemma istate_run pr l : each_b (ifresh pr) l = true -> irun true (ifresh pr) l = Some (istate pr l).
Proof. intro H. destruct (each_by l _ H) as [_ [s E]]. unfold istate. now rewrite E. Qed.
Lemma istate_session pr l : each_b (ifresh pr) l = true -> session true (istate pr l).
Proof. intro H. apply (run_session true l (ifresh pr)); [constructor|now apply each_by|now apply istate_run]. Qed.

(** [[1, X], [X*, 1]] and [[1, 2 X + ...]]: a complex Hermitian matrix, then one that makes X real and Y imaginary *)
Definition cells_x : list (mono Q') := [mq 1 false 1 0; mq 2 true 1 0; mq 2 false 1 0; mq 1 false 1 0].
Definition cells_y : list (mono Q') := [mq 2 false 3 0; mq 3 false (-2) 0; mq 3 false 2 0; mq 2 false 5 0].
Definition first : list (iop Q') := [IImport true true 2 cells_x].
Definition both : list (iop Q') := first ++ [IImport true true 2 cells_y].
Lemma first_ok : each_b (ifresh false) first = true. Proof. vm_compute. reflexivity. Qed.
Lemma both_ok : each_b (ifresh false) both = true. Proof. vm_compute. reflexivity. Qed.
Lemma first_session : session true (istate false first). Proof. exact (istate_session false first first_ok). Qed.
Lemma both_session : session true (istate false both). Proof. exact (istate_session false both both_ok). Qed.
Lemma first_both : exists s', import_matrix true true 2 cells_y (istate false first) = Some (true, s').
Proof. apply accepted_by. vm_compute. reflexivity. Qed.
Lemma cells_y_ok : input_ok 2 cells_y. Proof. apply input_by. vm_compute. reflexivity. Qed.
(** X is real and Y is imaginary afterwards *)
Definition flags_after (l : list (iop Q')) : list (bool * bool) := map (fun s => (sy_herm s, sy_anti s)) (t_syms (sys_table (istate false l))).
Lemma flags_first : flags_after first = [(true, true); (true, false); (false, false)]. Proof. vm_compute. reflexivity. Qed.
Lemma flags_both : flags_after both = [(true, true); (true, false); (true, false); (false, true)]. Proof. vm_compute. reflexivity. Qed.
(** refused: Y would be zero; other symbols across the diagonal; complex into real *)
Definition cells_z : list (mono Q') := [mq 1 false 1 0; mq 3 true (-1) 0; mq 3 false 1 0; mq 1 false 1 0].
Definition cells_d : list (mono Q') := [mq 1 false 1 0; mq 3 true 1 0; mq 2 false 1 0; mq 1 false 1 0].
Definition refused (cplx hermitian : bool) (d : nat) (cells : list (mono Q')) (s : imsys Q') : bool :=
  match import_matrix cplx hermitian d cells s with Some (ok, _) => negb ok | None => false end.
Lemma refused_by cplx hermitian d cells s : refused cplx hermitian d cells s = true -> exists s', import_matrix cplx hermitian d cells s = Some (false, s').
Proof. unfold refused. destruct (import_matrix cplx hermitian d cells s) as [[[] s']|]; try discriminate. eauto. Qed.
Lemma refused_case : input_ok 2 cells_z /\ exists s', import_matrix true true 2 cells_z (istate false first) = Some (false, s').
Proof. split; [apply input_by; vm_compute; reflexivity|apply refused_by; vm_compute; reflexivity]. Qed.
Lemma failed_case : ~ half_way true true 2 cells_d (istate false first) /\ exists s', import_matrix true true 2 cells_d (istate false first) = Some (false, s').
Proof.
  split; [|apply refused_by; vm_compute; reflexivity]. intros (re & im & t' & _ & B & _). assert (N : match import_bits (sys_real (istate false first)) true true 2 cells_d (sys_table (istate false first)) with Some _ => false | None => true end = true) by (vm_compute; reflexivity).
  rewrite B in N. discriminate.
Qed.
Lemma nth_some {A} (l : list A) k : match nth_error l k with Some _ => true | None => false end = true -> exists m, nth_error l k = Some m.
Proof. destruct (nth_error l k); [eauto|discriminate]. Qed.
Definition herm_at (s : imsys Q') (k : nat) : bool := match nth_error (sys_mats s) k with Some m => im_herm m && match im_basis m with None => true | _ => false end | None => false end.
Lemma herm_case : exists m, nth_error (sys_mats (istate false both)) 1 = Some m /\ im_herm m = true /\ im_basis m = None.
Proof.
  assert (H : herm_at (istate false both) 1 = true) by (vm_compute; reflexivity). unfold herm_at in H. destruct (nth_error (sys_mats (istate false both)) 1) as [m|]; [|discriminate].
  apply andb_prop in H. destruct H as [A B]. exists m. split; [reflexivity|]. split; [exact A|]. destruct (im_basis m); [discriminate|reflexivity].
Qed.
Definition asks : list (iop Q') := [IBasis 1; IBasis 0; IBasis 1].
Lemma asks_case : Forall (@is_import Q') both /\ Forall (fun o => ~ is_import o) asks /\ each true quiet (ifresh false) both /\
  irun true (ifresh false) both = Some (istate false both) /\ (exists s, irun true (istate false both) asks = Some s /\ exists m, nth_error (sys_mats s) 1 = Some m).
Proof.
  split; [repeat constructor|]. split; [repeat (constructor; [intros []|]); constructor|]. split; [now apply each_by, both_ok|]. split; [exact (istate_run false both both_ok)|].
  assert (H : match irun true (istate false both) asks with Some s => match nth_error (sys_mats s) 1 with Some _ => true | None => false end | None => false end = true) by (vm_compute; reflexivity).
  destruct (irun true (istate false both) asks) as [s|]; [|discriminate]. exists s. split; [reflexivity|]. now apply nth_some.
Qed.
Lemma real_case : session true (istate true [IImport false true 2 cells_x]) /\ sys_real (istate true [IImport false true 2 cells_x]) = true.
Proof. split; [apply istate_session|]; vm_compute; reflexivity. Qed.

(** * Counterexamples *)
Definition one_at (k : nat) (x : cx Q') : nat -> cx Q' := fun i => if Nat.eqb i 0 then c0 else if Nat.eqb i 1 then c1 else if Nat.eqb i k then x else c0.
(** [[1, i X], [-i X*, 1]] *)
Definition cells_i : list (mono Q') := [mq 1 false 1 0; mq 2 true 0 (-1); mq 2 false 0 1; mq 1 false 1 0].
Lemma complex_refused : exists (cells : list (mono Q')) s', length cells = 2 * 2 /\ import_matrix true true 2 cells (ifresh false) = Some (false, s') /\
  (forall v, assignment (sys_table (@ifresh Q' false)) v -> imposes false true true 2 cells 3 v) /\
  exists v : nat -> cx Q', assignment (sys_table (@ifresh Q' false)) v /\ forall x, In x cells -> v (m_id x) <> c0.
Proof.
  destruct (refused_by true true 2 cells_i (ifresh false)) as [s' E]; [vm_compute; reflexivity|]. exists cells_i, s'. split; [reflexivity|]. split; [exact E|]. split.
  - intros v A. split; [discriminate|]. split; [discriminate|]. intros _ i j Hi Hj. rewrite !entry_elem. unfold elem.
    destruct i as [|[|i]]; [| |lia]; (destruct j as [|[|j]]; [| |lia]); cbn [Nat.mul Nat.add nth cells_i]; unfold term_value; cbn [m_id m_cj m_f mq]; rewrite ?(as_one _ _ A).
    + apply ceqb_spec. vm_compute. reflexivity.
    + rewrite cconj_mul. f_equal; apply ceqb_spec; vm_compute; reflexivity.
    + rewrite cconj_mul, cconj_conj. f_equal; apply ceqb_spec; vm_compute; reflexivity.
    + apply ceqb_spec. vm_compute. reflexivity.
  - exists (one_at 2 c1). split; [apply assignment_by; [reflexivity|reflexivity|vm_compute; reflexivity]|].
    intros x [<-|[<-|[<-|[<-|[]]]]]; apply cneq; vm_compute; reflexivity.
Qed.
(** [[i X]] *)
Definition cells_ix : list (mono Q') := [mq 2 false 0 1].
Lemma wrong_part : exists (cells : list (mono Q')) s' v, length cells = 1 * 1 /\ import_matrix true true 1 cells (ifresh false) = Some (true, s') /\
  assignment (sys_table s') v /\ ~ imposes false true true 1 cells (length (t_syms (sys_table s'))) v.
Proof.
  destruct (accepted_by true true 1 cells_ix (ifresh false)) as [s' E]; [vm_compute; reflexivity|]. exists cells_ix, s', (one_at 2 c1). split; [reflexivity|]. split; [exact E|].
  assert (B : match import_matrix true true 1 cells_ix (ifresh false) with Some (_, s) =>
     forallb (fun x => (negb (sy_herm (snd x)) || r_eqb Q' (cim (one_at 2 c1 (fst x))) (r0 Q')) && (negb (sy_anti (snd x)) || r_eqb Q' (cre (one_at 2 c1 (fst x))) (r0 Q')))
       (List.combine (seq 0 (length (t_syms (sys_table s)))) (t_syms (sys_table s))) | None => false end = true) by (vm_compute; reflexivity).
  rewrite E in B. split; [apply assignment_by; [reflexivity|reflexivity|exact B]|]. intros (_ & _ & H). specialize (H eq_refl 0 0 (Nat.lt_0_succ 0) (Nat.lt_0_succ 0)).
  revert H. apply cneq. vm_compute. reflexivity.
Qed.
(** Z is asked for before Y turns out to be imaginary *)
Definition cells_3 : list (mono Q') := [mq 3 false 1 0].
Definition cells_2 : list (mono Q') := [mq 0 false 0 0; mq 2 false (-1) 0; mq 2 false 1 0; mq 0 false 0 0].
Definition stale : list (iop Q') := [IImport true false 1 cells_3; IBasis 0; IImport true true 2 cells_2].
Definition v_stale : nat -> cx Q' := one_at 3 c1.
Definition stale_b (s : imsys Q') (v : nat -> cx Q') : bool :=
  match nth_error (sys_mats s) 0 with
  | Some m => match get_basis true 0 s with Some (BOk b, _) => negb (ceqb (combination (sys_table s) v b 0 0) (entry_value v (im_dim m) (im_cells m) 0 0)) | _ => false end
  | None => false
  end.
Lemma stale_by s v : stale_b s v = true -> exists m b s', nth_error (sys_mats s) 0 = Some m /\ get_basis true 0 s = Some (BOk b, s') /\ combination (sys_table s) v b 0 0 <> entry_value v (im_dim m) (im_cells m) 0 0.
Proof.
  unfold stale_b. destruct (nth_error (sys_mats s) 0) as [m|]; [|discriminate]. destruct (get_basis true 0 s) as [[[b| |] s']|]; try discriminate.
  intro B. exists m, b, s'. split; [reflexivity|]. split; [reflexivity|]. apply cneq. now apply negb_true_iff in B.
Qed.
Lemma stale_basis : exists (l : list (iop Q')) s m b s' v, each true quiet (ifresh false) l /\ irun true (ifresh false) l = Some s /\ nth_error (sys_mats s) 0 = Some m /\
  get_basis true 0 s = Some (BOk b, s') /\ assignment (sys_table s) v /\ combination (sys_table s) v b 0 0 <> entry_value v (im_dim m) (im_cells m) 0 0.
Proof.
  assert (Q : each_b (ifresh false) stale = true) by (vm_compute; reflexivity). exists stale, (istate false stale).
  destruct (stale_by (istate false stale) v_stale) as (m & b & s' & K & G & B); [vm_compute; reflexivity|].
  exists m, b, s', v_stale. split; [now apply each_by|]. split; [exact (istate_run false stale Q)|]. split; [exact K|]. split; [exact G|].
  split; [apply assignment_by; [reflexivity|reflexivity|vm_compute; reflexivity]|exact B].
Qed.
(** refused, but X2 has become real *)
Definition cells_h : list (mono Q') := [mq 2 false 1 0; mq 3 true (-1) 0; mq 3 false 1 0; mq 2 false 1 0].
Definition known3 : list (iop Q') := [IImport true false 1 cells_3].
Lemma half_import : exists (s : imsys Q') cells s' (v : nat -> cx Q'), session true s /\ input_ok 2 cells /\ import_matrix true true 2 cells s = Some (false, s') /\
  assignment (sys_table s) v /\ ~ assignment (sys_table s') v.
Proof.
  assert (Q : each_b (ifresh false) known3 = true) by (vm_compute; reflexivity). destruct (refused_by true true 2 cells_h (istate false known3)) as [s' E]; [vm_compute; reflexivity|].
  exists (istate false known3), cells_h, s', (one_at 2 ci). split; [exact (istate_session false known3 Q)|]. split; [apply input_by; vm_compute; reflexivity|]. split; [exact E|].
  split; [apply assignment_by; [reflexivity|reflexivity|vm_compute; reflexivity]|]. intro A. apply assignment_flags in A. destruct A as (_ & _ & A). destruct (A 2) as [A1 _].
  assert (B : match import_matrix true true 2 cells_h (istate false known3) with Some (_, s) => fst (flags_at (sys_table s) 2) | None => false end = true) by (vm_compute; reflexivity).
  rewrite E in B. specialize (A1 B). revert A1. apply rneq. vm_compute. reflexivity.
Qed.
