(** C69: importing matrices. *)
From Coq Require Import List NArith ZArith Arith Bool.
From Verif Require Import CoreModel FieldModel FieldProofs SymModel SymSpec PolyModel PolySpec PolyWitnessProofs BasModel BasSpec ImpModel ImpSpec ImpFinalProofs ImpWitnessProofs.
Import ListNotations.

(** An import that succeeds restricts the values of the symbols by what it says about them, and by nothing else. *)
Theorem C69_meaning : forall (R : rfield) is_dense (s : imsys R) cplx hermitian d cells s', session is_dense s -> input_ok d cells -> import_matrix cplx hermitian d cells s = Some (true, s') ->
  forall v, assignment (sys_table s') v <-> assignment (sys_table s) v /\ imposes (sys_real s) cplx hermitian d cells (length (t_syms (sys_table s'))) v.
Proof. exact @f_meaning. Qed.
Print Assumptions C69_meaning.
Example C69_meaning_case : session true (istate false first) /\ input_ok 2 cells_y /\ (exists s', import_matrix true true 2 cells_y (istate false first) = Some (true, s')) /\
  flags_after first = [(true, true); (true, false); (false, false)] /\ flags_after both = [(true, true); (true, false); (true, false); (false, true)].
Proof. exact (conj first_session (conj cells_y_ok (conj first_both (conj flags_first flags_both)))). Qed.

(** It knows all the symbols of the matrix afterwards. *)
Theorem C69_symbols : forall (R : rfield) is_dense (s : imsys R) cplx hermitian d cells s', session is_dense s -> input_ok d cells -> import_matrix cplx hermitian d cells s = Some (true, s') ->
  length (t_syms (sys_table s)) <= length (t_syms (sys_table s')) /\ Forall (in_table (sys_table s')) cells.
Proof. exact @f_new_symbols. Qed.
Print Assumptions C69_symbols.

(** It forces no symbol to be zero. *)
Theorem C69_accepts : forall (R : rfield) is_dense (s : imsys R) cplx hermitian d cells s', session is_dense s -> input_ok d cells -> import_matrix cplx hermitian d cells s = Some (true, s') ->
  forall id, 0 < id -> id < length (t_syms (sys_table s')) -> exists v, assignment (sys_table s) v /\ imposes (sys_real s) cplx hermitian d cells (length (t_syms (sys_table s'))) v /\ v id <> c0.
Proof. exact @f_accepts. Qed.
Print Assumptions C69_accepts.

(** An import is refused only if it is complex and the system real, if opposite entries are multiples of different symbols (or zero with different coefficients), or if it would force a symbol to be zero. *)
Theorem C69_refuses : forall (R : rfield) is_dense (s : imsys R) cplx hermitian d cells s', session is_dense s -> input_ok d cells -> import_matrix cplx hermitian d cells s = Some (false, s') ->
  (sys_real s = true /\ cplx = true) \/
  (hermitian = true /\ exists i j, i < j /\ j < d /\ (m_id (elem d cells i j) <> m_id (elem d cells j i) \/
     (m_id (elem d cells i j) = 0 /\ m_id (elem d cells j i) = 0 /\ m_f (elem d cells j i) <> m_f (elem d cells i j) /\ m_f (elem d cells j i) <> copp (m_f (elem d cells i j))))) \/
  (exists id, 0 < id /\ forall n v, length (t_syms (sys_table s)) <= n -> (forall x, In x cells -> m_id x < n) -> assignment (sys_table s) v -> imposes (sys_real s) cplx hermitian d cells n v -> v id = c0).
Proof. exact @f_refuses. Qed.
Print Assumptions C69_refuses.
Example C69_refuses_case : session true (istate false first) /\ input_ok 2 cells_z /\ exists s', import_matrix true true 2 cells_z (istate false first) = Some (false, s').
Proof. exact (conj first_session refused_case). Qed.

(** Every import succeeds or is refused. *)
Theorem C69_defined : forall (R : rfield) is_dense (s : imsys R) cplx hermitian d cells, session is_dense s -> input_ok d cells -> exists ok s', import_matrix cplx hermitian d cells s = Some (ok, s').
Proof. exact @f_defined. Qed.
Print Assumptions C69_defined.

(** The new matrix comes last and means what was imported; the old ones mean what they meant. *)
Theorem C69_values : forall (R : rfield) is_dense (s : imsys R) cplx hermitian d cells s', session is_dense s -> input_ok d cells -> import_matrix cplx hermitian d cells s = Some (true, s') ->
  exists old m, sys_mats s' = old ++ [m] /\ im_dim m = d /\ im_herm m = hermitian /\ im_basis m = None /\
    forall v, assignment (sys_table s') v -> Forall2 (same_entries v) (sys_mats s) old /\ forall i j, i < d -> j < d -> entry_value v d (im_cells m) i j = entry_value v d cells i j.
Proof. exact @f_values. Qed.
Print Assumptions C69_values.

(** A refused import adds no matrix, and changes nothing at all unless it fails while the symbols are updated. *)
Theorem C69_failed : forall (R : rfield) (s : imsys R) cplx hermitian d cells s', import_matrix cplx hermitian d cells s = Some (false, s') ->
  sys_mats s' = sys_mats s /\ sys_real s' = sys_real s /\ (~ half_way cplx hermitian d cells s -> s' = s).
Proof. exact @f_failed. Qed.
Print Assumptions C69_failed.
Example C69_failed_case : ~ half_way true true 2 cells_d (istate false first) /\ exists s', import_matrix true true 2 cells_d (istate false first) = Some (false, s').
Proof. exact failed_case. Qed.

(** Matrices marked as Hermitian are Hermitian, however many imports follow. *)
Theorem C69_hermitian : forall (R : rfield) is_dense (s : imsys R) k m, session is_dense s -> nth_error (sys_mats s) k = Some m -> im_herm m = true ->
  forall v, assignment (sys_table s) v -> forall i j, i < im_dim m -> j < im_dim m -> entry_value v (im_dim m) (im_cells m) j i = cconj (entry_value v (im_dim m) (im_cells m) i j).
Proof. exact @f_hermitian. Qed.
Print Assumptions C69_hermitian.

(** In a purely real system all symbols are real. *)
Theorem C69_real : forall (R : rfield) is_dense (s : imsys R), session is_dense s -> sys_real s = true -> forall v, assignment (sys_table s) v -> forall id, id < length (t_syms (sys_table s)) -> cim (v id) = r0 R.
Proof. exact @f_real. Qed.
Print Assumptions C69_real.
Example C69_real_case : session true (istate true [IImport false true 2 cells_x]) /\ sys_real (istate true [IImport false true 2 cells_x]) = true.
Proof. exact real_case. Qed.

(** The basis made at the first request represents the matrix, and is kept. *)
Theorem C69_basis : forall (R : rfield) is_dense (s : imsys R) k m, session is_dense s -> nth_error (sys_mats s) k = Some m -> im_basis m = None ->
  exists b s', get_basis is_dense k s = Some (BOk b, s') /\ represents (sys_table s) (im_dim m) (mono_entry (im_dim m) (im_cells m)) b /\
    sys_table s' = sys_table s /\ sys_real s' = sys_real s /\
    (forall i, nth_error (sys_mats s') i = if Nat.eqb i k then Some (mk_imat (im_dim m) (im_herm m) (im_cells m) (Some b)) else nth_error (sys_mats s) i) /\
    get_basis is_dense k s' = Some (BOk b, s').
Proof. exact @f_basis. Qed.
Print Assumptions C69_basis.
Example C69_basis_case : session true (istate false both) /\ exists m, nth_error (sys_mats (istate false both)) 1 = Some m /\ im_herm m = true /\ im_basis m = None.
Proof. exact (conj both_session herm_case). Qed.

(** If all imports come before the first request for a basis, every basis represents its matrix. *)
Theorem C69_imports_first : forall (R : rfield) is_dense pr l1 l2 (s1 s : imsys R), Forall is_import l1 -> Forall (fun o => ~ is_import o) l2 -> each is_dense quiet (ifresh pr) l1 ->
  irun is_dense (ifresh pr) l1 = Some s1 -> irun is_dense s1 l2 = Some s -> forall k m, nth_error (sys_mats s) k = Some m ->
  exists b s', get_basis is_dense k s = Some (BOk b, s') /\ represents (sys_table s) (im_dim m) (mono_entry (im_dim m) (im_cells m)) b.
Proof. exact @f_imports_first. Qed.
Print Assumptions C69_imports_first.
Example C69_imports_first_case : Forall (@is_import Q') both /\ Forall (fun o => ~ is_import o) asks /\ each true quiet (ifresh false) both /\
  irun true (ifresh false) both = Some (istate false both) /\ (exists s, irun true (istate false both) asks = Some s /\ exists m, nth_error (sys_mats s) 1 = Some m).
Proof. exact asks_case. Qed.

(** Refuted: the Hermitian matrix [[1, i X], [-i X*, 1]] is refused, though X can have any value. *)
Theorem C69_complex_coefficient_refuted : exists (cells : list (mono Q')) s', length cells = 2 * 2 /\ import_matrix true true 2 cells (ifresh false) = Some (false, s') /\
  (forall v, assignment (sys_table (@ifresh Q' false)) v -> imposes false true true 2 cells 3 v) /\
  exists v : nat -> cx Q', assignment (sys_table (@ifresh Q' false)) v /\ forall x, In x cells -> v (m_id x) <> c0.
Proof. exact complex_refused. Qed.
Print Assumptions C69_complex_coefficient_refuted.
(** Refuted: [[i X]], imported as Hermitian, makes X real; it should be imaginary. *)
Theorem C69_complex_diagonal_refuted : exists (cells : list (mono Q')) s' v, length cells = 1 * 1 /\ import_matrix true true 1 cells (ifresh false) = Some (true, s') /\
  assignment (sys_table s') v /\ ~ imposes false true true 1 cells (length (t_syms (sys_table s'))) v.
Proof. exact wrong_part. Qed.
Print Assumptions C69_complex_diagonal_refuted.
(** Refuted: a basis asked for before a later import is still handed out after it, although the symbols have other numbers now. *)
Theorem C69_stale_basis_refuted : exists (l : list (iop Q')) s m b s' v, each true quiet (ifresh false) l /\ irun true (ifresh false) l = Some s /\ nth_error (sys_mats s) 0 = Some m /\
  get_basis true 0 s = Some (BOk b, s') /\ assignment (sys_table s) v /\ combination (sys_table s) v b 0 0 <> entry_value v (im_dim m) (im_cells m) 0 0.
Proof. exact stale_basis. Qed.
Print Assumptions C69_stale_basis_refuted.
(** Refuted: an import that is refused changes nothing.  It can leave a symbol marked as real. *)
Theorem C69_failed_refuted : exists (s : imsys Q') cells s' (v : nat -> cx Q'), session true s /\ input_ok 2 cells /\ import_matrix true true 2 cells s = Some (false, s') /\
  assignment (sys_table s) v /\ ~ assignment (sys_table s') v.
Proof. exact half_import. Qed.
Print Assumptions C69_failed_refuted.
