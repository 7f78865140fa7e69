(** C85: polynomials given as operator sequences. *)
From Coq Require Import NArith ZArith Arith Bool Ascii String List.
From Verif Require Import CoreModel TextModel FieldModel FieldProofs PauliModel PauliSpec SymModel SymSpec PolyModel PolySpec PolyWitnessProofs PolyTableProofs PioModel PioSpec PioWitnessProofs StgModel StgSpec StgProofs StgTableProofs StgWitnessProofs.
Import ListNotations.
Local Open Scope list_scope.
Local Open Scope nat_scope.

(** A cell of terms is read as the sequences (operators counted from 1) and factors written in it, and only such cells are accepted; for operator
    numbers that are whole and fit in 16 bits (missing: all others, see C85_wrap_refuted). *)
Theorem C85_read_partial : forall (R : rfield) scan16 trunc16 of_z, casts16 (R:=R) trunc16 of_z -> forall a l, plain_cell of_z a ->
  (read_staging scan16 trunc16 of_z a = SOk l <-> seq_denotes scan16 of_z a l).
Proof. exact @read_iff. Qed.
Print Assumptions C85_read_partial.
Example C85_read_nonvacuous : casts16 tr16 of8 /\ plain_cell of8 cell16 /\ seq_denotes scan16 of8 cell16 list16 /\ read16 cell16 = SOk list16.
Proof.
  split; [exact casts_16|]. split; [exact cell16_plain|]. split; [exact cell16_denotes|]. exact (proj2 (C85_read_partial _ scan16 tr16 of8 casts_16 cell16 list16 cell16_plain) cell16_denotes).
Qed.

(** Otherwise the error names the first term that cannot be read, or says that the array is not a cell. *)
Theorem C85_bad_term_partial : forall (R : rfield) scan16 trunc16 of_z, casts16 (R:=R) trunc16 of_z -> forall els n, plain_cell of_z (MCell els) ->
  (read_staging scan16 trunc16 of_z (MCell els) = SErr (SBadTerm n) <->
   exists j a, n = j + 1 /\ nth_error els j = Some a /\ (forall x, ~ seq_term scan16 of_z a x) /\
     forall i b, i < j -> nth_error els i = Some b -> exists x, seq_term scan16 of_z b x).
Proof. exact @bad_term. Qed.
Print Assumptions C85_bad_term_partial.
Example C85_bad_term_nonvacuous : casts16 tr16 of8 /\ plain_cell of8 (MCell zero_cell) /\ read16 (MCell zero_cell) = SErr (SBadTerm 2).
Proof. split; [exact casts_16|]. split; [exact zero_plain|exact zero_read]. Qed.
Theorem C85_not_cell : forall (R : rfield) scan16 trunc16 of_z (a : marray R), (forall els, a <> MCell els) -> read_staging scan16 trunc16 of_z a = SErr SNotCell.
Proof. exact @not_cell. Qed.
Print Assumptions C85_not_cell.
Example C85_not_cell_nonvacuous : forall els, MInts (R:=Qc_rfield) [1%Z] <> MCell els. Proof. discriminate. Qed.

(** Refuted in general: operator number 65537 is read as operator 1, although there is no such operator in a context of three. *)
Theorem C85_wrap_refuted : exists a l, read_staging scan16 tr16 of8 a = SOk l /\ (forall w x, In (w, x) l -> Forall (fun o => o < 3) w) /\ ~ seq_denotes scan16 of8 a l.
Proof. exact wrap_finding. Qed.
Print Assumptions C85_wrap_refuted.

(** With the context given, the sequences are simplified in it if all operators are in range; otherwise the first bad operator of the first bad term is named. *)
Theorem C85_context : forall (R : rfield) n_ops resolve (l : list (list nat * cx R)) ts, supply_context n_ops resolve l = SOk ts <->
  Forall (fun x => Forall (fun o => o < n_ops) (fst x)) l /\ ts = staged (map (fun x => (resolve (fst x), snd x)) l).
Proof. exact @supply_iff. Qed.
Print Assumptions C85_context.
Theorem C85_bad_operator : forall (R : rfield) n_ops resolve (l : list (list nat * cx R)) e, supply_context n_ops resolve l = SErr e <->
  exists j w f i o, e = SBadOperator (j + 1) (i + 1) /\ nth_error l j = Some (w, f) /\ nth_error w i = Some o /\ n_ops <= o /\ Forall (fun o => o < n_ops) (firstn i w) /\
    forall j' x, j' < j -> nth_error l j' = Some x -> Forall (fun o => o < n_ops) (fst x).
Proof. exact @supply_err. Qed.
Print Assumptions C85_bad_operator.
Example C85_context_nonvacuous : supply_context 3 up_resolve list16 = SOk (staged (map (fun x => (up_resolve (fst x), snd x)) list16)) /\
  supply_context 2 up_resolve list16 = SErr (SBadOperator 2 1).
Proof. split; reflexivity. Qed.
(** As an operator polynomial it has the same words, and the same value, phases included. *)
Theorem C85_raw : forall c V (R : rfield) (E : hseq -> cx R), expectation c V R E -> forall raw, raw_ok V raw ->
  map fst (to_raw (staged raw)) = map (fun z => pos (fst z)) raw /\ raw_value E (to_raw (staged raw)) = op_value E raw.
Proof. exact raw_kept. Qed.
Print Assumptions C85_raw.
Example C85_raw_nonvacuous : expectation up_ctx (pauli_wf 1 2) Qc_rfield up_E /\ raw_ok (pauli_wf 1 2) up_raw /\ to_raw (staged up_raw) = [(pos up_xy, cmul c1 ci)].
Proof. split; [exact up_expectation|]. split; [exact up_raw_ok|reflexivity]. Qed.

(** Looking up symbols succeeds when every sequence has one ... *)
Theorem C85_find : forall c (R : rfield) t (raw : list (hseq * cx R)) ts, find_symbols c t (staged raw) = SOk ts ->
  Forall (fun z => has_symbol c t (fst z)) raw.
Proof. exact find_only. Qed.
Print Assumptions C85_find.
Theorem C85_find_all : forall c (R : rfield) t (raw : list (hseq * cx R)), Forall (fun z => has_symbol c t (fst z)) raw -> exists ts, find_symbols c t (staged raw) = SOk ts.
Proof. exact find_all. Qed.
Print Assumptions C85_find_all.
(** ... and otherwise names the first term that has none; the quiet look-up says whether all were found. *)
Theorem C85_find_error : forall c (R : rfield) t (raw : list (hseq * cx R)) e, find_symbols c t (staged raw) = SErr e <->
  exists j q w, e = SNoSymbol (j + 1) /\ nth_error raw j = Some (q, w) /\ ~ has_symbol c t q /\ forall i z, i < j -> nth_error raw i = Some z -> has_symbol c t (fst z).
Proof. exact find_err. Qed.
Print Assumptions C85_find_error.
Theorem C85_quiet : forall c (R : rfield) t (raw : list (hseq * cx R)), snd (find_quietly c t (staged raw)) = true <-> Forall (fun z => has_symbol c t (fst z)) raw.
Proof. exact quiet_ready. Qed.
Print Assumptions C85_quiet.
Example C85_find_nonvacuous : (exists ts, find_symbols up_ctx up_table (staged up_raw) = SOk ts) /\ find_symbols up_ctx up_table (staged (up_raw ++ up_sum)) = SErr (SNoSymbol 2) /\
  snd (find_quietly up_ctx up_table (staged up_sum)) = false.
Proof. split; [exact up_found|]. split; [exact up_unfound|exact up_quiet]. Qed.

(** The polynomial made after a look-up, at once or after the table has grown, has the value of the sum, where the phase of a sequence is not counted
    (missing: sequences whose simplification gives a phase, see C85_phase_refuted). *)
Theorem C85_find_value_partial : forall c V, lawful c V -> forall (R : rfield) (E : hseq -> cx R), expectation c V R E -> unsigned_conj c V -> forall lt srt t t' raw ts,
  reachable c V t -> raw_ok V raw -> later c V t t' -> find_symbols c t (staged raw) = SOk ts -> right_poly E lt srt t' ts raw.
Proof. exact find_poly. Qed.
Print Assumptions C85_find_value_partial.
(** Registering the missing symbols always succeeds, and the polynomial is right from then on. *)
Theorem C85_register_partial : forall c V, lawful c V -> forall (R : rfield) (E : hseq -> cx R), expectation c V R E -> unsigned_conj c V -> forall lt srt t raw,
  reachable c V t -> raw_ok V raw -> exists t' ys, find_or_register c t (staged raw) false = Done t' ys /\ later c V t t' /\ forall t'', later c V t' t'' -> right_poly E lt srt t'' ys raw.
Proof. exact register_poly. Qed.
Print Assumptions C85_register_partial.
(** So does a quiet look-up under a read lock, followed (when the table may have grown in between) by the registration of what was missing. *)
Theorem C85_upgrade_partial : forall c V, lawful c V -> forall (R : rfield) (E : hseq -> cx R), expectation c V R E -> unsigned_conj c V -> forall lt srt t0 t1 raw ts ready,
  reachable c V t0 -> raw_ok V raw -> later c V t0 t1 -> find_quietly c t0 (staged raw) = (ts, ready) ->
  exists t2 ys, find_or_register c t1 ts ready = Done t2 ys /\ later c V t1 t2 /\ forall t3, later c V t2 t3 -> right_poly E lt srt t3 ys raw.
Proof. exact find_register_poly. Qed.
Print Assumptions C85_upgrade_partial.
(** From the array to the polynomial. *)
Theorem C85_whole_partial : forall c V, lawful c V -> forall (R : rfield) (E : hseq -> cx R), expectation c V R E -> unsigned_conj c V -> forall lt srt scan16 trunc16 of_z n_ops resolve a l t,
  casts16 (R:=R) trunc16 of_z -> plain_cell of_z a -> seq_denotes scan16 of_z a l -> Forall (fun z => Forall (fun o => o < n_ops) (fst z)) l ->
  reachable c V t -> raw_ok V (map (fun z => (resolve (fst z), snd z)) l) ->
  exists ts t' ys, read_staging scan16 trunc16 of_z a = SOk l /\ supply_context n_ops resolve l = SOk ts /\ find_or_register c t ts false = Done t' ys /\ later c V t t' /\
    forall t'', later c V t' t'' -> right_poly E lt srt t'' ys (map (fun z => (resolve (fst z), snd z)) l).
Proof. exact whole. Qed.
Print Assumptions C85_whole_partial.
Example C85_value_nonvacuous : lawful up_ctx (pauli_wf 1 2) /\ expectation up_ctx (pauli_wf 1 2) Qc_rfield up_E /\ unsigned_conj up_ctx (pauli_wf 1 2) /\
  reachable up_ctx (pauli_wf 1 2) table_start /\ later up_ctx (pauli_wf 1 2) table_start up_table /\ raw_ok (pauli_wf 1 2) up_sum /\ unphased up_sum /\
  (exists ts, find_quietly up_ctx up_table (staged up_sum) = (ts, false)) /\ (forall t, term_order (R:=Qc_rfield) t id_less) /\ (forall t, sorts (R:=Qc_rfield) t id_less (isort id_less)) /\
  assignment up_table up_v /\ agrees up_E up_table up_v /\
  (casts16 tr16 of8 /\ plain_cell of8 cell16 /\ seq_denotes scan16 of8 cell16 list16 /\ Forall (fun z => Forall (fun o => o < 3) (fst z)) list16 /\
   raw_ok (pauli_wf 1 2) (map (fun z => (up_resolve (fst z), snd z)) list16)).
Proof. exact value_case. Qed.

(** Refuted in general: the phase that the simplification of a sequence gives is lost; X Y, which is i Z, is read as Z. *)
Theorem C85_phase_refuted : exists ts t' ys p v, supply_context 3 up_resolve [([0; 1], c1 (R:=Qc_rfield))] = SOk ts /\ ts = staged up_raw /\ find_or_register up_ctx table_start ts false = Done t' ys /\
  to_polynomial t' (isort id_less) ys = Some p /\ assignment t' v /\ agrees up_E t' v /\ value v p = c1 /\ op_value up_E up_raw = ci.
Proof. exact phase_dropped. Qed.
Print Assumptions C85_phase_refuted.
