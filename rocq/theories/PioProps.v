(** C84: exchange of polynomials with MATLAB. *)
From Coq Require Import NArith ZArith Arith Bool Ascii String List.
From Verif Require Import TextModel FieldModel FieldProofs SymModel SymSpec PolyModel PolySpec PolyProofs PolyWitnessProofs MonModel MonSpec PioModel PioSpec PioProofs PioWitnessProofs.
Import ListNotations.
Local Open Scope list_scope.
Local Open Scope nat_scope.

(** What is exported stands for the polynomial, term by term. *)
Theorem C84_export : forall (R : rfield) scan scanb negb_r of_z stod (p : list (PolyModel.mono R)), denotes scan scanb negb_r of_z stod (export_poly p) p.
Proof. exact @export_denotes. Qed.
Print Assumptions C84_export.
Example C84_export_nonvacuous : denotes8 (export_poly p8) p8. Proof. apply C84_export. Qed.

(** A polynomial that is exported and given back is the same polynomial. *)
Theorem C84_back : forall (R : rfield) scan scanb negb_r trunc of_z stod, casts (R:=R) negb_r trunc of_z -> forall t srt lt p,
  term_order t lt -> sorts t lt srt -> starts t -> no_null t -> canonical t lt p ->
  import_poly scan scanb negb_r trunc of_z stod t srt (export_poly p) = POk p.
Proof. exact @round_trip. Qed.
Print Assumptions C84_back.
Example C84_back_nonvacuous : casts neg8 trunc8 of8 /\ @term_order Qc_rfield t8 id_less /\ @sorts Qc_rfield t8 id_less (isort id_less) /\ starts t8 /\ no_null t8 /\ canonical t8 id_less p8 /\
  imp8 (export_poly p8) = POk p8.
Proof.
  split; [exact casts8|]. split; [exact order8|]. split; [exact sorts8|]. split; [exact (proj1 t8_good)|]. split; [exact (proj2 t8_good)|]. split; [exact p8_canonical|].
  exact (C84_back _ _ _ _ _ _ _ casts8 _ _ _ _ order8 sorts8 (proj1 t8_good) (proj2 t8_good) p8_canonical).
Qed.

(** So is a single term, as a term. *)
Theorem C84_term_back : forall (R : rfield) scan scanb negb_r trunc of_z stod, casts (R:=R) negb_r trunc of_z -> forall y,
  exists x, read_monomial scan scanb negb_r trunc of_z stod (export_term y) = POk x /\ N.to_nat (ra_id x) = m_id y /\ ra_f x = m_f y /\ ra_cj x = m_cj y.
Proof. exact @term_back. Qed.
Print Assumptions C84_term_back.
Example C84_term_back_nonvacuous : casts neg8 trunc8 of8. Proof. exact casts8. Qed.
(** A single term is accepted exactly if it is well formed, and read as what it stands for. *)
Theorem C84_lone_term : forall (R : rfield) scan scanb negb_r trunc of_z stod, casts (R:=R) negb_r trunc of_z -> forall a y, plain_element negb_r of_z a ->
  ((exists x, read_monomial scan scanb negb_r trunc of_z stod a = POk x /\ N.to_nat (ra_id x) = m_id y /\ ra_f x = m_f y /\ ra_cj x = m_cj y) <->
   lone_term scan scanb negb_r of_z stod a y).
Proof. exact @lone_iff. Qed.
Print Assumptions C84_lone_term.
Example C84_lone_term_nonvacuous : casts neg8 trunc8 of8 /\ plain_element neg8 of8 (MText [Some (tx "3*")]) /\
  read_monomial scan8 scanb8 neg8 trunc8 of8 stod8 (MText [Some (tx "3*")]) = POk (mk_raw 3 c1 true).
Proof. split; [exact casts8|]. split; [intros x r H; discriminate H|reflexivity]. Qed.
(** A term that is exported on its own is the same polynomial when it is given back. *)
Theorem C84_mono_back : forall (R : rfield) scan scanb negb_r trunc of_z stod, casts (R:=R) negb_r trunc of_z -> forall t srt lt y,
  term_order t lt -> sorts t lt srt -> starts t -> no_null t -> canonical t lt [y] ->
  import_poly scan scanb negb_r trunc of_z stod t srt (export_mono y) = POk [y].
Proof. exact @round_trip_mono. Qed.
Print Assumptions C84_mono_back.
Example C84_mono_back_nonvacuous : casts neg8 trunc8 of8 /\ @term_order Qc_rfield t8 id_less /\ @sorts Qc_rfield t8 id_less (isort id_less) /\ starts t8 /\ no_null t8 /\ canonical t8 id_less [y8].
Proof.
  split; [exact casts8|]. split; [exact order8|]. split; [exact sorts8|]. split; [exact (proj1 t8_good)|]. split; [exact (proj2 t8_good)|].
  apply canonical_by. vm_compute. reflexivity.
Qed.

(** Unless a symbol is numbered by a fraction or a number of 2^64 or more, an array is accepted exactly if it stands for terms of known symbols. *)
Theorem C84_accepted : forall (R : rfield) scan scanb negb_r trunc of_z stod, casts (R:=R) negb_r trunc of_z -> forall t srt a, plain negb_r of_z a ->
  ((exists p, import_poly scan scanb negb_r trunc of_z stod t srt a = POk p) <-> exists ts, denotes scan scanb negb_r of_z stod a ts /\ Forall (in_table t) ts).
Proof. exact @accepted_iff. Qed.
Print Assumptions C84_accepted.
Example C84_accepted_nonvacuous : casts neg8 trunc8 of8 /\ plain neg8 of8 arr8 /\ denotes8 arr8 terms8 /\ Forall (in_table t8) terms8 /\ plain neg8 of8 bad8 /\ imp8 bad8 = PErr (BadElement 2).
Proof. split; [exact casts8|]. split; [exact arr8_plain|]. split; [exact arr8_denotes|]. split; [exact terms8_in|]. split; [exact bad8_plain|exact bad8_error]. Qed.

(** The polynomial that results is canonical, and is the sum of the terms the array stands for. *)
Theorem C84_value : forall (R : rfield) scan scanb negb_r trunc of_z stod, casts (R:=R) negb_r trunc of_z -> forall t srt lt a ts p,
  term_order t lt -> sorts t lt srt -> denotes scan scanb negb_r of_z stod a ts -> import_poly scan scanb negb_r trunc of_z stod t srt a = POk p ->
  canonical t lt p /\ same_value t p ts.
Proof. exact @import_value. Qed.
Print Assumptions C84_value.
Example C84_value_nonvacuous : casts neg8 trunc8 of8 /\ @term_order Qc_rfield t8 id_less /\ @sorts Qc_rfield t8 id_less (isort id_less) /\ denotes8 txt8 txt8_terms /\
  imp8 txt8 = POk (make_poly t8 (isort id_less) txt8_terms) /\ denotes8 arr8 terms8 /\ imp8 arr8 = POk (make_poly t8 (isort id_less) terms8).
Proof.
  split; [exact casts8|]. split; [exact order8|]. split; [exact sorts8|]. split; [exact txt8_denotes|]. split; [exact txt8_ok|]. split; [exact arr8_denotes|exact arr8_ok].
Qed.

(** A term of the wrong shape is reported by its position, and it is the first that cannot be read. *)
Theorem C84_first_bad : forall (R : rfield) scan scanb negb_r trunc of_z stod, casts (R:=R) negb_r trunc of_z -> forall t srt l n, plain negb_r of_z (MCell l) ->
  (import_poly scan scanb negb_r trunc of_z stod t srt (MCell l) = PErr (BadElement n) <->
   exists j a, n = j + 1 /\ nth_error l j = Some a /\ misshapen a /\
     forall i b, i < j -> nth_error l i = Some b -> exists y, element scan scanb negb_r of_z b y).
Proof. exact @first_bad. Qed.
Print Assumptions C84_first_bad.
Example C84_first_bad_nonvacuous : casts neg8 trunc8 of8 /\ plain neg8 of8 bad8 /\ imp8 bad8 = PErr (BadElement 2). Proof. split; [exact casts8|]. split; [exact bad8_plain|exact bad8_error]. Qed.

(** The full statement would give the position of an unknown symbol too.  The code always says 1, here of a symbol that is known. *)
Theorem C84_position_refuted : exists a ts y, denotes8 a ts /\ imp8 a = PErr (OutOfRange 1) /\ nth_error ts 0 = Some y /\ in_table t8 y.
Proof. exact position_refuted. Qed.
Print Assumptions C84_position_refuted.
(** What holds: an unknown symbol is always rejected, with that message, and the message appears for nothing else. *)
Theorem C84_position_partial : forall (R : rfield) scan scanb negb_r trunc of_z stod, casts (R:=R) negb_r trunc of_z -> forall t srt a,
  (forall ts, denotes scan scanb negb_r of_z stod a ts -> ~ Forall (in_table t) ts -> import_poly scan scanb negb_r trunc of_z stod t srt a = PErr (OutOfRange 1)) /\
  (forall n, plain negb_r of_z a -> import_poly scan scanb negb_r trunc of_z stod t srt a = PErr (OutOfRange n) ->
     n = 1 /\ exists ts, denotes scan scanb negb_r of_z stod a ts /\ ~ Forall (in_table t) ts).
Proof. exact @range_partial. Qed.
Print Assumptions C84_position_partial.
Example C84_position_partial_nonvacuous : casts neg8 trunc8 of8 /\ denotes8 far8 far8_terms /\ ~ Forall (in_table t8) far8_terms /\ plain neg8 of8 far8 /\ imp8 far8 = PErr (OutOfRange 1).
Proof. split; [exact casts8|]. split; [exact far8_denotes|]. split; [exact far8_out|]. split; [exact far8_plain|exact far8_error]. Qed.

(** The full statement would reject a symbol number that is not whole.  The code drops the fraction: 2.5 is read as 2. *)
Theorem C84_fraction_refuted : (forall z, half5 <> of8 z) /\ imp8 (MCell [MCell [MReals [half5]]]) = imp8 (MCell [MCell [MInts [2%Z]]]) /\
  exists p, imp8 (MCell [MCell [MReals [half5]]]) = POk p.
Proof. exact fraction_refuted. Qed.
Print Assumptions C84_fraction_refuted.
(** In general a number of a symbol is read as what it is cast to. *)
Theorem C84_fraction_partial : forall (R : rfield) scan scanb negb_r trunc of_z stod (x : R) n r t srt, negb_r x = false -> trunc x = Some n ->
  import_poly scan scanb negb_r trunc of_z stod t srt (MCell [MCell (MReals [x] :: r)]) =
  import_poly scan scanb negb_r trunc of_z stod t srt (MCell [MCell (MInts [Z.of_N n] :: r)]).
Proof. exact @fraction. Qed.
Print Assumptions C84_fraction_partial.
Example C84_fraction_partial_nonvacuous : neg8 half5 = false /\ trunc8 half5 = Some 2%N. Proof. exact half5_cast. Qed.
