(** Probability tensor, full correlator and conversion of functionals: what a user relies on (C49, C50, C51). *)
From Coq Require Import List NArith Arith Bool Permutation.
From Verif Require Import CoreModel AlgModel FieldModel FieldProofs SymModel SymSpec PolyModel PolySpec PolyTableProofs PolyWitnessProofs
  TensorModel TensorSpec ProbModel ProbSpec ProbFinalProofs ProbCorrFinalProofs ProbConvertProofs ProbWitnessProofs.
Import ListNotations.

(** C49: for every scenario, every consistent assignment of probabilities and every joint report, the element of the probability
    tensor exists, is written with entries of the Collins-Gisin tensor only, and has the probability of the report as its value. *)
Theorem C49_probability : forall (R : rfield) (sc : list party) (sym : N -> option nat),
  Forall (Forall (fun m => 0 < fst m)) sc -> small (map cg_dim sc) ->
  forall psort factory : list (mono R) -> list (mono R), (forall l, Permutation l (psort l)) ->
  forall P, consistent sc P -> forall es fuel v, joint sc es -> entries sc P v -> 2 ^ length sc + volume (map cg_dim sc) <= fuel ->
  exists axes e, make_axes (map (@length _) sc) (concat sc) = Value axes /\
    make_probability (map cg_dim sc) sym psort factory fuel axes (places full_place sc es) = Ret (Value e) /\
    value v (el_cg e) = P es /\
    forall x, In x (el_cg e) -> m_cj x = false /\ exists es', joint_operator sc es' /\ m_id x = S (cg_position sc es').
Proof. exact @probability_spec. Qed.
Print Assumptions C49_probability.
Example C49_probability_holds : Forall (Forall (fun m => 0 < fst m)) sc3 /\ small (map cg_dim sc3) /\ consistent sc3 (detP Qc_rfield)
  /\ joint sc3 [Some (1, 2); Some (0, 2)] /\ entries sc3 (detP Qc_rfield) (fun n => bit Qc_rfield (value_bits sc3 n)).
Proof. exact (sc3_case Qc_rfield). Qed.

(** C49: its symbolic form exists as soon as every entry has a symbol, and whenever it exists it is in canonical form and has the
    probability of the report as its value. *)
Theorem C49_symbols : forall (R : rfield) (t : table) (lt : mono R -> mono R -> bool) srt, term_order t lt -> sorts t lt srt ->
  forall sym : N -> option nat, (forall o id, sym o = Some id -> id < length (t_syms t)) ->
  forall (sc : list party) es fuel P v w psort axes e,
  Forall (Forall (fun m => 0 < fst m)) sc -> small (map cg_dim sc) -> (forall l, Permutation l (psort l)) -> consistent sc P -> joint sc es ->
  2 ^ length sc + volume (map cg_dim sc) <= fuel -> entries sc P v -> symbol_entries sc P sym w -> assignment t w ->
  make_axes (map (@length _) sc) (concat sc) = Value axes ->
  make_probability (map cg_dim sc) sym psort (make_poly t srt) fuel axes (places full_place sc es) = Ret (Value e) ->
  ((forall es', joint_operator sc es' -> sym (N.of_nat (cg_position sc es')) <> None) -> el_symbol e <> None) /\
  forall p, el_symbol e = Some p -> canonical t lt p /\ value w p = P es /\
    forall x, In x (el_cg e) -> sym (N.of_nat (m_id x - 1)) <> None.
Proof. exact @symbol_spec. Qed.
Print Assumptions C49_symbols.
Example C49_symbols_holds : let t := real_table 20 in let sym := sym_at 20 None in let w := fun n => bit Qc_rfield (value_bits sc3 n) in
  (forall o id, sym o = Some id -> id < length (t_syms t)) /\ symbol_entries sc3 (detP Qc_rfield) sym w /\ assignment t w /\
  term_order (R := Qc_rfield) t id_less /\ sorts (R := Qc_rfield) t id_less (isort id_less) /\
  forall es, joint_operator sc3 es -> sym (N.of_nat (cg_position sc3 es)) <> None.
Proof. exact (sc3_symbols Qc_rfield). Qed.

(** C49: symbols found later: an element without symbolic form gets one exactly if all its entries have symbols by then, with the
    same value; otherwise it is left alone. *)
Theorem C49_resolution : forall (R : rfield) (t : table) (lt : mono R -> mono R -> bool) srt, term_order t lt -> sorts t lt srt ->
  forall sym : N -> option nat, (forall o id, sym o = Some id -> id < length (t_syms t)) -> forall e,
  let (e', b) := attempt_symbol_resolution sym (make_poly t srt) e in
  el_cg e' = el_cg e /\
  (b = true <-> forall x, In x (el_cg e) -> sym (N.of_nat (m_id x - 1)) <> None) /\
  (b = false -> e' = e) /\
  forall v w, (forall x id, In x (el_cg e) -> sym (N.of_nat (m_id x - 1)) = Some id -> m_cj x = false /\ w id = v (m_id x)) ->
    assignment t w -> b = true -> exists p, el_symbol e' = Some p /\ canonical t lt p /\ value w p = value v (el_cg e).
Proof. exact @attempt_spec. Qed.
Print Assumptions C49_resolution.
Example C49_resolution_holds :
  let e := mk_element [mk_mono 1 false c1; mk_mono 3 false (@copp Qc_rfield c1)] None in
  snd (attempt_symbol_resolution (sym_at 20 None) (make_poly (real_table 20) (isort id_less)) e) = true /\
  snd (attempt_symbol_resolution (sym_at 2 None) (make_poly (real_table 20) (isort id_less)) e) = false.
Proof. split; vm_compute; reflexivity. Qed.

(** C49: fixing the probabilities of a measurement to given values yields one rule per outcome, each in canonical form, that vanishes
    exactly when the probability has the value. *)
Theorem C49_value_rules : forall (R : rfield) (t : table) (lt : mono R -> mono R -> bool), term_order t lt -> starts t ->
  forall (elems : list (element R)) (values : list R), length elems <= length values ->
  Forall (fun e => exists p, el_symbol e = Some p /\ canonical t lt p) elems ->
  exists rules, explicit_value_rules (append lt) elems values = Value rules /\ Forall (canonical t lt) rules /\ length rules = length elems /\
    forall w i e p x r, assignment t w -> nth_error elems i = Some e -> el_symbol e = Some p -> nth_error values i = Some x ->
      nth_error rules i = Some r -> value w r = csub (value w p) (creal x).
Proof. exact @explicit_spec. Qed.
Print Assumptions C49_value_rules.

(** C49: conditional probabilities: the rule says  P(outcome and condition) = value * P(condition). *)
Theorem C49_conditional_value_rules : forall (R : rfield) (t : table) (lt : mono R -> mono R -> bool), term_order t lt -> starts t ->
  forall condition c (elems : list (element R)) (values : list R), el_symbol condition = Some c -> canonical t lt c ->
  length elems <= length values -> Forall (fun e => exists p, el_symbol e = Some p /\ canonical t lt p) elems ->
  exists rules, conditional_value_rules (append lt) condition elems values = Value rules /\ Forall (canonical t lt) rules /\ length rules = length elems /\
    forall w i e p x r, assignment t w -> nth_error elems i = Some e -> el_symbol e = Some p -> nth_error values i = Some x ->
      nth_error rules i = Some r -> value w r = csub (value w p) (cmul (creal x) (value w c)).
Proof. exact @conditional_spec. Qed.
Print Assumptions C49_conditional_value_rules.

(** C49: an element (or condition) without symbolic form makes the request fail. *)
Theorem C49_value_rules_missing : forall (R : rfield) (lt : mono R -> mono R -> bool) condition (elems : list (element R)) (values : list R),
  length elems <= length values ->
  (Exists (fun e => el_symbol e = None) elems -> explicit_value_rules (append lt) elems values = Throws /\ conditional_value_rules (append lt) condition elems values = Throws)
  /\ (el_symbol condition = None -> conditional_value_rules (append lt) condition elems values = Throws).
Proof. exact @missing_throws. Qed.
Print Assumptions C49_value_rules_missing.
Example C49_value_rules_holds :
  let p := [mk_mono 2 false (@c1 Qc_rfield)] in
  starts (real_table 20) /\ canonical (real_table 20) id_less p /\ el_symbol (mk_element p (Some p)) = Some p.
Proof. split; [apply real_starts; repeat constructor|]. split; [apply canonical_by; vm_compute; reflexivity|reflexivity]. Qed.

(** C50: for every binary scenario and every choice of measurements, the element of the correlator tensor exists and has the
    expectation of the product of the chosen +1/-1 observables as its value. *)
Theorem C50_correlator : forall (R : rfield) (sc : list party) choice, all_binary sc -> Forall2 (fun (p : party) c => c <= length p) sc choice ->
  small (map cg_dim sc) -> forall (sym : N -> option nat) (psort factory : list (mono R) -> list (mono R)), (forall l, Permutation l (psort l)) ->
  forall P, consistent sc P -> forall v, entries sc P v -> forall fuel, 2 ^ length sc <= fuel ->
  exists e, make_correlator (map cg_dim sc) sym psort factory fuel (map (fun p => S (length p)) sc) choice = Ret (Value e) /\
    value v (el_cg e) = correlator P choice.
Proof. exact @correlator_spec. Qed.
Print Assumptions C50_correlator.
Example C50_correlator_holds : all_binary tri2 /\ Forall2 (fun (p : party) c => c <= length p) tri2 tri_choice /\ small (map cg_dim tri2) /\
  consistent tri2 (detP Qc_rfield) /\ entries tri2 (detP Qc_rfield) (fun n => bit Qc_rfield (value_bits tri2 n)) /\
  detP Qc_rfield (map (fun _ => None) tri2) = c1.
Proof. exact (tri_case Qc_rfield). Qed.

(** C50: its symbolic form: whenever it exists it is in canonical form and has that value; it exists if every entry has a symbol
    other than the zero symbol. *)
Theorem C50_symbols : forall (R : rfield) (t : table) (lt : mono R -> mono R -> bool) srt, term_order t lt -> sorts t lt srt ->
  forall sym : N -> option nat, (forall o id, sym o = Some id -> id < length (t_syms t)) ->
  forall (sc : list party) choice, all_binary sc -> Forall2 (fun (p : party) c => c <= length p) sc choice -> small (map cg_dim sc) ->
  forall psort, (forall l, Permutation l (psort l)) -> forall P, consistent sc P -> forall v, entries sc P v ->
  forall w, symbol_entries sc P sym w -> assignment t w -> P (map (fun _ => None) sc) = c1 -> starts t ->
  forall fuel e, 2 ^ length sc <= fuel ->
  make_correlator (map cg_dim sc) sym psort (make_poly t srt) fuel (map (fun p => S (length p)) sc) choice = Ret (Value e) ->
  ((forall es, joint_operator sc es -> exists id, sym (N.of_nat (cg_position sc es)) = Some (S id)) -> el_symbol e <> None) /\
  forall p, el_symbol e = Some p -> canonical t lt p /\ value w p = correlator P choice.
Proof. exact @correlator_symbols. Qed.
Print Assumptions C50_symbols.
Example C50_symbols_holds : let t := real_table 12 in let sym := sym_at 12 None in let w := fun n => bit Qc_rfield (value_bits tri2 n) in
  (forall o id, sym o = Some id -> id < length (t_syms t)) /\ symbol_entries tri2 (detP Qc_rfield) sym w /\ assignment t w /\ starts t /\
  forall es, joint_operator tri2 es -> exists id, sym (N.of_nat (cg_position tri2 es)) = Some (S id).
Proof. exact (tri_symbols Qc_rfield). Qed.

(** C50, refuted: if every entry has a symbol, the symbolic form exists.  (An entry known to be zero has symbol 0, which the one- and
    two-party elements take for "no symbol".) *)
Theorem C50_symbols_refuted : exists (R : rfield) (t : table) (sym : N -> option nat) (srt : list (mono R) -> list (mono R)) sc choice (P : list report -> cx R) w e fuel,
  term_order (R := R) t id_less /\ sorts t id_less srt /\ (forall o id, sym o = Some id -> id < length (t_syms t)) /\
  all_binary sc /\ Forall2 (fun (p : party) c => c <= length p) sc choice /\ small (map cg_dim sc) /\ consistent sc P /\
  symbol_entries sc P sym w /\ assignment t w /\ starts t /\ 2 ^ length sc <= fuel /\ P (map (fun _ => None) sc) = c1 /\
  make_correlator (map cg_dim sc) sym srt (make_poly t srt) fuel (map (fun p => S (length p)) sc) choice = Ret (Value e) /\
  (forall es, joint_operator sc es -> sym (N.of_nat (cg_position sc es)) <> None) /\ el_symbol e = None.
Proof. exact correlator_zero_refuted. Qed.
Print Assumptions C50_symbols_refuted.

(** C51: in the specification of C51 correlators are written with Collins-Gisin values; this is what they are. *)
Theorem C51_correlators : forall (R : rfield) (sc : list party) (P : list report -> cx R) a b, all_binary sc ->
  Forall2 (fun (p : party) c => c <= length p) sc [a; b] -> consistent sc P ->
  cre (correlator P [a; b]) = two_party_correlator (fun x y => cre (P [match x with O => None | S m => Some (m, 0) end; match y with O => None | S m => Some (m, 0) end])) a b.
Proof. exact two_party_meaning. Qed.
Print Assumptions C51_correlators.
Example C51_correlators_holds : all_binary chsh2 /\ Forall2 (fun (p : party) c => c <= length p) chsh2 [1; 2] /\ consistent chsh2 (detP Qc_rfield).
Proof. split; [repeat constructor|]. split; [repeat constructor|]. apply det_consistent, det_ok_by. vm_compute. reflexivity. Qed.

(** C51: a functional of correlators, converted, takes the same value on the Collins-Gisin values. *)
Theorem C51_to_cg : forall (R : rfield) opm m0 m1 (data out : list R) cg, small [S m0; S m1] ->
  convert true opm [m0; m1] data = Value out ->
  functional (S m0) (S m1) out cg = functional (S m0) (S m1) data (two_party_correlator cg).
Proof. exact @to_cg_spec. Qed.
Print Assumptions C51_to_cg.

(** C51: a functional of Collins-Gisin values, converted, takes the same value on the correlators. *)
Theorem C51_to_fc : forall (R : rfield) opm m0 m1 (data out : list R) cg, small [S m0; S m1] ->
  convert false opm [m0; m1] data = Value out ->
  functional (S m0) (S m1) out (two_party_correlator cg) = functional (S m0) (S m1) data cg.
Proof. exact @to_fc_spec. Qed.
Print Assumptions C51_to_fc.

(** C51: the two conversions undo one another. *)
Theorem C51_round_trip : forall (R : rfield) dir opm m0 m1 (data out : list R), small [S m0; S m1] ->
  convert dir opm [m0; m1] data = Value out -> convert (negb dir) opm [m0; m1] out = Value data.
Proof. exact @round_trip. Qed.
Print Assumptions C51_round_trip.

(** C51: the conversion succeeds exactly for binary measurements and coefficient lists of the right length, and never reads outside. *)
Theorem C51_defined : forall (R : rfield) dir opm mpp (data : list R) m0 m1, mpp = [m0; m1] -> small [S m0; S m1] ->
  (convert dir opm mpp data <> Throws <-> Forall (fun k => k = 2) opm /\ length data = S m0 * S m1) /\ convert dir opm mpp data <> Undefined.
Proof. exact @convert_defined. Qed.
Print Assumptions C51_defined.

(** C51: other numbers of parties are refused. *)
Theorem C51_parties : forall (R : rfield) dir opm mpp (data : list R), length mpp <> 2 -> convert dir opm mpp data = Throws.
Proof. exact @convert_parties. Qed.
Print Assumptions C51_parties.
Example C51_holds : small [3; 4] /\ match convert true [2; 2; 2; 2; 2] [2; 3] (repeat (r1 Qc_rfield) 12) with Value out => Nat.eqb (length out) 12 | _ => false end = true.
Proof. split; vm_compute; reflexivity. Qed.
