(** C43: arithmetic of polynomials of operators. *)
From Coq Require Import List NArith ZArith QArith Qcanon Arith Bool Sorted Lia.
From Verif Require Import CoreModel CoreProofs LocModel LocSpec FieldModel FieldProofs SymModel SymSpec SymInstModel SymWitnessProofs
  PolyModel PolySpec PolyOpsProofs PolyOrderProofs PolyTableProofs PolyFinalProofs PolyWitnessProofs AlgModel AlgSpec PauliModel PauliSpec RawModel RawSpec RawProofs RawInstProofs RawTableProofs RawFinalProofs ChshProofs ChshWitnessProofs.
Import ListNotations.
Local Open Scope nat_scope.

(** Collecting terms: hashes strictly increase, no zeros are left and the value is unchanged, whatever the words stand for. *)
Theorem C43_condense : forall (R : rfield) (A : cspace R) V (rep : hseq -> A) (p : list (hseq * cx R)), hash_exact V -> represents V rep -> raw_wf V p ->
  condensed V (condense p) /\ poly_in rep (condense p) = poly_in rep p.
Proof. exact condense_spec. Qed.
Print Assumptions C43_condense.
(** Collected polynomials are a normal form: equal as operators in every representation only if identical. *)
Theorem C43_normal_form : forall (R : rfield) V (p q : list (hseq * cx R)), hash_exact V -> condensed V p -> condensed V q ->
  (forall (A : cspace R) (rep : hseq -> A), represents V rep -> poly_in rep p = poly_in rep q) -> p = q.
Proof. exact normal_form. Qed.
Print Assumptions C43_normal_form.
(** A collected polynomial is called a scalar exactly when it is zero or a multiple of the identity. *)
Theorem C43_scalar : forall (R : rfield) V (p : list (hseq * cx R)), condensed V p -> (forall q, V q -> hs_zero q = false -> hs_ops q = [] -> hs_hash q = 1%N) ->
  (raw_is_scalar p = true <-> p = [] \/ exists q w, p = [(q, w)] /\ hs_ops q = [] /\ w <> c0).
Proof. exact scalar_spec. Qed.
Print Assumptions C43_scalar.
Example C43_scalar_nonvacuous : forall R : rfield, let one := hseq_make 4 [] SPos in let word q := loc_wf [[2;2];[2;2]] 2 q in
  condensed word [(one, c1 : cx R)] /\ (forall q, word q -> hs_zero q = false -> hs_ops q = [] -> hs_hash q = 1%N) /\ raw_is_scalar [(one, c1 : cx R)] = true.
Proof. exact scalar_example. Qed.
(** Sums and differences. *)
Theorem C43_sums : forall (R : rfield) (A : cspace R) V (rep : hseq -> A) (p q : list (hseq * cx R)), hash_exact V -> represents V rep -> raw_wf V p -> raw_wf V q ->
  condensed V (raw_add p q) /\ poly_in rep (raw_add p q) = v_add (poly_in rep p) (poly_in rep q) /\
  condensed V (raw_subtract p q) /\ poly_in rep (raw_subtract p q) = v_add (poly_in rep p) (v_scale (copp c1) (poly_in rep q)).
Proof. exact sums_spec. Qed.
Print Assumptions C43_sums.
(** Products in the three kinds of context: if the words stand for elements of an algebra in which products of words are products,
    then products of polynomials are products. *)
Theorem C43_locality_product : forall (R : rfield) (A : cspace R) sc l k (rep : hseq -> A) times, loc_safe sc (l + k) -> represents (loc_wf sc (l + k)) rep -> bilinear times ->
  (forall a b c, loc_wf sc l a -> loc_wf sc k b -> loc_multiply sc a b = Ret c -> rep c = times (rep a) (rep b)) ->
  forall p q : list (hseq * cx R), Forall (fun x => loc_wf sc l (fst x)) p -> Forall (fun x => loc_wf sc k (fst x)) q ->
  exists r, raw_multiply (loc_multiply sc) p q = Ret r /\ condensed (loc_wf sc (l + k)) r /\ poly_in rep r = times (poly_in rep p) (poly_in rep q).
Proof. exact locality_product. Qed.
Print Assumptions C43_locality_product.
Theorem C43_pauli_product : forall (R : rfield) (A : cspace R) n l k (rep : hseq -> A) times, let word l := (fun q => pauli_wf n l q /\ hs_hash q <> 0%N) in
  pauli_safe n (l + k) -> represents (word (l + k)) rep -> bilinear times -> (forall a b, word l a -> word k b -> rep (pauli_multiply n a b) = times (rep a) (rep b)) ->
  forall p q : list (hseq * cx R), Forall (fun x => word l (fst x)) p -> Forall (fun x => word k (fst x)) q ->
  exists r, raw_multiply (fun a b => Ret (pauli_multiply n a b)) p q = Ret r /\ condensed (word (l + k)) r /\ poly_in rep r = times (poly_in rep p) (poly_in rep q).
Proof. exact pauli_product. Qed.
Print Assumptions C43_pauli_product.
Theorem C43_algebraic_product : forall L M c ac fc, decidable_context L M c ac -> is_complete fc (ac_rules ac) true = Ret true -> exists n, forall fuel, n <= fuel ->
  forall (R : rfield) (A : cspace R) l k (rep : hseq -> A) times, let word l := (fun q => (AlgSpec.canonical L ac q /\ phase_safe c ac q) /\ length (hs_ops q) <= l) in
  l + k <= L -> represents (word (l + k)) rep -> bilinear times ->
  (forall a b d, word l a -> word k b -> multiply fuel ac a b = Ret d -> rep d = times (rep a) (rep b)) ->
  forall p q : list (hseq * cx R), Forall (fun x => word l (fst x)) p -> Forall (fun x => word k (fst x)) q ->
  exists r, raw_multiply (multiply fuel ac) p q = Ret r /\ condensed (word (l + k)) r /\ poly_in rep r = times (poly_in rep p) (poly_in rep q).
Proof. exact algebraic_product. Qed.
Print Assumptions C43_algebraic_product.
(** Commutators and anticommutators of Pauli polynomials are PQ - QP and PQ + QP. *)
Theorem C43_pauli_commutators : forall (R : rfield) (A : cspace R) n l k, let word l := (fun q => pauli_wf n l q /\ hs_hash q <> 0%N) in
  pauli_safe n (l + k) -> forall rep : hseq -> A, represents (pauli_wf n (l + k)) rep -> forall times, bilinear times ->
  (forall a b, word (l + k) a -> word (l + k) b -> rep (pauli_multiply n a b) = times (rep a) (rep b)) ->
  forall p q : list (hseq * cx R), Forall (fun x => word l (fst x)) p -> Forall (fun x => word k (fst x)) q ->
  let P := poly_in rep p in let Q := poly_in rep q in
  (exists r, raw_commutator n p q = Ret r /\ condensed (pauli_wf n (l + k)) r /\ poly_in rep r = v_add (times P Q) (v_scale (copp c1) (times Q P))) /\
  (exists r, raw_anticommutator n p q = Ret r /\ condensed (pauli_wf n (l + k)) r /\ poly_in rep r = v_add (times P Q) (v_scale c1 (times Q P))).
Proof. exact brackets_spec. Qed.
Print Assumptions C43_pauli_commutators.
(** ... and the Pauli matrices of one qubit are such a representation. *)
Theorem C43_pauli_matrices : forall (R : rfield) L, represents (pauli_wf 1 L) (m2_rep R) /\ bilinear (m2_mul R) /\
  forall a b, pauli_wf 1 L a /\ hs_hash a <> 0%N -> pauli_wf 1 L b /\ hs_hash b <> 0%N -> m2_rep R (pauli_multiply 1 a b) = m2_mul R (m2_rep R a) (m2_rep R b).
Proof. exact pauli_matrices_represent. Qed.
Print Assumptions C43_pauli_matrices.
Example C43_arithmetic_nonvacuous : let x := pauli_sequence 1 [0] SPos in let y := pauli_sequence 1 [1] SPos in let z := pauli_sequence 1 [2] SPos in
  let e := hseq_const false in let P := [(e, cq 2 0); (x, cq 1 0)] in let Q := [(y, cq 0 1); (x, cq 3 0)] in
  raw_same (raw_multiply (fun a b => Ret (pauli_multiply 1 a b)) P Q) [(e, cq 3 0); (x, cq 6 0); (y, cq 0 2); (z, cq (-1) 0)] = true /\
  raw_same (raw_commutator 1 P Q) [(z, cq (-2) 0)] = true /\ raw_same (raw_anticommutator 1 P Q) [(e, cq 6 0); (x, cq 12 0); (y, cq 0 4)] = true /\
  Forall (fun q => pauli_wf 1 1 q /\ hs_hash q <> 0%N) [e; x; y; z] /\ pauli_safe 1 2.
Proof. exact arithmetic_example. Qed.

(** From symbols to operators: the conversion fails exactly on symbols that are unknown or have no word, ... *)
Theorem C43_to_operators_fails : forall c V, lawful c V -> forall (R : rfield) t (p : list (mono R)), reachable c V t ->
  (raw_of_poly t p = None <-> exists x, In x p /\ symbol_word t (m_id x) = None).
Proof. exact raw_fails. Qed.
Print Assumptions C43_to_operators_fails.
(** ... keeps the value if no symbol was merged with a phase, ... *)
Theorem C43_to_operators : forall c V, lawful c V -> forall (R : rfield) (E : hseq -> cx R) t v (p : list (mono R)) r,
  expectation c V R E -> reachable c V t -> plain_words t -> assignment t v -> agrees E t v -> raw_of_poly t p = Some r -> raw_value E r = value v p.
Proof. exact raw_value_of. Qed.
Print Assumptions C43_to_operators.
Theorem C43_to_operators_words : forall c V, lawful c V -> forall (R : rfield) t (p : list (mono R)) r, reachable c V t -> raw_of_poly t p = Some r -> raw_wf V r.
Proof. exact raw_wf_of. Qed.
Print Assumptions C43_to_operators_words.
(** ... and converting back gives the same polynomial. *)
Theorem C43_there_and_back : forall c V, lawful c V -> forall (R : rfield) (lt : mono R -> mono R -> bool) srt t (p : list (mono R)) r, unsigned_conj c V -> real_phases c t ->
  reachable c V t -> plain_words t -> flagged c t -> starts t -> no_null t -> term_order t lt -> sorts t lt srt -> PolySpec.canonical t lt p ->
  raw_of_poly t p = Some r -> construct_raw c t srt r = Some p.
Proof. exact raw_round_trip. Qed.
Print Assumptions C43_there_and_back.
Example C43_there_and_back_nonvacuous : lawful chsh_sctx chsh_words /\ unsigned_conj chsh_sctx chsh_words /\ real_phases chsh_sctx chsh_table /\ reachable chsh_sctx chsh_words chsh_table /\
  plain_words chsh_table /\ flagged chsh_sctx chsh_table /\ starts chsh_table /\ no_null chsh_table /\ term_order chsh_table (@id_less Qc_rfield) /\
  sorts chsh_table (@id_less Qc_rfield) (isort id_less) /\ PolySpec.canonical chsh_table id_less chsh_poly /\
  expectation chsh_sctx chsh_words Qc_rfield flat_E /\ assignment chsh_table chsh_v /\ agrees flat_E chsh_table chsh_v /\
  raw_same (match raw_of_poly chsh_table chsh_poly with Some r => Ret r | None => NoFuel end)
    [(hseq_const false, cq 3 0); (hseq_make 4 [0;1] SPos, cq 2 1); (hseq_make 4 [1;0] SPos, cq 0 (-1)); (hseq_make 4 [0;2] SPos, cq 5 0)] = true.
Proof.
  split; [exact chsh_lawful|]. split; [exact chsh_unsigned|]. split; [exact chsh_real|]. split; [exact chsh_reach|]. split; [exact chsh_plain|]. split; [exact chsh_flagged|].
  split; [apply chsh_good|]. split; [apply chsh_good|]. split; [apply id_less_order|]. split; [apply isort_sorts, id_less_order|]. split; [exact chsh_canonical|].
  split; [exact chsh_expectation|]. split; [exact chsh_assignment|]. split; [exact chsh_agrees|]. vm_compute. reflexivity.
Qed.
(** A symbol merged with a phase comes back with that phase in its weight. *)
Theorem C43_phased_symbol_refuted : exists (t : table) (p q : list (mono Qc_rfield)) r, reachable_clean anti3_sctx anti3_words t /\ starts t /\ no_null t /\ PolySpec.canonical t id_less p /\
  raw_of_poly t p = Some r /\ construct_raw anti3_sctx t (isort id_less) r = Some q /\ q <> p.
Proof. exact phased_round_trip_refuted. Qed.
Print Assumptions C43_phased_symbol_refuted.
