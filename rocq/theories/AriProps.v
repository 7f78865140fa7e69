(** Theorems of C68. *)
From Coq Require Import List Arith NArith ZArith QArith Qcanon Bool Sorted.
From Verif Require Import CoreModel CoreSpec FieldModel FieldProofs SymModel SymSpec ChshProofs PolyModel PolySpec PolyTableProofs PolyWitnessProofs ChshWitnessProofs RawModel RawSpec FacModel FacSpec FacWitnessProofs.
From Verif Require Import AriModel AriSpec AriProofs AriMulProofs AriMul2Proofs AriValProofs AriThmProofs AriWitnessProofs.
Import ListNotations.
Local Open Scope nat_scope.

(** * Sums *)
(** The sum of two matrices is the sum of the entries, whatever the symbols stand for; matrices of different sizes are refused. *)
Theorem C68_sum : forall (R : rfield) t lt srt, term_order t lt -> sorts t lt srt -> forall a b : smx R, well_formed t lt a -> well_formed t lt b ->
  if Nat.eqb (smx_dim a) (smx_dim b)
  then exists p, add_matrix t srt a b = AOk p /\ well_formed t lt (SP p) /\ pm_dim p = smx_dim a /\
         (forall v o x y, assignment t v -> entry v a o = Some x -> entry v b o = Some y -> entry v (SP p) o = Some (cadd x y))
  else add_matrix t srt a b = AThrow.
Proof. exact @add_matrix_spec. Qed.
Print Assumptions C68_sum.
Example C68_sum_case : term_order chsh_table (@id_less Q') /\ sorts chsh_table id_less (isort (@id_less Q')) /\ well_formed chsh_table id_less mat_a /\ well_formed chsh_table id_less mat_b.
Proof. exact (conj (proj1 (isort_order chsh_table)) (conj (proj2 (isort_order chsh_table)) (conj mat_a_ok mat_b_ok))). Qed.
(** Linear combinations of any number of matrices. *)
Theorem C68_combination : forall (R : rfield) t lt srt, term_order t lt -> sorts t lt srt -> forall dim (parts : list (smx R * cx R)),
  (forall p, In p parts -> well_formed t lt (fst p) /\ smx_dim (fst p) = dim) ->
  exists p, composite t srt dim parts = AOk p /\ well_formed t lt (SP p) /\ pm_dim p = dim /\
    (forall v o, assignment t v -> o < dim * dim -> entry v (SP p) o = Some (entry_sum v parts o)).
Proof. exact @composite_spec. Qed.
Print Assumptions C68_combination.
Example C68_combination_case : forall p, In p [(mat_a, cq 2 1); (mat_b, cq 0 3)] -> well_formed chsh_table id_less (fst p) /\ smx_dim (fst p) = 1.
Proof. intros p [<-|[<-|[]]]; [exact (conj mat_a_ok eq_refl)|exact (conj mat_b_ok eq_refl)]. Qed.
(** Adding a monomial or a polynomial adds it to every entry; the only exception is adding zero to a polynomial matrix.  The result is stored canonically if no entry was zero. *)
Theorem C68_add_monomial : forall (R : rfield) t lt srt, term_order t lt -> sorts t lt srt -> forall (a : smx R) x, well_formed t lt a -> m_id x = 0 \/ m_f x = c0 \/ canonical t lt [x] ->
  match add_mono t srt lt a x with
  | AOk p => pm_dim p = smx_dim a /\ sized (SP p) /\ (no_zero_entry R a -> well_formed t lt (SP p)) /\
             (forall v o z, assignment t v -> entry v a o = Some z -> entry v (SP p) o = Some (cadd z (term_value v x)))
  | AThrow => (m_id x = 0 \/ m_f x = c0) /\ (exists p, a = SP p)
  | AUndef => False
  end.
Proof. exact @add_mono_spec. Qed.
Print Assumptions C68_add_monomial.
Theorem C68_add_polynomial : forall (R : rfield) t lt srt, term_order t lt -> sorts t lt srt -> forall (a : smx R) q, well_formed t lt a -> canonical t lt q ->
  match add_poly t srt lt a q with
  | AOk p => pm_dim p = smx_dim a /\ sized (SP p) /\ (no_zero_entry R a -> well_formed t lt (SP p)) /\
             (forall v o z, assignment t v -> entry v a o = Some z -> entry v (SP p) o = Some (cadd z (value v q)))
  | AThrow => q = [] /\ (exists p, a = SP p)
  | AUndef => False
  end.
Proof. exact @add_poly_spec. Qed.
Print Assumptions C68_add_polynomial.
Example C68_add_polynomial_case : well_formed chsh_table id_less mat_a /\ canonical chsh_table id_less chsh_poly. Proof. exact (conj mat_a_ok chsh_canonical). Qed.
(** Adding zero to a polynomial matrix throws, and so does multiplying it by one. *)
Theorem C68_polynomial_unit_refuted : exists a : smx Q', well_formed chsh_table id_less a /\ add_mono chsh_table (isort id_less) id_less a (mk_mono 0 false c0) = AThrow /\
  multiply_mono chsh_sctx chsh_mul false true (mk_mono 1 false c1) a chsh_table = Throw chsh_table.
Proof. exact polynomial_refuted. Qed.
Print Assumptions C68_polynomial_unit_refuted.
(** Where an entry is zero, the sum keeps the zero as a term. *)
Theorem C68_sum_canonical_refuted : exists (a : smx Q') x p, well_formed chsh_table id_less a /\ canonical chsh_table id_less [x] /\ add_mono chsh_table (isort id_less) id_less a x = AOk p /\
  ~ well_formed chsh_table id_less (SP p).
Proof. exact sum_canonical_refuted. Qed.
Print Assumptions C68_sum_canonical_refuted.

(** * Products with operators *)
(** Multiplying by an operator sequence, from the left or the right, replaces each element by its product; the entries are the expectations of those, times the factors. *)
Theorem C68_multiply : forall c V, lawful c V -> unsigned_conj c V -> forall (R : rfield) only mul pre q w (m : monomat R) ops t, reachable c V t -> mm_ops m = Some ops -> length ops = mm_dim m * mm_dim m ->
  products_ok V mul pre q ops -> known_ops c only (times mul pre q ops) ->
  exists t' m', mm_multiply c mul only pre q w m t = Done t' m' /\ later c V t t' /\ mm_dim m' = mm_dim m /\ well_formed t' (fun _ _ => false) (SM m') /\
    (plain_self_conjugates c (used_ops c (times mul pre q ops)) -> flagged c t -> flagged c t') /\ mm_ops m' = Some (times mul pre q ops) /\
    (forall E v, expectation c V R E -> assignment t' v -> agrees E t' v ->
       stands E v m' /\ forall o a, nth_error ops o = Some a -> entry v (SM m') o = Some (cmul (cmul (mm_factor m) w) (E (if pre then mul q a else mul a q)))).
Proof. exact multiply_spec. Qed.
Print Assumptions C68_multiply.
Example C68_multiply_case : reachable chsh_sctx chsh_words two_tab /\ mm_ops two_mm = Some two_matrix /\ products_ok chsh_words chsh_mul true (h4 [0]) two_matrix /\
  known_ops chsh_sctx false (times chsh_mul true (h4 [0]) two_matrix).
Proof. exact (conj (proj2 two_tab_later) (conj two_ops (conj two_products (two_known (h4 [0]))))). Qed.
(** If the product is flagged Hermitian, its values are Hermitian, provided the factor is real. *)
Theorem C68_multiply_hermitian : forall c V, lawful c V -> unsigned_conj c V -> forall (R : rfield) only mul pre q w (m : monomat R) ops t t' m', reachable c V t -> mm_ops m = Some ops -> length ops = mm_dim m * mm_dim m ->
  products_ok V mul pre q ops -> known_ops c only (times mul pre q ops) -> mm_multiply c mul only pre q w m t = Done t' m' -> mm_herm m' = true -> cim (cmul (mm_factor m) w) = r0 R ->
  forall E v, expectation c V R E -> assignment t' v -> agrees E t' v -> hermitian_values v (SM m').
Proof. exact multiply_flag. Qed.
Print Assumptions C68_multiply_hermitian.
(** i times the identity is flagged Hermitian. *)
Theorem C68_multiply_hermitian_refuted : exists t' (m' : monomat Q') v, mm_multiply chsh_sctx chsh_mul false true (hseq_const false) ci one_mm chsh_table = Done t' m' /\ mm_herm m' = true /\
  assignment t' v /\ agrees flat_E t' v /\ ~ hermitian_values v (SM m').
Proof. exact hermitian_refuted. Qed.
Print Assumptions C68_multiply_hermitian_refuted.
(** Multiplying by an operator polynomial of two or more terms. *)
Theorem C68_multiply_polynomial : forall c V, lawful c V -> unsigned_conj c V -> forall (R : rfield) only mul srt lt pre p (m : monomat R) ops t, reachable c V t -> flagged c t -> mm_ops m = Some ops ->
  length ops = mm_dim m * mm_dim m -> terms_ok c V R only mul pre p ops -> 2 <= length p -> (forall t', later c V t t' -> term_order t' (lt t') /\ sorts t' (lt t') (srt t')) ->
  exists t' r, mm_multiply_raw c mul only srt lt pre p m t = Done t' (SP r) /\ later c V t t' /\ reachable c V t' /\ pm_dim r = mm_dim m /\ sized (SP r) /\ (2 < length p -> well_formed t' (lt t') (SP r)) /\
    (forall E v, expectation c V R E -> assignment t' v -> agrees E t' v -> forall o a, nth_error ops o = Some a -> entry v (SP r) o = Some (cmul (mm_factor m) (product_value E mul pre p a))).
Proof. exact multiply_raw_spec. Qed.
Print Assumptions C68_multiply_polynomial.
Example C68_multiply_polynomial_case : terms_ok chsh_sctx chsh_words Q' false chsh_mul true two_poly two_matrix /\
  forall t', later chsh_sctx chsh_words chsh_table t' -> term_order t' (@id_less Q') /\ sorts t' id_less (isort (@id_less Q')).
Proof. exact (conj two_terms (fun t' _ => isort_order t')). Qed.
(** Multiplying by a symbol multiplies by its operator if the symbol is Hermitian (or handed over conjugated), and by the conjugate of its operator otherwise. *)
Theorem C68_times_symbol : forall c V, lawful c V -> unsigned_conj c V -> forall (R : rfield) only mul pre (x : mono R) m ops t u, reachable c V t -> mm_value m = false -> mm_ops m = Some ops ->
  length ops = mm_dim m * mm_dim m -> m_id x <> 0 -> ~ (m_id x = 1 /\ m_f x = c1) -> symbol_word t (m_id x) = Some u ->
  let w := if m_cj x || herm t (m_id x) then u else cx_conj c u in products_ok V mul pre w ops -> known_ops c only (times mul pre w ops) ->
  exists t' m', multiply_mono c mul only pre x (SM m) t = Done t' (SM m') /\ later c V t t' /\ mm_dim m' = mm_dim m /\
    forall E v, expectation c V R E -> assignment t' v -> agrees E t' v -> forall o a, nth_error ops o = Some a -> entry v (SM m') o = Some (cmul (cmul (mm_factor m) (m_f x)) (E (if pre then mul w a else mul a w))).
Proof. exact times_symbol. Qed.
Print Assumptions C68_times_symbol.
Example C68_times_symbol_case : symbol_word chsh_table 3 = Some ab_word /\ products_ok chsh_words chsh_mul true ab_word two_matrix. Proof. exact ab_case. Qed.
(** So the matrix of the identity times X is not the matrix of X. *)
Theorem C68_times_symbol_refuted : exists (x : mono Q') t' a v, assignment t' v /\ entry v (SM one_mm) 0 = Some c1 /\
  multiply_mono chsh_sctx chsh_mul false true x (SM one_mm) chsh_table = Done t' a /\ entry v a 0 <> Some (term_value v x).
Proof. exact times_symbol_refuted. Qed.
Print Assumptions C68_times_symbol_refuted.
(** Multiplying by a polynomial of two or more terms multiplies by the operators of its symbols. *)
Theorem C68_times_polynomial : forall c V, lawful c V -> unsigned_conj c V -> forall (R : rfield) only mul srt lt pre (p : list (mono R)) m ops t r, reachable c V t -> flagged c t -> mm_value m = false -> mm_ops m = Some ops ->
  length ops = mm_dim m * mm_dim m -> 2 <= length p -> raw_of_poly t p = Some r -> terms_ok c V R only mul pre r ops -> (forall t', later c V t t' -> term_order t' (lt t') /\ sorts t' (lt t') (srt t')) ->
  exists t' q, multiply_poly c mul only srt lt pre p (SM m) t = Done t' (SP q) /\ later c V t t' /\ pm_dim q = mm_dim m /\ (2 < length p -> well_formed t' (lt t') (SP q)) /\
    forall E v, expectation c V R E -> assignment t' v -> agrees E t' v -> forall o a, nth_error ops o = Some a -> entry v (SP q) o = Some (cmul (mm_factor m) (product_value E mul pre r a)).
Proof. exact times_polynomial. Qed.
Print Assumptions C68_times_polynomial.

(** * Matrices of numbers *)
(** A dense matrix of numbers has the numbers as entries, is flagged Hermitian exactly if it is, and flagged anti-Hermitian only if it is (exactly if it was given as complex numbers). *)
Theorem C68_value_dense : forall (R : rfield) t real d (data : list (cx R)), length data = d * d -> let m := value_dense t real d data in
  mm_dim m = d /\ mm_value m = true /\ sized (SM m) /\ Forall (number R) (mm_cells m) /\
  (forall v row col, v 0 = c0 -> v 1 = c1 -> row < d -> col < d -> entry v (SM m) (col * d + row) = Some (at_ d data row col)) /\
  (mm_herm m = true <-> hermitian_data d (at_ d data)) /\ (mm_anti m = true -> antihermitian_data d (at_ d data)) /\ (real = false -> antihermitian_data d (at_ d data) -> mm_anti m = true).
Proof. exact value_dense_spec. Qed.
Print Assumptions C68_value_dense.
Theorem C68_value_antihermitian_refuted : exists data : list (cx Q'), length data = 2 * 2 /\ antihermitian_data 2 (at_ 2 data) /\ mm_anti (value_dense chsh_table true 2 data) = false /\
  mm_anti (value_dense chsh_table false 2 data) = true.
Proof. exact anti_refuted. Qed.
Print Assumptions C68_value_antihermitian_refuted.
(** A sparse matrix of numbers likewise; but it is flagged Hermitian, although it is not, if entries below the diagonal are missing. *)
Theorem C68_value_sparse : forall (R : rfield) t real d (l : list (nat * nat * cx R)), sparse_ok d l -> let m := value_sparse t real d l in
  mm_dim m = d /\ mm_value m = true /\ sized (SM m) /\ Forall (number R) (mm_cells m) /\
  (forall v row col, v 0 = c0 -> v 1 = c1 -> row < d -> col < d -> entry v (SM m) (col * d + row) = Some (sp_at l row col)) /\
  (hermitian_data d (sp_at l) -> mm_herm m = true) /\ (mirrored R l -> mm_herm m = true -> hermitian_data d (sp_at l)).
Proof. exact value_sparse_spec. Qed.
Print Assumptions C68_value_sparse.
Theorem C68_value_sparse_refuted : exists l : list (nat * nat * cx Q'), sparse_ok 2 l /\ mm_herm (value_sparse chsh_table true 2 l) = true /\ ~ hermitian_data 2 (sp_at l).
Proof. exact sparse_refuted. Qed.
Print Assumptions C68_value_sparse_refuted.
(** Numbers times an operator sequence: the expectation times the numbers; flagged Hermitian only if it is, for a real factor. *)
Theorem C68_value_multiply : forall (R : rfield) c V, lawful c V -> unsigned_conj c V -> forall q w (m : monomat R) t, reachable c V t -> V q -> sized (SM m) -> Forall (number R) (mm_cells m) ->
  exists t' m', vm_multiply c q w m t = Done t' m' /\ reachable c V t' /\ later c V t t' /\ mm_dim m' = mm_dim m /\ sized (SM m') /\
    forall E v, expectation c V R E -> assignment t' v -> agrees E t' v -> forall o z, entry v (SM m) o = Some z -> entry v (SM m') o = Some (cmul (cmul w (E q)) z).
Proof. exact vm_multiply_spec. Qed.
Print Assumptions C68_value_multiply.
Example C68_value_multiply_case : reachable chsh_sctx chsh_words chsh_table /\ chsh_words (hseq_make 4 [0;1] SIm) /\ sized (SM num_one) /\ Forall (number Q') (mm_cells num_one).
Proof. exact value_case. Qed.
Theorem C68_value_hermitian : forall (R : rfield) c V, lawful c V -> unsigned_conj c V -> forall q w (m : monomat R) t t' m', reachable c V t -> V q -> one_identity V -> sized (SM m) -> Forall (number R) (mm_cells m) ->
  cim w = r0 R -> vm_multiply c q w m t = Done t' m' -> mm_herm m' = true -> forall E v, expectation c V R E -> assignment t' v -> agrees E t' v -> flags_right R v m -> hermitian_values v (SM m').
Proof. exact vm_flag. Qed.
Print Assumptions C68_value_hermitian.
Example C68_value_hermitian_case : one_identity chsh_words. Proof. exact chsh_one_identity. Qed.
Theorem C68_value_hermitian_refuted : exists t' (m' : monomat Q') v, vm_multiply chsh_sctx (hseq_const false) ci num_one chsh_table = Done t' m' /\ mm_herm m' = true /\
  assignment t' v /\ agrees flat_E t' v /\ ~ hermitian_values v (SM m').
Proof. exact value_hermitian_refuted. Qed.
Print Assumptions C68_value_hermitian_refuted.
(** Numbers times an operator polynomial. *)
Theorem C68_value_polynomial : forall (R : rfield) c V, lawful c V -> unsigned_conj c V -> forall srt lt p (m : monomat R) t, reachable c V t -> raw_ok V p -> (forall x, In x p -> hs_sign (fst x) = SPos /\ hs_zero (fst x) = false) ->
  one_identity V -> sized (SM m) -> Forall (number R) (mm_cells m) -> (forall t', later c V t t' -> sorts t' lt (srt t)) -> 2 <= length p ->
  exists t' a, vm_multiply_raw c srt p m t = Done t' a /\ later c V t t' /\ smx_dim a = mm_dim m /\ sized a /\
    forall E v, expectation c V R E -> assignment t' v -> agrees E t' v -> forall o z, entry v (SM m) o = Some z -> entry v a o = Some (cmul (raw_value E p) z).
Proof. exact vm_multiply_raw_spec. Qed.
Print Assumptions C68_value_polynomial.
Example C68_value_polynomial_case : raw_ok chsh_words two_poly /\ forall x, In x two_poly -> hs_sign (fst x) = SPos /\ hs_zero (fst x) = false. Proof. exact raw_case. Qed.
(** A matrix of numbers times the number one is undefined, and times any other number or symbol an exception, although polynomials of two terms work. *)
Theorem C68_value_times_refuted : exists (m : monomat Q') (x y : mono Q'), m = value_dense chsh_table true 1 [c1] /\ x = mk_mono 1 false c1 /\ y = mk_mono 1 false (cadd c1 c1) /\
  multiply_mono chsh_sctx chsh_mul false true x (SM m) chsh_table = Undef /\ multiply_mono chsh_sctx chsh_mul false true y (SM m) chsh_table = Throw chsh_table /\
  (exists t' a, multiply_poly chsh_sctx chsh_mul false (fun _ => isort id_less) (fun _ => id_less) true [y; mk_mono 3 false c1] (SM m) chsh_table = Done t' a).
Proof. exact value_times_refuted. Qed.
Print Assumptions C68_value_times_refuted.
