(** Theorems of C67. *)
From Coq Require Import List Arith NArith ZArith QArith Qcanon Bool Sorted.
From Verif Require Import CoreModel FieldModel FieldProofs SymModel SymSpec SymWitnessProofs PolyModel PolySpec PolyBasisModel PolyWitnessProofs PolyTableProofs FacModel FacSpec.
From Verif Require Import BasModel BasSpec BasFinalProofs BasThmProofs BasWitnessProofs.
Import ListNotations.
Local Open Scope nat_scope.

(** The basis of a matrix of monomials represents the matrix: weighting its matrices with the real and imaginary parts of the symbols gives the entries, for all values of the symbols;
    dense and sparse. If the matrix is flagged Hermitian it has to be Hermitian. *)
Theorem C67_monomial : forall (R : rfield) c V, lawful c V -> forall t, reachable_clean c V t -> forall d hermitian (cells : list (mono R)),
  length cells = d * d -> Forall (in_table t) cells -> (hermitian = true -> truly_hermitian t d (mono_entry d cells)) ->
  exists m, mono_matrix t d hermitian cells = Some m /\ forall is_dense, exists b, create_basis true is_dense false t m = BOk b /\ represents t d (mono_entry d cells) b.
Proof. exact @monomial_basis. Qed.
Print Assumptions C67_monomial.
Example C67_monomial_case : lawful anti3_sctx anti3_words /\ reachable_clean anti3_sctx anti3_words t8 /\ length cells8 = 2 * 2 /\ Forall (in_table t8) cells8 /\ truly_hermitian t8 2 (mono_entry 2 cells8).
Proof. exact (conj anti3_lawful (conj t8_clean (conj eq_refl (conj cells8_ok cells8_hermitian)))). Qed.

(** The same for matrices of polynomials, which find out themselves whether they are Hermitian. *)
Theorem C67_polynomial : forall c V, lawful c V -> forall t, reachable_clean c V t -> forall (R : rfield) lt, term_order t lt -> forall nonneg, nonneg (r1 R) = true -> nonneg (ropp R (r1 R)) = false ->
  forall d (cells : list (list (mono R))), length cells = d * d -> Forall (canonical t lt) cells ->
  exists m, poly_matrix t nonneg d cells = Some m /\
    ((sm_herm m = true -> truly_hermitian t d (poly_entry d cells)) -> forall is_dense, exists b, create_basis false is_dense false t m = BOk b /\ represents t d (poly_entry d cells) b).
Proof. exact @polynomial_basis. Qed.
Print Assumptions C67_polynomial.
Example C67_polynomial_case : lawful anti3_sctx anti3_words /\ reachable_clean anti3_sctx anti3_words t8 /\ term_order t8 (@id_less Q') /\ pos8 (r1 Q') = true /\ pos8 (ropp Q' (r1 Q')) = false /\
  length polys8 = 2 * 2 /\ Forall (canonical t8 id_less) polys8 /\ truly_hermitian t8 2 (poly_entry 2 polys8).
Proof. exact (conj anti3_lawful (conj t8_clean (conj (id_less_order Q' t8) (conj eq_refl (conj eq_refl (conj eq_refl (conj polys8_canonical polys8_hermitian))))))). Qed.

(** The basis with real matrices for the real part exists unless some coefficient is complex; it is the complex one. *)
Theorem C67_real_type : forall (t : table) (R : rfield) nonneg monomial is_dense m d hermitian (cells : list (mono R)),
  (mono_matrix t d hermitian cells = Some m \/ exists cs, poly_matrix t nonneg d cs = Some m) ->
  (create_basis monomial is_dense true t m = BRefused <-> exists p x, In p (sm_cells m) /\ In x p /\ cim (m_f x) <> r0 R) /\
  ((forall p x, In p (sm_cells m) -> In x p -> cim (m_f x) = r0 R) -> create_basis monomial is_dense true t m = create_basis monomial is_dense false t m).
Proof. exact @real_basis. Qed.
Print Assumptions C67_real_type.
Example C67_real_type_case : exists m, mono_matrix t8 2 true cells8 = Some m /\ sm_ccoef m = true. Proof. exact built_complex. Qed.
Example C67_real_type_real_case : exists m, mono_matrix t8 2 true cells8r = Some m /\ sm_ccoef m = false. Proof. exact built_real. Qed.

(** No other matrices represent it: the dense and the sparse basis agree. *)
Theorem C67_unique : forall (R : rfield) c V, lawful c V -> forall t, reachable_clean c V t -> forall d entry (b b' : basis R), starts t -> represents t d entry b -> represents t d entry b' ->
  forall k r q, r < d -> q < d -> nth k (b_real b) zero_matrix r q = nth k (b_real b') zero_matrix r q /\ nth k (b_imag b) zero_matrix r q = nth k (b_imag b') zero_matrix r q.
Proof. exact @basis_unique. Qed.
Print Assumptions C67_unique.
Example C67_unique_case : lawful anti3_sctx anti3_words /\ reachable_clean anti3_sctx anti3_words t8 /\ starts t8 /\ exists b b', represents t8 2 (mono_entry 2 cells8) b /\ represents t8 2 (mono_entry 2 cells8) b' /\
  exists m, mono_matrix t8 2 true cells8 = Some m /\ create_basis true true false t8 m = BOk b /\ create_basis true false false t8 m = BOk b'.
Proof. exact (conj anti3_lawful (conj t8_clean (conj (proj1 t8_good) both_bases))). Qed.

(** The basis matrices of a Hermitian matrix are Hermitian. *)
Theorem C67_hermitian_basis : forall (R : rfield) c V, lawful c V -> forall t, reachable_clean c V t -> forall d entry (b : basis R), starts t -> represents t d entry b -> truly_hermitian t d entry ->
  forall k r q, r < d -> q < d -> nth k (b_real b) zero_matrix q r = cconj (nth k (b_real b) zero_matrix r q) /\ nth k (b_imag b) zero_matrix q r = cconj (nth k (b_imag b) zero_matrix r q).
Proof. exact @basis_hermitian. Qed.
Print Assumptions C67_hermitian_basis.
Example C67_hermitian_basis_case : starts t8 /\ (exists b, represents t8 2 (mono_entry 2 cells8) b) /\ truly_hermitian t8 2 (mono_entry 2 cells8).
Proof. exact (conj (proj1 t8_good) (conj a_basis cells8_hermitian)). Qed.

(** The lists of symbols and of basis elements of the matrix: ascending; the basis elements are those with a basis matrix that is not zero. *)
Theorem C67_polynomial_sets : forall c V, lawful c V -> forall t, reachable_clean c V t -> forall (R : rfield) less, term_order t less -> forall nonneg, nonneg (r1 R) = true -> nonneg (ropp R (r1 R)) = false ->
  forall d (cells : list (list (mono R))) m b, starts t -> length cells = d * d -> Forall (canonical t less) cells -> poly_matrix t nonneg d cells = Some m -> represents t d (poly_entry d cells) b ->
  (StronglySorted lt (sm_symbols m) /\ forall id, In id (sm_symbols m) <-> exists p x, In p cells /\ In x p /\ m_id x = id) /\
  (StronglySorted lt (sm_real m) /\ forall k, In k (sm_real m) <-> nonzero d (nth k (b_real b) zero_matrix)) /\
  (StronglySorted lt (sm_imag m) /\ forall k, In k (sm_imag m) <-> nonzero d (nth k (b_imag b) zero_matrix)).
Proof. exact @poly_sets. Qed.
Print Assumptions C67_polynomial_sets.
Theorem C67_monomial_sets : forall (R : rfield) c V, lawful c V -> forall t, reachable_clean c V t -> forall d hermitian (cells : list (mono R)) m b, starts t -> length cells = d * d -> Forall (in_table t) cells ->
  mono_matrix t d hermitian cells = Some m -> represents t d (mono_entry d cells) b ->
  (StronglySorted lt (sm_real m) /\ forall k, In k (sm_real m) <-> nonzero d (nth k (b_real b) zero_matrix)) /\
  (StronglySorted lt (sm_imag m) /\ forall k, In k (sm_imag m) <-> nonzero d (nth k (b_imag b) zero_matrix)).
Proof. exact @monomial_sets. Qed.
Print Assumptions C67_monomial_sets.
Example C67_sets_case : starts t8 /\ (exists m, poly_matrix t8 pos8 2 polys8 = Some m /\ sm_symbols m = [1; 2; 3; 4] /\ exists b, represents t8 2 (poly_entry 2 polys8) b) /\
  exists m, mono_matrix t8 2 true cells8 = Some m /\ sm_real m = [0; 1; 4] /\ sm_imag m = [1] /\ exists b, represents t8 2 (mono_entry 2 cells8) b.
Proof. exact (conj (proj1 t8_good) (conj poly_sets_case mono_sets_case)). Qed.

(** The Hermiticity test finds every Hermitian matrix, and only Hermitian ones if all its symbols are Hermitian or anti-Hermitian. *)
Theorem C67_hermicity_complete : forall t (R : rfield) lt, term_order t lt -> forall d (cells : list (list (mono R))), starts t -> no_null t -> Forall (canonical t lt) cells ->
  truly_hermitian t d (poly_entry d cells) -> test_hermicity t d cells = true.
Proof. exact @hermicity_true. Qed.
Print Assumptions C67_hermicity_complete.
Theorem C67_hermicity_sound : forall t (R : rfield) lt, term_order t lt -> forall d (cells : list (list (mono R))), starts t -> no_null t -> Forall (canonical t lt) cells ->
  (forall p x, In p cells -> In x p -> herm t (m_id x) = true \/ anti t (m_id x) = true) -> test_hermicity t d cells = true -> truly_hermitian t d (poly_entry d cells).
Proof. exact @hermicity_means. Qed.
Print Assumptions C67_hermicity_sound.
Example C67_hermicity_case : term_order t8 (@id_less Q') /\ starts t8 /\ no_null t8 /\ Forall (canonical t8 id_less) polys8 /\ (forall p x, In p polys8 -> In x p -> herm t8 (m_id x) = true \/ anti t8 (m_id x) = true) /\
  test_hermicity t8 2 polys8 = true /\ truly_hermitian t8 2 (poly_entry 2 polys8) /\ test_hermicity t8 2 (rev polys8) = true.
Proof. exact (conj (id_less_order Q' t8) (conj (proj1 t8_good) (conj (proj2 t8_good) (conj polys8_canonical (conj polys8_flagged (conj polys8_flag (conj polys8_hermitian polys8_rev))))))). Qed.

(** Monolithic bases: one row per basis matrix, read by columns. *)
Theorem C67_monolithic : forall (R : rfield) d (l : list (dmat R)) k r q, r < d -> q < d -> monolithic d l k (q * d + r) = nth k l zero_matrix r q.
Proof. exact @monolithic_entry. Qed.
Print Assumptions C67_monolithic.
Example C67_monolithic_case : monolithic 2 [zero_matrix; fun r q => if Nat.eqb r 0 && Nat.eqb q 1 then c1 else c0] 1 2 = (c1 : cx Q'). Proof. exact eq_refl. Qed.

(** Refuted: a Hermitian matrix of operators with the prefactor i is still taken for Hermitian, and half of its basis is wrong. *)
Theorem C67_prefactor_refuted : exists (t : table) (ops : list hseq) (cells : list (mono Q')) m b v r q,
  reachable_clean anti3_sctx anti3_words t /\ starts t /\ elements_ok anti3_words 2 ops /\ hermitian_matrix anti3_sctx 2 ops /\ st_build 2 ops true (ci : cx Q') t = Some (map Some cells) /\
  mono_matrix t 2 true cells = Some m /\ create_basis true true false t m = BOk b /\ assignment t v /\ r < 2 /\ q < 2 /\ combination t v b r q <> value v (mono_entry 2 cells r q).
Proof. exact prefactor_refuted. Qed.
Print Assumptions C67_prefactor_refuted.
(** Refuted: the matrix of polynomials with 2 X and 5 X opposite each other, X generic, is taken for Hermitian. *)
Theorem C67_hermicity_refuted : exists (t : table) (cells : list (list (mono Q'))) (nonneg : Q' -> bool) m b v r q,
  reachable_clean anti3_sctx anti3_words t /\ starts t /\ no_null t /\ Forall (canonical t id_less) cells /\ length cells = 2 * 2 /\
  nonneg (r1 Q') = true /\ nonneg (ropp Q' (r1 Q')) = false /\
  poly_matrix t nonneg 2 cells = Some m /\ sm_herm m = true /\ create_basis false true false t m = BOk b /\ assignment t v /\ r < 2 /\ q < 2 /\ combination t v b r q <> value v (poly_entry 2 cells r q).
Proof. exact hermicity_refuted. Qed.
Print Assumptions C67_hermicity_refuted.
