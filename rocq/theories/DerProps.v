(** Theorems of C65. *)
From Coq Require Import List Arith NArith ZArith QArith Qcanon Bool Permutation.
From Verif Require Import CoreModel FieldModel FieldProofs SymModel SymSpec SymWitnessProofs PolyModel PolySpec PolyWitnessProofs DerModel DerSpec DerThmProofs DerWitnessProofs.
Import ListNotations.
Local Open Scope nat_scope.

(** The new symbols have values, real for symbols made Hermitian; each symbol the matrix acts on becomes a canonical polynomial of the new symbols whose value is that
    of the matrix applied to the symbol; symbols that are not in the table are refused. *)
Theorem C65_images : forall (R : rfield) (positive : R -> bool) srt solve t x, ready positive srt solve t x -> forall v, assignment t v -> acts x t v ->
  exists m, make_map positive srt solve t table_start x = MBuilt m /\ assignment (s_target m) (new_values m v) /\ length (s_inv m) = length (t_syms (s_target m)) /\
    (forall i id cj f, i < in_cols x -> map_index t i = Some (id, false) -> id <> 0 -> (cj = true -> cim f = r0 R) ->
      exists p, apply_mono m (mk_mono id cj f) = Some p /\ canonical (s_target m) id_less p /\ value (new_values m v) p = cmul f (if cj then cconj (image x t v i) else image x t v i)) /\
    (forall y, length (t_syms t) <= m_id y -> apply_mono m y = None).
Proof. exact @w_images. Qed.
Print Assumptions C65_images.
Example C65_images_case : ready pos_q srt_q plain_solve tD sym12 /\ assignment tD vD /\ acts sym12 tD vD /\ map_index tD 6 = Some (7, false) /\ length (t_syms tD) = 11 /\
  exists m, make_map pos_q srt_q plain_solve tD table_start sym12 = MBuilt m /\
    (length (t_syms (s_target m)) =? 10) && negb (s_mono m) && match apply_poly srt_q m pD with Some q => (length q =? 5) && negb (ceqb (value (new_values m vD) q) c0) | None => false end = true.
Proof. exact (conj ready_D (conj vD_assignment (conj (acts_D vD) (conj eq_refl (conj eq_refl map_D))))). Qed.

(** On values that the matrix does not change, a polynomial and its image have the same value. *)
Theorem C65_invariant : forall (R : rfield) (positive : R -> bool) srt solve t x, ready positive srt solve t x -> forall v m, assignment t v -> acts x t v -> invariant x t v ->
  make_map positive srt solve t table_start x = MBuilt m ->
  forall p, (forall y, In y p -> covered x t (m_id y) /\ (m_cj y = true -> cim (m_f y) = r0 R)) ->
  exists q, apply_poly srt m p = Some q /\ canonical (s_target m) id_less q /\ value (new_values m v) q = value v p.
Proof. exact @w_invariant. Qed.
Print Assumptions C65_invariant.
Example C65_invariant_case : ready pos_q srt_q plain_solve tD sym12 /\ assignment tD vD /\ acts sym12 tD vD /\ invariant sym12 tD vD /\
  (exists m, make_map pos_q srt_q plain_solve tD table_start sym12 = MBuilt m /\
    (length (t_syms (s_target m)) =? 10) && negb (s_mono m) && match apply_poly srt_q m pD with Some q => (length q =? 5) && negb (ceqb (value (new_values m vD) q) c0) | None => false end = true) /\
  forall y, In y pD -> covered sym12 tD (m_id y) /\ (m_cj y = true -> cim (m_f y) = r0 Qc_rfield).
Proof. exact (conj ready_D (conj vD_assignment (conj (acts_D vD) (conj invariant_D (conj map_D covered_D))))). Qed.

(** Not so for conjugated symbols with a complex coefficient: the coefficient is conjugated as well. *)
Theorem C65_conjugate_refuted : exists (positive : Qc_rfield -> bool) srt solve t x v m i id f p, ready positive srt solve t x /\ assignment t v /\ acts x t v /\ invariant x t v /\
  make_map positive srt solve t table_start x = MBuilt m /\
  i < in_cols x /\ map_index t i = Some (id, false) /\ apply_mono m (mk_mono id true f) = Some p /\ value (new_values m v) p <> cmul f (cconj (image x t v i)).
Proof. exact conjugate_refuted. Qed.
Print Assumptions C65_conjugate_refuted.

(** Symbols of words longer than the matrix knows become zero, and transforming an existing matrix does not check the length of its words, unlike making a moment matrix. *)
Theorem C65_beyond_refuted : exists (positive : Qc_rfield -> bool) srt solve t x v m id, ready positive srt solve t x /\ assignment t v /\ acts x t v /\ invariant x t v /\
  make_map positive srt solve t table_start x = MBuilt m /\ id < length (t_syms t) /\ v id <> c0 /\ apply_mono m (mk_mono id false c1) = Some [] /\
  t_map_len t = 1 /\ allowed (t_map_len t) 1 (WMoment 1) = false /\ allowed (t_map_len t) 1 (WDerived 0) = true.
Proof. exact beyond_refuted. Qed.
Print Assumptions C65_beyond_refuted.

(** If every symbol becomes a single term or zero, monomials can be mapped to monomials, with the same value; otherwise that is refused. *)
Theorem C65_monomial : forall (R : rfield) (positive : R -> bool) srt solve t x, ready positive srt solve t x -> forall v m y p, assignment t v -> acts x t v ->
  make_map positive srt solve t table_start x = MBuilt m -> apply_mono m y = Some p ->
  (s_mono m = false -> apply_monomial m y = None) /\ (s_mono m = true -> exists z, apply_monomial m y = Some z /\ term_value (new_values m v) z = value (new_values m v) p).
Proof. exact @w_monomial. Qed.
Print Assumptions C65_monomial.
Example C65_monomial_case : ready pos_q srt_q plain_solve tD mon12 /\ assignment tD vD /\ acts mon12 tD vD /\
  exists m, make_map pos_q srt_q plain_solve tD table_start mon12 = MBuilt m /\ s_mono m && match apply_mono m (mq 5 false 2 0) with Some p => (length p =? 1) | None => false end && match apply_mono m (mq 7 true 2 0) with Some p => (length p =? 0) | None => false end = true.
Proof. exact (conj ready_M (conj vD_assignment (conj (acts_M vD) map_M))). Qed.

(** A matrix over words without symbols, a matrix that does not fix the identity, and a target that is not fresh are refused. *)
Theorem C65_refuses : forall (R : rfield) (positive : R -> bool) srt solve t x target m, 
  (forall i, i < in_cols x -> map_index t i = None -> make_map positive srt solve t target x = MThrow) /\
  (forall r, well_formed x -> indexed t (in_cols x) -> r < in_rows x -> entry x r 0 <> (if Nat.eqb r 0 then r1 R else r0 R) -> make_map positive srt solve t target x = MThrow) /\
  (length (t_syms target) <> 2 -> make_map positive srt solve t target x <> MBuilt m).
Proof. exact @w_refuses. Qed.
Print Assumptions C65_refuses.
Example C65_refuses_case : well_formed bad12 /\ indexed tD (in_cols bad12) /\ entry bad12 0 0 <> r1 Qc_rfield /\ map_index table_start 1 = None /\ length (t_syms tD) = 11.
Proof. exact bad12_case. Qed.

(** The LU processor writes a core as a product of the two parts. *)
Theorem C65_lu : forall (R : rfield) lu (c : mapcore R), length (mc_core c) = length (mc_cols c) -> lu_contract lu (mc_core c) (length (mc_rows c)) -> exists s, lu_process lu c = Some s /\ factors c s.
Proof. exact @lu_factors. Qed.
Print Assumptions C65_lu.
Example C65_lu_case : length (mc_core core2) = length (mc_cols core2) /\ lu_contract lu2 (mc_core core2) (length (mc_rows core2)).
Proof. exact (conj eq_refl lu2_contract). Qed.

(** The matrix of a symmetry group gives each word the average of its images, and each member of the group leaves that average as it is. *)
Theorem C65_average : forall (R : rfield) (inv : R) mats n t v c,
  image (Dense n n (average inv mats)) t v c = cmul (creal inv) (csum mats (fun d => image (Dense n n d) t v c)) /\
  forall d, permuted_by n mats d -> c < n -> lsum (seq 0 n) (fun r => cmul (creal (d r c)) (image (Dense n n (average inv mats)) t v r)) = image (Dense n n (average inv mats)) t v c.
Proof. exact @w_average. Qed.
Print Assumptions C65_average.
Example C65_average_case : (forall d, In d [one12; swap12] -> permuted_by 12 [one12; swap12] d) /\ ceqb (image (Dense 12 12 swap12) tD vD 6) (cq 1 2) = true.
Proof. exact (conj group_D eq_refl). Qed.
