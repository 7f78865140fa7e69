(** What polynomials of operators mean: elements of any algebra over the complex numbers. *)
From Coq Require Import List NArith Bool Sorted.
From Verif Require Import CoreModel FieldModel SymModel SymSpec PolyModel.
Import ListNotations.

(** a complex vector space *)
Record cspace (R : rfield) := mk_cspace {
  vs :> Type; v_0 : vs; v_add : vs -> vs -> vs; v_scale : cx R -> vs -> vs;
  v_comm : forall x y, v_add x y = v_add y x;
  v_assoc : forall x y z, v_add x (v_add y z) = v_add (v_add x y) z;
  v_0_l : forall x, v_add v_0 x = x;
  v_scale_add : forall a x y, v_scale a (v_add x y) = v_add (v_scale a x) (v_scale a y);
  v_add_scale : forall a b x, v_scale (cadd a b) x = v_add (v_scale a x) (v_scale b x);
  v_scale_mul : forall a b x, v_scale (cmul a b) x = v_scale a (v_scale b x);
  v_scale_1 : forall x, v_scale c1 x = x;
  v_scale_0 : forall x, v_scale c0 x = v_0 }.
Arguments v_0 {R c}. Arguments v_add {R c}. Arguments v_scale {R c}.

Section Raw.
  Context {R : rfield} {A : cspace R}.
  (** the value of a polynomial, given the values of sequences *)
  Definition poly_in (rep : hseq -> A) (p : list (hseq * cx R)) : A := fold_right (fun x s => v_add (v_scale (snd x) (rep (fst x))) s) v_0 p.
  (** the values of sequences respect phases and zero *)
  Record represents (V : hseq -> Prop) (rep : hseq -> A) : Prop := mk_represents {
    rp_phase : forall q, V q -> rep q = v_scale (sphase R (hs_sign q)) (rep (pos q));
    rp_zero : forall q, hs_zero q = true -> rep q = v_0 }.
  (** a bilinear product *)
  Record bilinear (mul : A -> A -> A) : Prop := mk_bilinear {
    bl_add_l : forall x y z, mul (v_add x y) z = v_add (mul x z) (mul y z);
    bl_add_r : forall x y z, mul x (v_add y z) = v_add (mul x y) (mul x z);
    bl_scale_l : forall a x y, mul (v_scale a x) y = v_scale a (mul x y);
    bl_scale_r : forall a x y, mul x (v_scale a y) = v_scale a (mul x y) }.
  (** the sum over all pairs of terms *)
  Definition all_pairs (f : hseq * cx R -> hseq * cx R -> A) (p q : list (hseq * cx R)) : A :=
    fold_right (fun x s => v_add (fold_right (fun y s' => v_add (f x y) s') v_0 q) s) v_0 p.
End Raw.

(** hashes identify words *)
Definition hash_exact (V : hseq -> Prop) : Prop := forall a b, V a -> V b -> hs_hash a = hs_hash b -> hs_ops a = hs_ops b.
(** sets of sequences in which phases do not matter *)
Definition phaseless (V : hseq -> Prop) : Prop := forall q, V q -> V (pos q).
(** collected: strictly increasing hashes, no zero words, no zero weights, no phases *)
Definition condensed {R : rfield} (V : hseq -> Prop) (p : list (hseq * cx R)) : Prop :=
  StronglySorted (fun x y => (hs_hash (fst x) < hs_hash (fst y))%N) p /\
  forall x, In x p -> V (fst x) /\ hs_sign (fst x) = SPos /\ hs_zero (fst x) = false /\ snd x <> c0.
(** terms as the library stores them *)
Definition raw_wf {R : rfield} (V : hseq -> Prop) (p : list (hseq * cx R)) : Prop := Forall (fun x => V (fst x) /\ hs_sign (fst x) = SPos) p.
(** the words of symbols that are their own conjugates up to a phase are so up to a sign *)
Definition real_phases (c : sctx) (t : table) : Prop :=
  forall id q, symbol_word t id = Some q -> pos (cx_conj c q) = pos q -> cx_conj c (pos q) = pos q \/ cx_conj c (pos q) = neg (pos q).
