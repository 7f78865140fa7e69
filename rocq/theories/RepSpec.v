(** Algebras, words standing for their members, and matrices standing for maps. *)
From Coq Require Import List Arith NArith Ring_theory.
Import ListNotations.

Record algebra := mk_algebra {
  sc : Type; s0 : sc; s1 : sc; sadd : sc -> sc -> sc; smul : sc -> sc -> sc;
  s_ring : semi_ring_theory s0 s1 sadd smul eq;
  vt : Type; v0 : vt; vadd : vt -> vt -> vt; vscale : sc -> vt -> vt; vmul : vt -> vt -> vt;
  v_comm : forall a b, vadd a b = vadd b a;
  v_assoc : forall a b c, vadd a (vadd b c) = vadd (vadd a b) c;
  v_unit : forall a, vadd v0 a = a;
  v_scale_add : forall k l a, vscale (sadd k l) a = vadd (vscale k a) (vscale l a);
  v_scale_vadd : forall k a b, vscale k (vadd a b) = vadd (vscale k a) (vscale k b);
  v_scale_mul : forall k l a, vscale (smul k l) a = vscale k (vscale l a);
  v_scale_0 : forall a, vscale s0 a = v0;
  v_scale_1 : forall a, vscale s1 a = a;
  v_mul_l : forall a b c, vmul (vadd a b) c = vadd (vmul a c) (vmul b c);
  v_mul_r : forall a b c, vmul a (vadd b c) = vadd (vmul a b) (vmul a c);
  v_mul_sl : forall k a b, vmul (vscale k a) b = vscale k (vmul a b);
  v_mul_sr : forall k a b, vmul a (vscale k b) = vscale k (vmul a b) }.

Section Spec.
  Variable A : algebra.
  Definition vsum (n : nat) (f : nat -> vt A) : vt A := fold_right (fun i a => vadd A (f i) a) (v0 A) (seq 0 n).
  (** the columns of [d] give the images under [phi] of the members [ws], in terms of them *)
  Definition represents (phi : vt A -> vt A) (ws : list (vt A)) (d : nat -> nat -> sc A) : Prop :=
    forall j, j < length ws -> phi (nth j ws (v0 A)) = vsum (length ws) (fun i => vscale A (d i j) (nth i ws (v0 A))).
  Definition multiplicative (phi : vt A -> vt A) : Prop := forall a b, phi (vmul A a b) = vmul A (phi a) (phi b).

  (** words [osg n] of length up to n, with their value; the product of two words is found by its hash among the longer words *)
  Record words_ok (W : Type) (hash : W -> N) (prod_hash : W -> W -> N) (osg : N -> list W) (ev : W -> vt A) : Prop := mk_words_ok {
    wk_nonzero : forall n w, In w (osg n) -> hash w <> 0%N;
    wk_distinct : forall n, NoDup (map hash (osg n));
    (** a product is zero, or the word in the list with its hash has its value *)
    wk_product : forall m n l r, (1 <= n <= m)%N -> In l (osg m) -> In r (osg n) ->
      (prod_hash l r = 0%N /\ vmul A (ev l) (ev r) = v0 A) \/
      (exists w, In w (osg (m + n)%N) /\ hash w = prod_hash l r /\ ev w = vmul A (ev l) (ev r));
    (** every longer word is a product of shorter ones *)
    wk_cover : forall m n w, (1 <= n <= m)%N -> In w (osg (m + n)%N) -> exists l r, In l (osg m) /\ In r (osg n) /\ prod_hash l r = hash w }.
End Spec.
