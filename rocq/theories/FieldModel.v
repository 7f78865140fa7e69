(** Exact numbers in place of double and std::complex<double>. *)
From Coq Require Import Field_theory Bool.

(** A field of "real" numbers with decidable equality in which a sum of two squares is zero only if both are zero (so the
    rationals, the real algebraic numbers, the reals). *)
Record rfield := mk_rfield {
  rt :> Type; r0 : rt; r1 : rt; radd : rt -> rt -> rt; rmul : rt -> rt -> rt; rsub : rt -> rt -> rt; ropp : rt -> rt;
  rdiv : rt -> rt -> rt; rinv : rt -> rt;
  r_field : field_theory r0 r1 radd rmul rsub ropp rdiv rinv (@eq rt);
  r_eqb : rt -> rt -> bool;
  r_eqb_spec : forall a b, r_eqb a b = true <-> a = b;
  r_real : forall a b, radd (rmul a a) (rmul b b) = r0 -> a = r0 }.

(** complex numbers *)
Record cx (R : rfield) := mk_cx { cre : R; cim : R }.
Arguments mk_cx {R}. Arguments cre {R}. Arguments cim {R}.
Section Cx.
  Variable R : rfield.
  Definition c0 : cx R := mk_cx (r0 R) (r0 R).
  Definition c1 : cx R := mk_cx (r1 R) (r0 R).
  Definition ci : cx R := mk_cx (r0 R) (r1 R).
  Definition cadd (x y : cx R) : cx R := mk_cx (radd R (cre x) (cre y)) (radd R (cim x) (cim y)).
  Definition copp (x : cx R) : cx R := mk_cx (ropp R (cre x)) (ropp R (cim x)).
  Definition csub (x y : cx R) : cx R := mk_cx (rsub R (cre x) (cre y)) (rsub R (cim x) (cim y)).
  Definition cmul (x y : cx R) : cx R :=
    mk_cx (rsub R (rmul R (cre x) (cre y)) (rmul R (cim x) (cim y))) (radd R (rmul R (cre x) (cim y)) (rmul R (cim x) (cre y))).
  Definition cconj (x : cx R) : cx R := mk_cx (cre x) (ropp R (cim x)).
  Definition cnorm (x : cx R) : R := radd R (rmul R (cre x) (cre x)) (rmul R (cim x) (cim x)).
  Definition cinv (x : cx R) : cx R := mk_cx (rdiv R (cre x) (cnorm x)) (rdiv R (ropp R (cim x)) (cnorm x)).
  Definition cdiv (x y : cx R) : cx R := cmul x (cinv y).
  Definition ceqb (x y : cx R) : bool := r_eqb R (cre x) (cre y) && r_eqb R (cim x) (cim y).
  Definition creal (x : R) : cx R := mk_cx x (r0 R).
End Cx.
Arguments c0 {R}. Arguments c1 {R}. Arguments ci {R}. Arguments cadd {R}. Arguments copp {R}. Arguments csub {R}. Arguments cmul {R}.
Arguments cconj {R}. Arguments cnorm {R}. Arguments cinv {R}. Arguments cdiv {R}. Arguments ceqb {R}. Arguments creal {R}.
