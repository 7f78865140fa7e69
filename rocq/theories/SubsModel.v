(** Matrices with rules substituted into their elements: matrix/substituted_matrix.cpp, and MomentRulebook::create_substituted_matrix,
    symbolic/rules/moment_rulebook.cpp:384-403.  The work may be shared by threads (C74): the elements are those of [transform_st]. *)
From Coq Require Import List NArith ZArith Arith Bool.
From Verif Require Import CoreModel FieldModel SymModel PolyModel PolyBasisModel RuleModel BasModel TransModel.
Import ListNotations.

Section Subs.
  Context {R : rfield}.
  Notation mono := (mono R).
  Variable F : factory R.
  Variable nonneg : R -> bool.
  (** the matrix to be substituted into: of monomials (with its Hermitian flag), or of polynomials *)
  Inductive source := SMono (hermitian : bool) (cells : list mono) | SPoly (cells : list (list mono)).
  (** MonomialSubstitutedMatrix::reduce, substituted_matrix.cpp:64-71; [None]: errors::not_monomial *)
  Definition reduce_monos (rules : list (rule R)) (cells : list mono) : option (list mono) := transform_st (reduce_monomial F rules) cells.
  (** PolynomialSubstitutedMatrix::reduce, 92-100 and 102-109 *)
  Definition reduce_polys (rules : list (rule R)) (cells : list (list mono)) : option (list (list mono)) := transform_st (fun p => Some (reduce F rules p)) cells.
  Definition reduce_promoted (rules : list (rule R)) (cells : list mono) : option (list (list mono)) := transform_st (fun x => Some (reduce_mono F rules x)) cells.
  (** create_substituted_matrix, moment_rulebook.cpp:384-403, with the constructors in substituted_matrix.cpp:53-90; the matrix and the rulebook, which is in use from now on *)
  Definition create_substituted (d : nat) (b : rulebook) (s : source) : option (smat R) * rulebook :=
    (match s with
     | SPoly cells => match reduce_polys (rb_rules b) cells with Some l => poly_matrix (fa_table F) nonneg d l | None => None end
     | SMono h cells =>
         if rb_mono b then
           match reduce_monos (rb_rules b) cells with Some l => mono_matrix (fa_table F) d (h && rb_herm b) l | None => None end
         else match reduce_promoted (rb_rules b) cells with Some l => poly_matrix (fa_table F) nonneg d l | None => None end
     end, use b).
End Subs.
Arguments SMono {R}. Arguments SPoly {R}.
