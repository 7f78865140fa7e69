(** What a matrix with substitutions should be. *)
From Coq Require Import List Arith Bool.
From Verif Require Import FieldModel SymModel PolyModel PolySpec RuleModel RuleSpec BasModel BasSpec SubsModel.
Import ListNotations.

Section Spec.
  Context {R : rfield}.
  Notation mono := (mono R).
  (** the element in row [r], column [c] *)
  Definition source_entry (d : nat) (s : source (R := R)) (r c : nat) : list mono :=
    match s with SMono _ l => mono_entry d l r c | SPoly l => poly_entry d l r c end.
  Definition result_entry (m : smat R) (r c : nat) : list mono := poly_entry (sm_dim m) (sm_cells m) r c.
  (** matrices as the library makes them: [d] by [d], elements in canonical form (or zero), Hermitian if they are said to be *)
  Definition proper (F : factory R) (d : nat) (s : source (R := R)) : Prop :=
    match s with
    | SMono h l => length l = d * d /\ Forall (fun x => m_id x = 0 \/ canonical (fa_table F) (fa_lt F) [x]) l /\ (h = true -> truly_hermitian (fa_table F) d (mono_entry d l))
    | SPoly l => length l = d * d /\ Forall (canonical (fa_table F) (fa_lt F)) l
    end.
  (** is the result a matrix of monomials? *)
  Definition of_monomials (b : rulebook (R := R)) (s : source (R := R)) : bool := match s with SMono _ _ => rb_mono b | SPoly _ => false end.
  (** the matrix just made, as something to be substituted into again *)
  Definition again (b : rulebook (R := R)) (s : source (R := R)) (m : smat R) : source (R := R) :=
    if of_monomials b s then SMono (sm_herm m) (map (fun p => nth 0 p (mk_mono 0 false c0)) (sm_cells m)) else SPoly (sm_cells m).
End Spec.
