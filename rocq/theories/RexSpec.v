(** How a user reads exported rules. *)
From Coq Require Import NArith ZArith Arith Bool Ascii String List.
From Verif Require Import CoreModel CoreSpec AlgModel AlgSpec TextModel RexModel.
Import ListNotations.
Local Open Scope list_scope.

Section Reading.
  Variable first : Z. (** the number of the first operator *)
  Variable A : algebra.
  Variable v : nat -> A.
  Fixpoint product (l : list Z) : A := match l with [] => aone A | z :: r => amul A (v (Z.to_nat (z - first))) (product r) end.
  (** the number before the first operator, alone, is zero *)
  Definition side (l : list Z) : A := match l with [z] => if (z <? first)%Z then azero A else product l | _ => product l end.
  Definition phase (t : text) : option sign := if text_eqb t (tx "-") then Some SNeg else if text_eqb t (tx "i") then Some SIm else if text_eqb t (tx "-i") then Some SNegIm else None.
  (** the equation an entry stands for *)
  Definition equation (e : list rcell) : Prop :=
    match e with
    | [RNums l; RNums r] => aeq A (product l) (side r)
    | [RNums l; RChars t; RNums r] => match phase t with Some s => aeq A (product l) (aph A s (side r)) | None => False end
    | _ => False
    end.
End Reading.
Definition first_number (ml : bool) : Z := if ml then 1%Z else 0%Z.
