(** Finite groups of symmetries, scenarios/symmetrized/group.cpp.

    Simplifications: matrices are elements of a type with a product and an equality test; isApprox is that test and pruned() does nothing (exact
    arithmetic). *)
From Coq Require Import List Arith Bool.
From Verif Require Import CoreModel AlgModel.
Import ListNotations.

Section Dimino.
  (** representation matrices, their product, isApprox; the identity of the dimension of the generators, and of dimension 1 *)
  Variables (E : Type) (mul : E -> E -> E) (eqb : E -> E -> bool) (one one1 : E).

  (** the orbit of the first generator, group.cpp:141-152.  None: runtime_error is thrown *)
  Fixpoint orbit (max : nat) (g x : E) : option (list E) :=
    if eqb x one then Some []
    else match max with
         | 0 => None
         | S max' => match orbit max' g (mul x g) with Some l => Some (x :: l) | None => None end
         end.
  (** the loop over the generators, 176-192: new cosets of the elements [old] *)
  Fixpoint try_gens (old : list E) (rep : E) (gens els : list E) : list E :=
    match gens with
    | [] => els
    | g :: gens' =>
        let next := mul rep g in
        if existsb (eqb next) els then try_gens old rep gens' els
        else try_gens old rep gens' (els ++ map (fun h => mul h next) old)
    end.
  (** the do-while loop, 174-194 (Err: read outside the vector) *)
  Fixpoint cosets (fuel : nat) (old gens : list E) (pos : nat) (els : list E) : res (list E) :=
    match fuel with
    | 0 => NoFuel
    | S fuel' =>
        match nth_error els pos with
        | None => Err
        | Some rep =>
            let els' := try_gens old rep gens els in
            if pos + length old <? length els' then cosets fuel' old gens (pos + length old) els' else Ret els'
        end
    end.
  (** the loop over the remaining generators, 154-195 *)
  Fixpoint add_gens (fuel : nat) (gens todo els : list E) : res (list E) :=
    match todo with
    | [] => Ret els
    | g :: todo' =>
        if existsb (eqb g) els then add_gens fuel gens todo' els
        else match cosets fuel els gens (length els) (els ++ map (fun h => mul h g) els) with
             | Ret els' => add_gens fuel gens todo' els'
             | Err => Err
             | NoFuel => NoFuel
             end
    end.
  (** Group::dimino_generation, 122-197; None: an exception *)
  Definition dimino (fuel max : nat) (gens : list E) : res (option (list E)) :=
    match gens with
    | [] => Ret (Some [one1])
    | g :: rest =>
        match orbit max g g with
        | None => Ret None
        | Some l => match add_gens fuel gens rest (one :: l) with Ret els => Ret (Some els) | Err => Err | NoFuel => NoFuel end
        end
    end.
End Dimino.
Arguments orbit {E}. Arguments try_gens {E}. Arguments cosets {E}. Arguments add_gens {E}. Arguments dimino {E}.
