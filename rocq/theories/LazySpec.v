(** What threads that ask for the bases of a matrix rely on. *)
From Coq Require Import List Arith Bool.
From Verif Require Import LazyModel.
Import ListNotations.

Section LazySpec.
  Variable W : Type.
  Variable make : bool -> bool -> option (W * W).
  Variable infer : bool -> bool -> W * W -> W * W.
  (** the basis of each kind, or none *)
  Definition basis_of (k : bkind) : option (W * W) :=
    match make (bk_dense k) (bk_cplx k) with
    | None => None
    | Some v => Some (if bk_mono k then infer (bk_dense k) (bk_cplx k) v else v)
    end.
  (** as it is returned: both parts assigned *)
  Definition as_returned (o : option (W * W)) : option (option W * option W) := option_map (fun v => (Some (fst v), Some (snd v))) o.
  Definition bfinished (t : bthread W) : Prop := bt_todo t = [] /\ bt_loc t = Out.
  (** the steps a request can take: for a cellular basis 9; for a monolithic one 8 more *)
  Definition kind_steps (k : bkind) : nat := if bk_mono k then 17 else 9.
  Fixpoint btaken (sched : list nat) (st : bstate W) : nat :=
    match sched with [] => 0 | i :: r => match bstep W make infer i st with Some st' => S (btaken r st') | None => btaken r st end end.
End LazySpec.
