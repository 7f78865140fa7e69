(** The same operations on plain lists. *)
From Coq Require Import List Arith.
From Verif Require Import SmallVecModel.
Import ListNotations.

Section SmallVecSpec.
  Variable V : Type.
  Definition update (i : nat) (x : list V) (s : list (list V)) : list (list V) := firstn i s ++ x :: skipn (S i) s.
  (** one operation: vectors before and after.  A vector that was moved from is left as it was or empty; emplacing an element of the vector
      itself is excluded *)
  Inductive list_step (s : list (list V)) : sv_op V -> list (list V) -> Prop :=
  | ls_new : list_step s VNew (s ++ [[]])
  | ls_of_list : forall l, list_step s (VOfList l) (s ++ [l])
  | ls_fill : forall n x, list_step s (VFill n x) (s ++ [repeat x n])
  | ls_copy : forall i l, nth_error s i = Some l -> list_step s (VCopy i) (s ++ [l])
  | ls_move : forall i l l', nth_error s i = Some l -> l' = l \/ l' = [] -> list_step s (VMove i) (update i l' s ++ [l])
  | ls_assign : forall i j k l, nth_error s i = Some k -> nth_error s j = Some l -> list_step s (VAssign i j) (update i l s)
  | ls_move_assign : forall i j k l l', i <> j -> nth_error s i = Some k -> nth_error s j = Some l -> l' = l \/ l' = [] ->
      list_step s (VMoveAssign i j) (update i l (update j l' s))
  | ls_swap : forall i j k l, i <> j -> nth_error s i = Some k -> nth_error s j = Some l -> list_step s (VSwap i j) (update i l (update j k s))
  | ls_push : forall i l x, nth_error s i = Some l -> list_step s (VPush i x) (update i (l ++ [x]) s)
  | ls_pop : forall i l x, nth_error s i = Some (l ++ [x]) -> list_step s (VPop i) (update i l s)
  | ls_clear : forall i l, nth_error s i = Some l -> list_step s (VClear i) (update i [] s)
  | ls_reserve : forall i l n, nth_error s i = Some l -> list_step s (VReserve i n) s
  | ls_set : forall i a y b x, nth_error s i = Some (a ++ y :: b) -> list_step s (VSet i (length a) x) (update i (a ++ x :: b) s)
  | ls_insert : forall i a b l, nth_error s i = Some (a ++ b) -> list_step s (VInsert i (length a) l) (update i (a ++ l ++ b) s)
  | ls_erase : forall i a b c, nth_error s i = Some (a ++ b ++ c) -> list_step s (VErase i (length a) (length a + length b)) (update i (a ++ c) s).
  (** operations allowed on vectors with these contents (what the code asserts or any vector requires) *)
  Definition can (s : list (list V)) (o : sv_op V) : Prop := exists s', list_step s o s'.
  (** what the program's vectors hold *)
  Definition views (s : list (svec V)) (r : list (list V)) : Prop := Forall2 (fun v l => sv_contents v = Some l) s r.
  (** every state a program can reach by allowed operations, starting without vectors *)
  Inductive sreach (dflt : V) (N : nat) : list (svec V) -> Prop :=
  | sr_start : sreach dflt N []
  | sr_step : forall s o s', sreach dflt N s -> (forall r, views s r -> can r o) -> sv_step V dflt N s o = Some s' -> sreach dflt N s'.
End SmallVecSpec.
