(** Model of the enumeration iterators: dictionary/multi_operator_iterator.h, tensor/multi_dimensional_index_iterator.h,
    utilities/multi_partition.h. *)
From Coq Require Import List NArith Arith Bool.
From Verif Require Import CoreModel AlgModel.
Import ListNotations.

(** Running an input iterator to its end: [done] is the end test, [cur] is operator*, [step] is operator++.  Each element
    costs one unit of fuel. *)
Fixpoint run_iter {S X} (fuel : nat) (done : S -> bool) (cur : S -> X) (step : S -> res S) (st : S) : res (list X) :=
  if done st then Ret [] else
  match fuel with
  | O => NoFuel
  | Datatypes.S f => bind (step st) (fun st' => bind (run_iter f done cur step st') (fun l => Ret (cur st :: l)))
  end.

(** * Odometers *)
(** The carry loop of operator++: increments the last index; an index that reaches its limit ([full]) is set back to its
    lowest value and the one before it is incremented.  The loop runs from the last index to the first, here as recursion on
    the tail; the returned flag says that the first index overflowed ([is_done]). *)
Fixpoint odo_inc (full : nat -> nat -> bool) (range : list (nat * nat)) (x : list nat) : list nat * bool :=
  match range, x with
  | (lo, hi) :: range', a :: x' =>
      let (y, carry) := odo_inc full range' x' in
      if carry then if full (S a) hi then (lo :: y, true) else (S a :: y, false) else (a :: y, false)
  | _, _ => ([], true)
  end.

(** MultiOperatorIterator: constructor 46-53 / 62-71, operator++ 75-92 *)
Record moi := mk_moi { moi_range : list (nat * nat); moi_indices : word; moi_done : bool }.
Definition moi_start (len num_ops offset : nat) : moi :=
  mk_moi (repeat (offset, offset + num_ops) len) (repeat offset len) (Nat.eqb len 0 || Nat.eqb offset (offset + num_ops)).
Definition moi_step (it : moi) : res moi :=
  let (x, over) := odo_inc Nat.eqb (moi_range it) (moi_indices it) in
  Ret (mk_moi (moi_range it) x over).
Definition moi_run (fuel : nat) (len num_ops offset : nat) : res (list word) :=
  run_iter fuel moi_done moi_indices moi_step (moi_start len num_ops offset).

(** MultiDimensionalIndexIterator<false>: constructor 31-53, operator++ 73-96, global() 156-158 *)
Record mdi := mk_mdi { mdi_max : list nat; mdi_indices : list nat; mdi_global : nat; mdi_done : bool }.
Definition mdi_start (sizes : list nat) : mdi :=
  let dn := Nat.eqb (length sizes) 0 || existsb (Nat.eqb 0) sizes in
  mk_mdi sizes (repeat 0 (length sizes)) (if dn then fold_left Nat.mul sizes 1 else 0) dn.
Definition mdi_step (it : mdi) : res mdi :=
  let (x, over) := odo_inc (fun a hi => Nat.leb hi a) (map (fun m => (0, m)) (mdi_max it)) (mdi_indices it) in
  Ret (mk_mdi (mdi_max it) x (S (mdi_global it)) over).
Definition mdi_run (fuel : nat) (sizes : list nat) : res (list (list nat)) :=
  run_iter fuel mdi_done mdi_indices mdi_step (mdi_start sizes).
(** MultiDimensionalIndexIterator<true>, operator++ 56-72: same with the first index moving fastest *)
Definition mdi_step_rev (it : mdi) : res mdi :=
  let (x, over) := odo_inc (fun a hi => Nat.leb hi a) (rev (map (fun m => (0, m)) (mdi_max it))) (rev (mdi_indices it)) in
  Ret (mk_mdi (mdi_max it) (rev x) (S (mdi_global it)) over).
Definition mdi_run_rev (fuel : nat) (sizes : list nat) : res (list (list nat)) :=
  run_iter fuel mdi_done mdi_indices mdi_step_rev (mdi_start sizes).

(** * Multi-partitions, multi_partition.h *)
Fixpoint set_nth (i : nat) (v : nat) (l : list nat) : list nat :=
  match l, i with
  | [], _ => []
  | _ :: l', O => v :: l'
  | x :: l', S i' => x :: set_nth i' v l'
  end.
(** the two search loops 130-133 and 138-145: the largest index at most [i] with a non-zero entry *)
Fixpoint last_nonzero (i : nat) (l : list nat) : option nat :=
  if Nat.eqb (nth i l 0) 0 then match i with O => None | S i' => last_nonzero i' l end else Some i.
(** the clearing loop 154-157, as recursion on how many entries are left *)
Fixpoint fill_from (i n : nat) (v : nat) (l : list nat) : list nat :=
  match n with O => l | S n' => fill_from (S i) n' v (set_nth i v l) end.

Record mpi := mk_mpi { mp_sum : nat; mp_parties : nat; mp_cursor : list nat; mp_cum : list nat; mp_end : bool }.
(** constructor, 53-67.  [parties] > 0 is asserted; with 0 parties cursor[0] is out of range ([Err]). *)
Definition mpi_start_rev (sum parties : nat) : res mpi :=
  if Nat.eqb parties 0 then Err
  else Ret (mk_mpi sum parties (set_nth 0 sum (repeat 0 parties)) (repeat sum parties) false).
Definition mpi_start_fwd (sum parties : nat) : res mpi :=
  if Nat.eqb parties 0 then Err
  else Ret (mk_mpi sum parties (set_nth (parties - 1) sum (repeat 0 parties)) (set_nth (parties - 1) sum (repeat 0 parties)) false).
(** inc_reverse, 114-165.  [Err] = index -1 dereferenced (the asserted impossible case at 132). *)
Definition mpi_inc_reverse (it : mpi) : res mpi :=
  let finish := mk_mpi (mp_sum it) (mp_parties it) (mp_cursor it) (mp_cum it) true in
  if Nat.eqb (mp_sum it) 0 || Nat.leb (mp_parties it) 1 then Ret finish
  else match last_nonzero (mp_parties it - 1) (mp_cursor it) with
       | None => Err
       | Some d =>
           if Nat.eqb d (mp_parties it - 1) then
             match last_nonzero (d - 1) (mp_cursor it) with
             | None => Ret finish
             | Some n =>
                 let cursor := set_nth n (nth n (mp_cursor it) 0 - 1) (mp_cursor it) in
                 let cum := set_nth n (nth n (mp_cum it) 0 - 1) (mp_cum it) in
                 let cursor := set_nth (S n) (mp_sum it - nth n cum 0) cursor in
                 let cum := set_nth (S n) (mp_sum it) cum in
                 Ret (mk_mpi (mp_sum it) (mp_parties it) (fill_from (S (S n)) (mp_parties it - S (S n)) 0 cursor)
                        (fill_from (S (S n)) (mp_parties it - S (S n)) (mp_sum it) cum) false)
             end
           else
             Ret (mk_mpi (mp_sum it) (mp_parties it)
                    (set_nth (S d) (S (nth (S d) (mp_cursor it) 0)) (set_nth d (nth d (mp_cursor it) 0 - 1) (mp_cursor it)))
                    (set_nth d (nth d (mp_cum it) 0 - 1) (mp_cum it)) false)
       end.
Definition mpi_run_rev (fuel sum parties : nat) : res (list (list nat)) :=
  bind (mpi_start_rev sum parties) (run_iter fuel mp_end mp_cursor mpi_inc_reverse).

(** inc_forward, 82-111.  The carry loop, from index [i] down; [None] = end state *)
Fixpoint fwd_carry (sum i : nat) (cursor cum : list nat) : option (nat * list nat * list nat) :=
  let cursor1 := set_nth i (S (nth i cursor 0)) cursor in
  let cum1 := set_nth i (S (nth i cum 0)) cum in
  if Nat.ltb sum (nth i cum1 0)
  then match i with O => None | S i' => fwd_carry sum i' (set_nth i 0 cursor1) cum1 end
  else Some (i, cursor1, cum1).
(** the loop 106-108 for n more indices *)
Fixpoint fwd_cum (i n : nat) (cursor cum : list nat) : list nat :=
  match n with
  | O => cum
  | S n' => fwd_cum (S i) n' cursor (set_nth i ((if Nat.ltb 0 i then nth (i - 1) cum 0 else 0) + nth i cursor 0) cum)
  end.
Definition mpi_inc_forward (it : mpi) : res mpi :=
  let finish := mk_mpi (mp_sum it) (mp_parties it) (mp_cursor it) (mp_cum it) true in
  if Nat.leb (mp_parties it) 1 then Ret finish
  else match fwd_carry (mp_sum it) (mp_parties it - 2) (mp_cursor it) (mp_cum it) with
       | None => Ret finish
       | Some (i, cursor, cum) =>
           let cum := fwd_cum i (mp_parties it - 1 - i) cursor cum in
           Ret (mk_mpi (mp_sum it) (mp_parties it)
                  (set_nth (mp_parties it - 1) (mp_sum it - nth (mp_parties it - 2) cum 0) cursor) cum false)
       end.
Definition mpi_run_fwd (fuel sum parties : nat) : res (list (list nat)) :=
  bind (mpi_start_fwd sum parties) (run_iter fuel mp_end mp_cursor mpi_inc_forward).
