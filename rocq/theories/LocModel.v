(** Model of scenarios/locality/{locality_context,party,measurement}: operator numbering and simplification. *)
From Coq Require Import List ZArith NArith Arith Bool.
From Verif Require Import CoreModel AlgModel.
Import ListNotations.

(** The list of parties handed to LocalityContext (locality_context.cpp:36): for each party the number of outcomes of each
    of its measurements (measurement.h:22; at least 1, asserted at line 40).  Names are not modelled.  Operator and
    measurement numbers are [nat]: oper_name_t is int16_t, so the model speaks about scenarios with at most 32767
    operators. *)
Definition party := list nat.
Definition scenario := list party.

(** Measurement::num_operators, measurement.h:43-45 *)
Definition num_operators (outcomes : nat) : nat := outcomes - 1.
(** Party::party_operator_count, party.cpp:22-29 *)
Definition party_size (p : party) : nat := fold_left (fun acc m => acc + num_operators m) p 0.
(** Measurement::party_offset as set by Party's constructor, party.cpp:22-29 *)
Fixpoint mmt_offsets (acc : nat) (p : party) : list nat :=
  match p with [] => [] | m :: p' => acc :: mmt_offsets (acc + num_operators m) p' end.
(** Party::offset_id_to_local_mmt, party.cpp:32-35 *)
Fixpoint mmt_table (idx : nat) (p : party) : list nat :=
  match p with [] => [] | m :: p' => repeat idx (num_operators m) ++ mmt_table (S idx) p' end.

(** count_operators, locality_context.cpp:24-30 *)
Definition operator_count (sc : scenario) : nat := fold_left (fun acc p => acc + party_size p) sc 0.
(** Party::global_operator_offset, locality_context.cpp:49 *)
Fixpoint op_offsets (acc : nat) (sc : scenario) : list nat :=
  match sc with [] => [] | p :: sc' => acc :: op_offsets (acc + party_size p) sc' end.
(** Party::global_measurement_offset, locality_context.cpp:50-54 *)
Fixpoint mmt_global_offsets (acc : nat) (sc : scenario) : list nat :=
  match sc with [] => [] | p :: sc' => acc :: mmt_global_offsets (acc + length p) sc' end.
(** global_op_id_to_party, locality_context.cpp:58-71 *)
Fixpoint op_party_table (idx : nat) (sc : scenario) : list nat :=
  match sc with [] => [] | p :: sc' => repeat idx (fold_left (fun acc m => acc + num_operators m) p 0) ++ op_party_table (S idx) sc' end.
(** global_mmt_id_to_party, locality_context.cpp:55 *)
Fixpoint mmt_party_table (idx : nat) (sc : scenario) : list nat :=
  match sc with [] => [] | p :: sc' => repeat idx (length p) ++ mmt_party_table (S idx) sc' end.
(** global_to_local_indices, locality_context.cpp:60-69 *)
Fixpoint local_mmts (party_index mmt_index : nat) (p : party) : list (nat * nat * nat) :=
  match p with
  | [] => []
  | m :: p' => map (fun o => (party_index, mmt_index, o)) (seq 0 (num_operators m)) ++ local_mmts party_index (S mmt_index) p'
  end.
Fixpoint local_table (party_index : nat) (sc : scenario) : list (nat * nat * nat) :=
  match sc with [] => [] | p :: sc' => local_mmts party_index 0 p ++ local_table (S party_index) sc' end.

Definition party_of_op (sc : scenario) (o : nat) : nat := nth o (op_party_table 0 sc) 0.
Definition op_offset (sc : scenario) (p : nat) : nat := nth p (op_offsets 0 sc) 0.
Definition the_party (sc : scenario) (p : nat) : party := nth p sc [].

(** Party::operator[], party.cpp:192-197, with included_operators from set_offsets (party.cpp:143-149) *)
Definition party_operators (sc : scenario) (p : nat) : list nat := seq (op_offset sc p) (party_size (the_party sc p)).
Definition party_op (sc : scenario) (p i : nat) : res nat :=
  if Nat.leb (party_size (the_party sc p)) i then Err else Ret (nth i (party_operators sc p) 0).
(** Party::measurement_outcome, party.cpp:176-190 ([Err] = std::range_error) *)
Definition measurement_outcome (sc : scenario) (p m o : nat) : res nat :=
  if Nat.leb (length (the_party sc p)) m then Err
  else if Nat.leb (num_operators (nth m (the_party sc p) 0)) o then Err
  else Ret (op_offset sc p + nth m (mmt_offsets 0 (the_party sc p)) 0 + o).
(** Party::measurement_of, party.cpp:164-174: index of the measurement *)
Definition measurement_of (sc : scenario) (p o : nat) : res nat :=
  if Nat.ltb o (op_offset sc p) || Nat.leb (party_size (the_party sc p)) (o - op_offset sc p) then Err
  else Ret (nth (o - op_offset sc p) (mmt_table 0 (the_party sc p)) 0).
(** Party::mutually_exclusive, party.cpp:199-207 *)
Definition mutually_exclusive (sc : scenario) (p l r : nat) : bool :=
  if Nat.eqb l r then false
  else Nat.eqb (nth (l - op_offset sc p) (mmt_table 0 (the_party sc p)) 0)
               (nth (r - op_offset sc p) (mmt_table 0 (the_party sc p)) 0).
(** global_index_to_PM, locality_context.cpp:132-139 *)
Definition global_index_to_PM (sc : scenario) (g : nat) : nat * nat :=
  let p := nth g (mmt_party_table 0 sc) 0 in (p, g - nth p (mmt_global_offsets 0 sc) 0).
(** PM_to_global_index (one index), locality_context.cpp:149-167 *)
Definition PM_to_global_index (sc : scenario) (p m : nat) : res nat :=
  if Nat.leb (length sc) p then Err
  else if Nat.leb (length (the_party sc p)) m then Err
  else Ret (nth p (mmt_global_offsets 0 sc) 0 + m).

(** std::stable_sort with the party number as key, as stable insertion sort *)
Fixpoint insert_by (key : nat -> nat) (x : nat) (l : word) : word :=
  match l with [] => [x] | y :: l' => if Nat.leb (key x) (key y) then x :: l else y :: insert_by key x l' end.
Definition stable_sort_by (key : nat -> nat) (w : word) : word := fold_right (insert_by key) [] w.
(** std::unique followed by erase *)
Fixpoint std_unique (l : word) : word :=
  match l with
  | [] => []
  | x :: l' => match l' with [] => [x] | y :: _ => if Nat.eqb x y then std_unique l' else x :: std_unique l' end
  end.
(** the scan for adjacent mutually exclusive operators, locality_context.cpp:107-128 *)
Fixpoint find_exclusive (excl : nat -> nat -> bool) (l : word) : bool :=
  match l with
  | [] => false
  | x :: l' => match l' with [] => false | y :: _ => if excl x y then true else find_exclusive excl l' end
  end.
Definition loc_exclusive (sc : scenario) (x y : nat) : bool :=
  if Nat.eqb (party_of_op sc x) (party_of_op sc y) then mutually_exclusive sc (party_of_op sc x) x y else false.

(** LocalityContext::additional_simplification, locality_context.cpp:82-130: [Ret None] = zero, [Err] = std::range_error *)
Definition loc_simplify (sc : scenario) (w : word) : res (option word) :=
  match w with
  | [] => Ret (Some [])
  | _ => if existsb (fun o => Nat.leb (operator_count sc) o) w then Err
         else let u := std_unique (stable_sort_by (party_of_op sc) w) in
              if find_exclusive (loc_exclusive sc) u then Ret None else Ret (Some u)
  end.

(** Context's hasher: radix is the operator count (context.cpp, Context{count_operators(...)}) *)
Definition loc_radix (sc : scenario) : N := N.of_nat (operator_count sc).
(** OperatorSequence construction, operator_sequence.cpp:33-61.  Both functions are noexcept, so here [Err] is
    std::terminate, not a catchable exception. *)
Definition loc_sequence (sc : scenario) (w : word) (s : sign) : res hseq :=
  bind (loc_simplify sc w) (fun x =>
  match x with None => Ret (hseq_const true) | Some u => Ret (hseq_make (loc_radix sc) u s) end).
(** Context::multiply, context.cpp:33-50 *)
Definition loc_multiply (sc : scenario) (a b : hseq) : res hseq :=
  if hs_zero a || hs_zero b then Ret (hseq_const true)
  else loc_sequence sc (hs_ops a ++ hs_ops b) (smul (hs_sign a) (hs_sign b)).
(** Context::conjugate, context.cpp:71-81 *)
Definition loc_conjugate (sc : scenario) (q : hseq) : res hseq :=
  if hs_zero q then Ret (hseq_const true) else loc_sequence sc (rev (hs_ops q)) (sconj (hs_sign q)).
(** Context::get_if_canonical, context.cpp:115-130 *)
Definition loc_get_if_canonical (sc : scenario) (w : word) : res (option hseq) :=
  bind (loc_sequence sc w SPos) (fun q =>
  Ret (if negb (Nat.eqb (length (hs_ops q)) (length w)) then None
       else if negb (N.eqb (hs_hash q) (hash (loc_radix sc) w)) then None else Some q)).
