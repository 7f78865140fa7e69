(** Model of utilities/ipow.h, shift_sorter.h, first_intersection_index.h, linear_map_merge.h, variable_chunk_range.h and
    kronecker_power.cpp. *)
From Coq Require Import List ZArith Arith Bool.
From Verif Require Import AlgModel TensorModel.
Import ListNotations.

(** * ipow.h *)
(** Multiplication of an integer type of [w] bits: wraps when unsigned, overflow is undefined when signed. *)
Definition int_mul (signed : bool) (w : Z) (a b : Z) : tout Z :=
  let p := (a * b)%Z in
  if signed then if (Z.leb (- 2 ^ (w - 1)) p && Z.ltb p (2 ^ (w - 1)))%Z%bool then Value p else Undefined
  else Value (p mod 2 ^ w)%Z.
(** the loop, 42-52.  exp >> 1 is arithmetic shift. *)
Fixpoint ipow_loop (fuel : nat) (signed : bool) (w base exp output : Z) : res (tout Z) :=
  match fuel with
  | O => NoFuel
  | S fuel' =>
      match (if Z.odd exp then int_mul signed w output base else Value output) with
      | Value output' =>
          let exp' := Z.shiftr exp 1 in
          if Z.eqb exp' 0 then Ret (Value output')
          else match int_mul signed w base base with
               | Value base' => ipow_loop fuel' signed w base' exp' output'
               | e => Ret e
               end
      | e => Ret e
      end
  end.
(** ipow, 20-60; -base overflows for the least value *)
Definition ipow (fuel : nat) (signed : bool) (w base exp : Z) : res (tout Z) :=
  if Z.eqb exp 0 then Ret (Value 1%Z)
  else if Z.eqb exp 1 then Ret (Value base)
  else if Z.eqb base 0 then Ret (Value 0%Z)
  else if Z.eqb base 1 then Ret (Value 1%Z)
  else if (signed && Z.ltb base 0)%bool then
    if Z.eqb base (- 2 ^ (w - 1)) then Ret Undefined
    else bind (ipow_loop fuel signed w (- base) exp 1) (fun r =>
           Ret (tbind r (fun output => Value (if Z.odd exp then - output else output)%Z)))
  else ipow_loop fuel signed w base exp 1.

(** * shift_sorter.h; sizes are exact (int_t holds the size of the data) *)
(** ComparePermutationFunctor::operator(), 26-41, from [index] on *)
Fixpoint rotation_less (left : nat) (data : list Z) (index lhs rhs : nat) : bool :=
  match left with
  | O => false
  | S left' =>
      let a := nth ((index + lhs) mod length data) data 0%Z in
      let b := nth ((index + rhs) mod length data) data 0%Z in
      if Z.ltb a b then true else if Z.ltb b a then false else rotation_less left' data (S index) lhs rhs
  end.
(** ShiftSorter::operator(), 44-54 *)
Definition least_rotation (data : list Z) : nat :=
  fold_left (fun best alt => if rotation_less (length data) data 0 alt best then alt else best) (seq 1 (length data - 1)) 0.

(** * first_intersection_index.h, 29-49 *)
Section Intersection.
  Context {A : Type}.
  Variable less : A -> A -> bool.
  Fixpoint first_intersection (test : list A) : list A -> nat -> option nat :=
    match test with
    | [] => fun _ _ => None
    | a :: test' =>
        fix over (match_ : list A) (index : nat) : option nat :=
          match match_ with
          | [] => None
          | b :: match' =>
              if less a b then first_intersection test' match_ index
              else if less b a then over match' (S index)
              else Some index
          end
    end.
  Definition first_intersection_index (test match_ : list A) : option nat := first_intersection test match_ 0.
End Intersection.

(** * linear_map_merge.h *)
Section Merge.
  Context {V : Type}.
  (** std::map::insert: nothing happens if the key is there; the hint only speeds it up *)
  Fixpoint map_insert (k : Z) (v : V) (m : list (Z * V)) : list (Z * V) :=
    match m with
    | [] => [(k, v)]
    | (k', v') :: m' => if Z.ltb k k' then (k, v) :: m else if Z.eqb k k' then m else (k', v') :: map_insert k v m'
    end.
  (** iterators: the key they point to, or none for end(); ++ *)
  Definition map_begin (m : list (Z * V)) : option Z := match m with [] => None | (k, _) :: _ => Some k end.
  Fixpoint map_next (k : Z) (m : list (Z * V)) : option Z :=
    match m with [] => None | (k', _) :: m' => if Z.ltb k k' then Some k' else map_next k m' end.
  (** conversion to size_t *)
  Definition to_size_t (k : Z) : Z := (k mod 2 ^ 64)%Z.
  (** the loop, 24-48.  The other key is converted to size_t, so the comparison converts the key of [lhs] as well; the key is
      converted back when the pair is inserted, which restores it. *)
  Fixpoint merge_loop (fuel : nat) (lhs : list (Z * V)) (it : option Z) (rhs : list (Z * V)) : res (list (Z * V)) :=
    match rhs with
    | [] => Ret lhs
    | (k, v) :: rhs' =>
        match fuel with
        | O => NoFuel
        | S fuel' =>
            match it with
            | None => merge_loop fuel' (map_insert k v lhs) None rhs'
            | Some h =>
                if Z.ltb (to_size_t h) (to_size_t k) then merge_loop fuel' lhs (map_next h lhs) rhs
                else if Z.ltb (to_size_t k) (to_size_t h) then merge_loop fuel' (map_insert k v lhs) (Some k) rhs'
                else merge_loop fuel' lhs (map_next h lhs) rhs'
            end
        end
    end.
  Definition linear_map_merge (fuel : nat) (lhs rhs : list (Z * V)) : res (list (Z * V)) := merge_loop fuel lhs (map_begin lhs) rhs.
End Merge.

(** * variable_chunk_range.h *)
Section Chunks.
  Context {A : Type}.
  (** chunk_size 69-79 *)
  Definition chunk_size (data : list A) (indices : list nat) (i : nat) : nat :=
    if Nat.ltb (1 + i) (length indices) then nth (1 + i) indices 0 - nth i indices 0
    else if Nat.eqb (1 + i) (length indices) then length data - last indices 0 else 0.
  (** operator* 81-87; reading beyond the data is undefined *)
  Definition chunk_at (data : list A) (indices : list nat) (i : nat) : tout (list A) :=
    let offset := nth i indices 0 in let size := chunk_size data indices i in
    if Nat.leb (offset + size) (length data) then Value (firstn size (skipn offset data)) else Undefined.
  (** for (chunk : range), begin 108 to end 112 *)
  Definition all_chunks (data : list A) (indices : list nat) : tout (list (list A)) := tmap (chunk_at data indices) (seq 0 (length indices)).
End Chunks.

(** * kronecker_power.cpp 23-50: the product and the 1x1 identity are those of Eigen *)
Section Power.
  Context {M : Type}.
  Variable kron : M -> M -> M.
  Variable id1 : M.
  Fixpoint kronecker_loop (fuel : nat) (output pow2 : M) (power : Z) : res M :=
    if Z.eqb power 0 then Ret output
    else match fuel with
         | O => NoFuel
         | S fuel' =>
             let pow2' := kron pow2 pow2 in
             kronecker_loop fuel' (if Z.odd power then kron output pow2' else output) pow2' (Z.shiftr power 1)
         end.
  Definition kronecker_power (fuel : nat) (base : M) (power : Z) : res M :=
    if Z.eqb power 1 then Ret base
    else if Z.eqb power 0 then Ret id1
    else kronecker_loop fuel (if Z.odd power then base else id1) base (Z.shiftr power 1).
End Power.
