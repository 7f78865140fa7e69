(** Model of tensor/tensor.h, tensor/multi_dimensional_index_iterator.h, tensor/multi_dimensional_offset_index_iterator.h,
    tensor/index_flattener.h/.cpp and tensor/auto_storage_tensor.h.
    Simplification: single dimensions and indices are natural numbers; offsets, strides and element counts are 64-bit words
    with wrap-around. *)
From Coq Require Import List NArith Arith Bool.
From Verif Require Import CoreModel AlgModel EnumModel.
Import ListNotations.
Local Open Scope nat_scope.

(** Result of a call: a value, an exception, or undefined behaviour (division by zero, read outside an array). *)
Inductive tout (A : Type) := Value (a : A) | Throws | Undefined.
Arguments Value {A} a. Arguments Throws {A}. Arguments Undefined {A}.
Definition tbind {A B} (x : tout A) (f : A -> tout B) : tout B :=
  match x with Value a => f a | Throws => Throws | Undefined => Undefined end.
Definition wrap64 (x : N) : N := N.modulo x (2 ^ 64)%N.

(** * Tensor *)
(** std::exclusive_scan with std::multiplies, as used by StrideCalculator, tensor.h 28-31 *)
Fixpoint exclusive_scan (acc : N) (dims : list nat) : list N :=
  match dims with
  | [] => []
  | d :: dims' => acc :: exclusive_scan (wrap64 (acc * N.of_nat d)) dims'
  end.
(** StrideCalculator, tensor.h 24-43 (and for arrays 45-62); [last_major] is the template parameter LastIndexMajor.  The second
    branch scans from the back and writes from the back. *)
Definition strides (last_major : bool) (dims : list nat) : list N :=
  if last_major then exclusive_scan 1 dims else rev (exclusive_scan 1 (rev dims)).
(** std::inner_product over the whole index; reading past the end of the strides is undefined *)
Fixpoint inner_product (acc : N) (index : list nat) (str : list N) : tout N :=
  match index, str with
  | [], _ => Value acc
  | _ :: _, [] => Undefined
  | i :: index', s :: str' => inner_product (wrap64 (acc + N.of_nat i * s)) index' str'
  end.
(** Tensor::index_to_offset_no_checks, tensor.h 173-176 *)
Definition index_to_offset_no_checks (lm : bool) (dims index : list nat) : tout N :=
  inner_product 0 index (strides lm dims).
(** Tensor::validate_index, tensor.h 191-209 (unsigned branch) *)
Definition validate_index (dims index : list nat) : tout unit :=
  if negb (Nat.eqb (length index) (length dims)) then Throws
  else if forallb (fun p => Nat.ltb (fst p) (snd p)) (List.combine index dims) then Value tt else Throws.
(** Tensor::validate_index_inclusive, tensor.h 215-233 *)
Definition validate_index_inclusive (dims index : list nat) : tout unit :=
  if negb (Nat.eqb (length index) (length dims)) then Throws
  else if forallb (fun p => Nat.leb (fst p) (snd p)) (List.combine index dims) then Value tt else Throws.
(** Tensor::index_to_offset, tensor.h 181-184 *)
Definition index_to_offset (lm : bool) (dims index : list nat) : tout N :=
  tbind (validate_index dims index) (fun _ => index_to_offset_no_checks lm dims index).
(** Tensor::calculateNumberOfElements, tensor.h 285-290 *)
Definition element_count (dims : list nat) : N :=
  match dims with [] => 0%N | _ => fold_left (fun a d => wrap64 (a * N.of_nat d)) dims 1%N end.
(** IndexToOffsetCalculator::operator(), tensor.h 77-92: last index major *)
Fixpoint digits_by_dimension (dims : list nat) (offset : N) : tout (list nat) :=
  match dims with
  | [] => Value []
  | d :: dims' => if Nat.eqb d 0 then Undefined else
      tbind (digits_by_dimension dims' (offset / N.of_nat d)%N) (fun l => Value (N.to_nat (N.modulo offset (N.of_nat d)) :: l))
  end.
(** ... and first index major *)
Fixpoint digits_by_stride (str : list N) (offset : N) : tout (list nat) :=
  match str with
  | [] => Value []
  | s :: str' => if N.eqb s 0 then Undefined else
      tbind (digits_by_stride str' (N.modulo offset s)) (fun l => Value (N.to_nat (offset / s)%N :: l))
  end.
(** Tensor::offset_to_index_no_checks, tensor.h 238-241 *)
Definition offset_to_index_no_checks (lm : bool) (dims : list nat) (offset : N) : tout (list nat) :=
  if lm then digits_by_dimension dims offset else digits_by_stride (strides lm dims) offset.
(** Tensor::validate_offset, tensor.h 247-257 *)
Definition validate_offset (dims : list nat) (offset : N) : tout unit :=
  if N.leb (element_count dims) offset then Throws else Value tt.
(** Tensor::offset_to_index, tensor.h 275-278 *)
Definition offset_to_index (lm : bool) (dims : list nat) (offset : N) : tout (list nat) :=
  tbind (validate_offset dims offset) (fun _ => offset_to_index_no_checks lm dims offset).
(** Tensor::validate_range, tensor.h 262-270 *)
Definition validate_range (dims lo hi : list nat) : tout unit :=
  tbind (validate_index dims lo) (fun _ => tbind (validate_index_inclusive dims hi) (fun _ =>
  if forallb (fun p => Nat.leb (fst p) (snd p)) (List.combine lo hi) then Value tt else Throws)).

(** * Iterators *)
(** Tensor::IndexIterator = MultiDimensionalIndexIterator<last_index_major>, tensor.h 141: run to the end, with operator* and
    global() of each position (EnumModel has operator++). *)
Definition index_iterator (fuel : nat) (lm : bool) (dims : list nat) : res (list (list nat * nat)) :=
  run_iter fuel mdi_done (fun it => (mdi_indices it, mdi_global it)) (if lm then mdi_step_rev else mdi_step) (mdi_start dims).

(** MultiDimensionalOffsetIndexIterator: constructor 35-60; operator++ 68-112 *)
Record mdoi := mk_mdoi { mo_lo : list nat; mo_hi : list nat; mo_indices : list nat; mo_global : nat; mo_done : bool }.
Definition mdoi_start (lo hi : list nat) : mdoi :=
  let dn := Nat.eqb (length lo) 0 || existsb (fun p => Nat.eqb (fst p) (snd p)) (List.combine lo hi) in
  mk_mdoi lo hi lo (if dn then fold_left Nat.mul hi 1 else 0) dn.
Definition mdoi_step (reversed : bool) (it : mdoi) : res mdoi :=
  let range := List.combine (mo_lo it) (mo_hi it) in
  let full := fun a hi => Nat.leb hi a in
  let (x, over) := if reversed then let (y, o) := odo_inc full (rev range) (rev (mo_indices it)) in (rev y, o)
                   else odo_inc full range (mo_indices it) in
  Ret (mk_mdoi (mo_lo it) (mo_hi it) x (S (mo_global it)) over).
Definition mdoi_run (fuel : nat) (reversed : bool) (lo hi : list nat) : res (list (list nat * nat)) :=
  run_iter fuel mo_done (fun it => (mo_indices it, mo_global it)) (mdoi_step reversed) (mdoi_start lo hi).

(** * IndexFlattener, index_flattener.cpp *)
(** calculate_index_sizes 27-34 *)
Definition index_sizes (per_dim : list (list nat)) : list nat := map (@length nat) per_dim.
(** FlattenedIndexIter::index 37-47: replaces each raw index by the listed value; reading outside the list is undefined *)
Fixpoint remap_index (per_dim : list (list nat)) (raw : list nat) : tout (list nat) :=
  match raw, per_dim with
  | [], _ => Value []
  | _ :: _, [] => Undefined
  | r :: raw', l :: per_dim' =>
      match nth_error l r with
      | None => Undefined
      | Some v => tbind (remap_index per_dim' raw') (fun t => Value (v :: t))
      end
  end.
(** FlattenedIndexIter::operator* 49-52 *)
Definition flattened (dims : list nat) (per_dim : list (list nat)) (raw : list nat) : tout N :=
  tbind (remap_index per_dim raw) (index_to_offset_no_checks true dims).
(** begin() to end(), index_flattener.h 106-112: all flattened offsets *)
Fixpoint tmap {A B} (f : A -> tout B) (l : list A) : tout (list B) :=
  match l with
  | [] => Value []
  | a :: l' => tbind (f a) (fun b => tbind (tmap f l') (fun r => Value (b :: r)))
  end.
Definition flatten_all (fuel : nat) (dims : list nat) (per_dim : list (list nat)) : res (tout (list N)) :=
  bind (index_iterator fuel true (index_sizes per_dim)) (fun l => Ret (tmap (fun p => flattened dims per_dim (fst p)) l)).
(** IndexFlattener::size 60-66, empty 68-76 *)
Definition flattener_size (per_dim : list (list nat)) : N := element_count (index_sizes per_dim).
Definition flattener_empty (per_dim : list (list nat)) : bool :=
  match per_dim with [] => true | _ => existsb (fun n => Nat.eqb n 0) (index_sizes per_dim) end.

(** * AutoStorageTensor, auto_storage_tensor.h *)
Inductive storage := Explicit | Virtual.
(** get_storage_type 470-479; no hint is TensorStorageType::Automatic *)
Definition get_storage_type (threshold : N) (hint : option storage) (count : N) : storage :=
  match hint with Some s => s | None => if N.ltb threshold count then Virtual else Explicit end.

(** One position of an iteration: index(), offset(), element. *)
Notation visit E := (list nat * N * E)%type.
Section AutoStorage.
  Context {E : Type}.
  (** make_element_no_checks 467: the pure virtual function that computes an element *)
  Variable make_element : list nat -> E.
  Record tensor := mk_tensor { tn_dims : list nat; tn_storage : storage; tn_data : list E }.

  (** Construction 391-393, with the loop every subclass runs in its constructor in explicit mode: one element for each index
      of MultiDimensionalIndexIterator<true> in turn (locality_collins_gisin.cpp 57-59, probability_tensor.cpp 93-99,
      full_correlator.cpp 165-171). *)
  Definition tensor_make (fuel : nat) (threshold : N) (hint : option storage) (dims : list nat) : res tensor :=
    match get_storage_type threshold hint (element_count dims) with
    | Virtual => Ret (mk_tensor dims Virtual [])
    | Explicit => bind (index_iterator fuel true dims) (fun l => Ret (mk_tensor dims Explicit (map (fun p => make_element (fst p)) l)))
    end.
  (** vector::operator[]: undefined outside the data *)
  Definition data_at (t : tensor) (offset : N) : tout E :=
    match nth_error (tn_data t) (N.to_nat offset) with Some e => Value e | None => Undefined end.
  (** elem_no_checks(index), ElementView 100-107 *)
  Definition elem_no_checks (t : tensor) (index : list nat) : tout E :=
    match tn_storage t with
    | Explicit => tbind (index_to_offset_no_checks true (tn_dims t) index) (data_at t)
    | Virtual => Value (make_element index)
    end.
  (** elem_no_checks(offset), ElementView 109-116 *)
  Definition elem_at_no_checks (t : tensor) (offset : N) : tout E :=
    match tn_storage t with
    | Explicit => data_at t offset
    | Virtual => tbind (offset_to_index_no_checks true (tn_dims t) offset) (fun i => Value (make_element i))
    end.
  (** operator()(indices) 404-406, ElementView 77-85 *)
  Definition elem (t : tensor) (index : list nat) : tout E :=
    tbind (validate_index (tn_dims t) index) (fun _ => elem_no_checks t index).
  (** at(offset) 419-421, ElementView 88-96 *)
  Definition elem_at (t : tensor) (offset : N) : tout E :=
    tbind (validate_offset (tn_dims t) offset) (fun _ => elem_at_no_checks t offset).

  (** Iterator over a splice 142-260: index(), offset(), block_offset(), operator* *)
  Definition splice_visit (t : tensor) (p : list nat * nat) : tout (visit E * nat) :=
    tbind (index_to_offset_no_checks true (tn_dims t) (fst p)) (fun o =>
    tbind (match tn_storage t with Explicit => data_at t o | Virtual => Value (make_element (fst p)) end) (fun e =>
    Value (fst p, o, e, snd p))).
  (** begin() to end() of a TensorRange 509-519 *)
  Definition range_run (fuel : nat) (t : tensor) (lo hi : list nat) : res (tout (list (visit E * nat))) :=
    bind (mdoi_run fuel true lo hi) (fun l => Ret (tmap (splice_visit t) l)).
  (** Splice 424-433 *)
  Definition splice_run (fuel : nat) (t : tensor) (lo hi : list nat) : res (tout (list (visit E * nat))) :=
    match validate_range (tn_dims t) lo hi with
    | Value _ => range_run fuel t lo hi
    | Throws => Ret Throws
    | Undefined => Ret Undefined
    end.
  (** FullIterator 266-376: in explicit mode walks the data, and index() is computed from the distance to its start 302-310 *)
  Fixpoint data_visits (dims : list nat) (offset : N) (data : list E) : tout (list (visit E)) :=
    match data with
    | [] => Value []
    | e :: data' => tbind (offset_to_index_no_checks true dims offset) (fun i =>
        tbind (data_visits dims (N.succ offset) data') (fun r => Value ((i, offset, e) :: r)))
    end.
  Definition full_run (fuel : nat) (t : tensor) : res (tout (list (visit E))) :=
    match tn_storage t with
    | Explicit => Ret (data_visits (tn_dims t) 0 (tn_data t))
    | Virtual => bind (range_run fuel t (repeat 0 (length (tn_dims t))) (tn_dims t)) (fun r => Ret (tbind r (fun l => Value (map fst l))))
    end.
End AutoStorage.
Arguments tensor E : clear implicits.

(** TensorRange::Dimensions 522-530 and size 533-539 *)
Definition range_dims (lo hi : list nat) : list nat := map (fun p => snd p - fst p) (List.combine lo hi).
Definition range_size (lo hi : list nat) : N := fold_left (fun a d => wrap64 (a * N.of_nat d)) (range_dims lo hi) 1%N.
