(** Properties C41 (offsets and multi-dimensional iterators), C47 (square matrices) and C48 (explicit and virtual tensors). *)
From Coq Require Import List NArith Arith Bool Sorted.
From Verif Require Import CoreModel CoreSpec AlgModel EnumModel EnumSpec TensorModel TensorSpec TensorProofs TensorFinalProofs
  SquareModel SquareSpec SquareProofs TensorWitnessProofs.
Import ListNotations.
Local Open Scope nat_scope.

(** * C41 *)
(** Offset of an index: its position in the storage order; out-of-range indices throw. *)
Theorem C41_offset : forall lm dims index, index_of dims index -> small dims ->
  index_to_offset lm dims index = Value (N.of_nat (position lm dims index)).
Proof. exact offset_checked. Qed.
Print Assumptions C41_offset.
Example C41_offset_example : index_of [3; 4; 5] [2; 0; 4] /\ small [3; 4; 5] /\
  position true [3; 4; 5] [2; 0; 4] = 50 /\ position false [3; 4; 5] [2; 0; 4] = 44.
Proof. exact offset_example. Qed.

Theorem C41_bad_index : forall lm dims index, ~ index_of dims index -> index_to_offset lm dims index = Throws.
Proof. exact offset_rejected. Qed.
Print Assumptions C41_bad_index.
Example C41_bad_index_example : ~ index_of [3; 4] [2; 4] /\ ~ index_of [3; 4] [2].
Proof. exact bad_index_example. Qed.

(** Index to offset and back, offset to index and back, in both storage orders. *)
Theorem C41_index_round_trip : forall lm dims index, dims <> [] -> small dims -> index_of dims index ->
  exists o, index_to_offset lm dims index = Value o /\ (o < element_count dims)%N /\ offset_to_index lm dims o = Value index.
Proof. exact offset_then_index. Qed.
Print Assumptions C41_index_round_trip.
Theorem C41_offset_round_trip : forall lm dims o, dims <> [] -> small dims -> (o < N.of_nat (volume dims))%N ->
  exists index, offset_to_index lm dims o = Value index /\ index_of dims index /\ index_to_offset lm dims index = Value o.
Proof. exact index_then_offset. Qed.
Print Assumptions C41_offset_round_trip.
Example C41_offset_round_trip_example : small [3; 4; 5] /\ (50 < N.of_nat (volume [3; 4; 5]%nat))%N /\
  offset_to_index true [3; 4; 5] 50 = Value [2; 0; 4] /\ offset_to_index false [3; 4; 5] 44 = Value [2; 0; 4].
Proof. exact round_trip_example. Qed.

Theorem C41_bad_offset : forall lm dims o, small dims -> (N.of_nat (volume dims) <= o)%N -> offset_to_index lm dims o = Throws.
Proof. exact index_rejected. Qed.
Print Assumptions C41_bad_offset.
Theorem C41_element_count : forall dims, dims <> [] -> small dims -> element_count dims = N.of_nat (volume dims).
Proof. exact count_exact. Qed.
Print Assumptions C41_element_count.
Example C41_bad_offset_example : small [3; 4; 5] /\ (N.of_nat (volume [3; 4; 5]%nat) <= 60)%N /\ element_count [3; 4; 5] = 60%N.
Proof. exact bad_offset_example. Qed.

(** The index iterator lists every index once; the k-th is the one with offset k, and global() is k. *)
Theorem C41_iterator : forall lm dims fuel, dims <> [] -> volume dims <= fuel ->
  exists l, index_iterator fuel lm dims = Ret l /\ length l = volume dims /\
    forall k index g, nth_error l k = Some (index, g) <-> g = k /\ index_of dims index /\ position lm dims index = k.
Proof. exact iterator_in_order. Qed.
Print Assumptions C41_iterator.
Example C41_iterator_example : volume [2; 2] <= 4 /\
  index_iterator 4 true [2; 2] = Ret [([0; 0], 0); ([1; 0], 1); ([0; 1], 2); ([1; 1], 3)] /\
  index_iterator 4 false [2; 2] = Ret [([0; 0], 0); ([0; 1], 1); ([1; 0], 2); ([1; 1], 3)].
Proof. exact iterator_example. Qed.

(** The iterator over a sub-range lists exactly the indices between the corners, in the order of their offsets. *)
Theorem C41_range_iterator : forall lm dims lo hi fuel, dims <> [] -> corners dims lo hi -> volume dims <= fuel ->
  exists l, mdoi_run fuel lm lo hi = Ret l /\
    StronglySorted (fun x y => position lm dims x < position lm dims y) (map fst l) /\
    (forall x, In x (map fst l) <-> between lo hi x) /\ map snd l = seq 0 (length l).
Proof. exact offset_iterator_in_order. Qed.
Print Assumptions C41_range_iterator.
Example C41_range_iterator_example : corners [3; 4] [1; 2] [3; 4] /\ volume [3; 4] <= 12 /\
  mdoi_run 12 true [1; 2] [3; 4] = Ret [([1; 2], 0); ([2; 2], 1); ([1; 3], 2); ([2; 3], 3)].
Proof. exact range_example. Qed.
(** Ranges are checked: exactly the ordered pairs of corners are accepted. *)
Theorem C41_range_check : forall dims lo hi, validate_range dims lo hi = Value tt <-> corners dims lo hi.
Proof. exact validate_range_spec. Qed.
Print Assumptions C41_range_check.

(** The flattener lists, in column-major order of the lists, the offsets of all combinations of listed indices. *)
Theorem C41_flattener : forall dims per_dim fuel, per_dim <> [] -> small dims ->
  Forall2 (fun d l => Forall (fun i => i < d) l) dims per_dim -> volume (index_sizes per_dim) <= fuel ->
  exists l, flatten_all fuel dims per_dim = Ret (Value l) /\ length l = volume (index_sizes per_dim) /\
    forall k raw, index_of (index_sizes per_dim) raw -> column_position (index_sizes per_dim) raw = k ->
      nth_error l k = Some (N.of_nat (column_position dims (pick per_dim raw))).
Proof. exact flatten_spec. Qed.
Print Assumptions C41_flattener.
Theorem C41_flattener_size : forall per_dim, small (index_sizes per_dim) ->
  (per_dim <> [] -> flattener_size per_dim = N.of_nat (volume (index_sizes per_dim))) /\
  (flattener_empty per_dim = true <-> per_dim = [] \/ volume (index_sizes per_dim) = 0).
Proof. exact flattener_counts. Qed.
Print Assumptions C41_flattener_size.
Example C41_flattener_example : small [3; 4] /\ Forall2 (fun d l => Forall (fun i => i < d) l) [3; 4] [[2; 0]; [1; 3; 1]] /\
  small (index_sizes [[2; 0]; [1; 3; 1]]) /\ volume (index_sizes [[2; 0]; [1; 3; 1]]) <= 6 /\
  flatten_all 6 [3; 4] [[2; 0]; [1; 3; 1]] = Ret (Value [5; 3; 11; 9; 5; 3]%N).
Proof. exact flattener_example. Qed.

(** A tensor without dimensions: its only index is accepted with offset 0, but there is no offset 0. *)
Theorem C41_no_dimensions_refuted : exists index, index_of [] index /\ small [] /\
  exists o, index_to_offset true [] index = Value o /\ offset_to_index true [] o = Throws.
Proof. exact no_dimensions_witness. Qed.
Print Assumptions C41_no_dimensions_refuted.
(** Dimensions whose product wraps: every index is accepted, no offset is. *)
Theorem C41_huge_refuted : exists dims index o, dims <> [] /\ index_of dims index /\
  index_to_offset true dims index = Value o /\ offset_to_index true dims o = Throws.
Proof. exact huge_witness. Qed.
Print Assumptions C41_huge_refuted.

(** * C47 *)
(** All four triangular views visit exactly the cells of their triangle, column by column, each with its own row, column, offset
    and element. *)
Theorem C47_triangles : forall (E : Type) upper inclusive (m : square E) fuel, sq_dim m * sq_dim m <= fuel ->
  exists l, triangle_run fuel upper inclusive m =
      Ret (map (fun rc => (fst rc, snd rc, fst rc + snd rc * sq_dim m, sq_get m (fst rc) (snd rc))) l) /\
    lists_in_order column_order (in_triangle upper inclusive (sq_dim m)) l.
Proof. exact @triangle_spec. Qed.
Print Assumptions C47_triangles.
Example C47_triangles_example : triangle_run 9 true false (mk_square 3 (seq 0 9)) =
    Ret [(0, 1, 3, Some 3); (0, 2, 6, Some 6); (1, 2, 7, Some 7)] /\
  triangle_run 9 false true (mk_square 2 (seq 0 4)) = Ret [(0, 0, 0, Some 0); (1, 0, 1, Some 1); (1, 1, 3, Some 3)] /\
  triangle_run 9 false false (mk_square 1 [0]) = Ret [] /\ triangle_run 9 true true (mk_square 0 (@nil nat)) = Ret [].
Proof. exact triangle_example. Qed.
(** The transposed view lists the matrix row by row. *)
Theorem C47_transpose : forall (E : Type) (m : square E) fuel, sq_dim m * sq_dim m <= fuel ->
  exists l, transpose_run fuel m = Ret l /\ length l = sq_dim m * sq_dim m /\
    forall row col, row < sq_dim m -> col < sq_dim m -> nth_error l (row + col * sq_dim m) = Some (sq_get m col row).
Proof. exact @transpose_spec. Qed.
Print Assumptions C47_transpose.
(** Padding keeps the matrix as the leading block and fills the rest. *)
Theorem C47_pad : forall (E : Type) (m : square E) p z r c, full_matrix (sq_dim m) (sq_data m) ->
  r < sq_dim m + p -> c < sq_dim m + p ->
  sq_get (sq_pad m p z) r c = if Nat.ltb r (sq_dim m) && Nat.ltb c (sq_dim m) then sq_get m r c else Some z.
Proof. exact @pad_get. Qed.
Print Assumptions C47_pad.
Theorem C47_pad_size : forall (E : Type) (m : square E) p z, full_matrix (sq_dim m) (sq_data m) ->
  full_matrix (sq_dim (sq_pad m p z)) (sq_data (sq_pad m p z)).
Proof. exact @pad_full. Qed.
Print Assumptions C47_pad_size.
Example C47_pad_example : full_matrix 2 [1; 2; 3; 4] /\ transpose_run 4 (mk_square 2 [1; 2; 3; 4]) = Ret [Some 1; Some 3; Some 2; Some 4] /\
  sq_data (sq_pad (mk_square 2 [1; 2; 3; 4]) 1 0) = [1; 2; 0; 3; 4; 0; 0; 0; 0].
Proof. exact pad_example. Qed.

(** * C48 *)
(** Reading by index and by offset, stored or computed on demand. *)
Theorem C48_read : forall (E : Type) (make : list nat -> E) fuel thr hint dims t index, dims <> [] -> small dims -> volume dims <= fuel ->
  tensor_make make fuel thr hint dims = Ret t ->
  (index_of dims index -> elem make t index = Value (make index)) /\ (~ index_of dims index -> elem make t index = Throws).
Proof. exact @read_index. Qed.
Print Assumptions C48_read.
Theorem C48_read_offset : forall (E : Type) (make : list nat -> E) fuel thr hint dims t, dims <> [] -> small dims -> volume dims <= fuel ->
  tensor_make make fuel thr hint dims = Ret t ->
  (forall index, index_of dims index -> elem_at make t (N.of_nat (column_position dims index)) = Value (make index)) /\
  (forall o, (N.of_nat (volume dims) <= o)%N -> elem_at make t o = Throws).
Proof. exact @read_offset. Qed.
Print Assumptions C48_read_offset.
(** Iterating over everything: every index once, in the order of offsets, with its offset and element. *)
Theorem C48_iterate : forall (E : Type) (make : list nat -> E) fuel thr hint dims t, dims <> [] -> small dims -> volume dims <= fuel ->
  tensor_make make fuel thr hint dims = Ret t ->
  exists l, full_run make fuel t = Ret (Value l) /\ length l = volume dims /\
    forall k index o e, nth_error l k = Some (index, o, e) <->
      index_of dims index /\ column_position dims index = k /\ o = N.of_nat k /\ e = make index.
Proof. exact @full_in_order. Qed.
Print Assumptions C48_iterate.
(** Splices: exactly the cells between the corners, in order, with offset, element and number; bad corners throw. *)
Theorem C48_splice : forall (E : Type) (make : list nat -> E) fuel thr hint dims t lo hi, dims <> [] -> small dims -> volume dims <= fuel ->
  tensor_make make fuel thr hint dims = Ret t ->
  (corners dims lo hi -> exists l,
     splice_run make fuel t lo hi = Ret (Value (map (fun p => (fst p, N.of_nat (column_position dims (fst p)), make (fst p), snd p)) (numbered 0 l))) /\
     StronglySorted (fun x y => column_position dims x < column_position dims y) l /\ (forall x, In x l <-> between lo hi x)) /\
  (~ corners dims lo hi -> splice_run make fuel t lo hi = Ret Throws).
Proof. exact @splice_spec. Qed.
Print Assumptions C48_splice.
Theorem C48_splice_size : forall dims lo hi, small dims -> corners dims lo hi ->
  range_size lo hi = N.of_nat (length (range_in_order true lo hi)).
Proof. exact range_size_spec. Qed.
Print Assumptions C48_splice_size.
(** The storage mode cannot be observed. *)
Theorem C48_storage_invisible : forall (E : Type) (make : list nat -> E) fuel thr1 thr2 hint1 hint2 dims t1 t2,
  dims <> [] -> small dims -> volume dims <= fuel ->
  tensor_make make fuel thr1 hint1 dims = Ret t1 -> tensor_make make fuel thr2 hint2 dims = Ret t2 ->
  (forall index, elem make t1 index = elem make t2 index) /\ (forall o, elem_at make t1 o = elem_at make t2 o) /\
  full_run make fuel t1 = full_run make fuel t2 /\ (forall lo hi, splice_run make fuel t1 lo hi = splice_run make fuel t2 lo hi).
Proof. exact @storage_invisible. Qed.
Print Assumptions C48_storage_invisible.
(** Which mode is used: the one asked for; left to itself, a tensor stores its elements exactly up to the threshold. *)
Theorem C48_storage_choice : forall (E : Type) (make : list nat -> E) fuel thr hint dims t, dims <> [] -> small dims ->
  tensor_make make fuel thr hint dims = Ret t ->
  (forall s, hint = Some s -> tn_storage t = s) /\ (hint = None -> (tn_storage t = Explicit <-> (N.of_nat (volume dims) <= thr)%N)).
Proof. exact @storage_choice. Qed.
Print Assumptions C48_storage_choice.
Example C48_example : small [2; 3] /\ volume [2; 3] <= 6 /\ corners [2; 3] [1; 0] [2; 3] /\
  (exists t, tensor_make (fun i => i) 6 6 None [2; 3] = Ret t /\ tn_storage t = Explicit) /\
  (exists t, tensor_make (fun i => i) 6 5 None [2; 3] = Ret t /\ tn_storage t = Virtual /\
     splice_run (fun i => i) 6 t [1; 0] [2; 3] =
       Ret (Value [([1; 0], 1%N, [1; 0], 0); ([1; 1], 3%N, [1; 1], 1); ([1; 2], 5%N, [1; 2], 2)])).
Proof. exact storage_example. Qed.
(** Without dimensions it can: a virtual tensor has an element, an explicit one reads outside its data. *)
Theorem C48_no_dimensions_refuted : exists t1 t2, tensor_make (fun i => i) 1 1 (Some Explicit) [] = Ret t1 /\
  tensor_make (fun i => i) 1 1 (Some Virtual) [] = Ret t2 /\
  elem (fun i => i) t1 [] = Undefined /\ elem (fun i => i) t2 [] = Value [].
Proof. exact no_dimensions_storage. Qed.
Print Assumptions C48_no_dimensions_refuted.
