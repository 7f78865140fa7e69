(** Storages of indices of matrices: matrix_system/index_storage/{vector,map,polynomial}_index_storage.h, scenarios/inflation/extended_matrix_indices.{h,cpp},
    and the orders of the indices, matrix_system/indices/*.h, scenarios/pauli/indices/*.h. *)
From Coq Require Import List NArith ZArith Arith Bool.
From Verif Require Import CoreModel FieldModel AlgModel PolyModel TreeModel MsModel.
Import ListNotations.
Local Open Scope nat_scope.

(** What a storage offers, matrix_indices.h:24-33; offsets are ptrdiff_t, -1 if there is none *)
Record storage (K : Type) := mk_storage {
  st_state : Type;
  st_empty : st_state;
  st_find : st_state -> K -> Z;
  st_contains : st_state -> K -> bool;
  st_insert : st_state -> K -> Z -> st_state * (Z * bool) }.
Arguments st_state {K}. Arguments st_empty {K}. Arguments st_find {K}. Arguments st_contains {K}. Arguments st_insert {K}.

(** VectorIndexStorage, vector_index_storage.h:33-58; find and insert: MsModel.  Indices are unsigned. *)
Definition vcontains (v : list Z) (i : nat) : bool := if length v <=? i then false else negb (Z.eqb (nth i v (-1)%Z) (-1)).
Definition vector_storage : storage nat := mk_storage nat (list Z) [] vfind vcontains vinsert.

(** std::map ordered by [less]: the entries in order; the first one that is not less than the key is looked at.  For a strict weak order the
    standard's trees behave like this. *)
Section Map.
  Context {K : Type} (less : K -> K -> bool).
  Fixpoint map_at (m : list (K * Z)) (k : K) : option Z :=
    match m with
    | [] => None
    | e :: m' => if less (fst e) k then map_at m' k else if less k (fst e) then None else Some (snd e)
    end.
  Fixpoint map_add (m : list (K * Z)) (k : K) (o : Z) : list (K * Z) :=
    match m with
    | [] => [(k, o)]
    | e :: m' => if less (fst e) k then e :: map_add m' k o else if less k (fst e) then (k, o) :: m else m
    end.
  (** MapIndexStorage, map_index_storage.h:28-40; PolynomialIndexStorageBase, polynomial_index_storage.h:92-127, whose contains tests find >= 0 *)
  Definition map_find (m : list (K * Z)) (k : K) : Z := match map_at m k with Some o => o | None => (-1)%Z end.
  Definition map_insert (m : list (K * Z)) (k : K) (o : Z) : list (K * Z) * (Z * bool) :=
    (map_add m k o, match map_at m k with Some o' => (o', false) | None => (o, true) end).
  Definition map_storage : storage K :=
    mk_storage K (list (K * Z)) [] map_find (fun m k => match map_at m k with Some _ => true | None => false end) map_insert.
  Definition polynomial_storage : storage K := mk_storage K (list (K * Z)) [] map_find (fun m k => Z.leb 0 (map_find m k)) map_insert.
End Map.

(** ExtendedMatrixIndexStorage, extended_matrix_indices.cpp:18-52.  The level is cast to symbol_name_t, a signed integer of 32 bits. *)
Definition to_symbol_name (x : Z) : Z := ((x + 2 ^ 31) mod 2 ^ 32 - 2 ^ 31)%Z.
Definition ext_index : Type := (Z * list Z).
Definition ext_at (t : itree Z) (k : ext_index) : option Z :=
  match t_find_node [to_symbol_name (fst k)] t with None => None | Some n => t_find (snd k) n end.
Definition ext_insert (t : itree Z) (k : ext_index) (o : Z) : itree Z * (Z * bool) :=
  let x := to_symbol_name (fst k) in
  (Node (t_id t) (t_value t) (with_child x (fun _ n => t_add_if_new false (snd k) o n) (t_children t)),
   t_add_if_new_result false (snd k) o (match child x (t_children t) with Some n => n | None => t_leaf x end)).
Definition extended_storage : storage ext_index :=
  mk_storage ext_index (itree Z) t_root (fun t k => match ext_at t k with Some o => o | None => (-1)%Z end)
    (fun t k => match ext_at t k with Some _ => true | None => false end) ext_insert.

(** * Orders *)
(** defaulted operator<=> of two members: nearest_neighbour_index.h:31, substituted_matrix_index.h:37 *)
Definition lex_pair {A B} (la : A -> A -> bool) (lb : B -> B -> bool) (x y : A * B) : bool :=
  if la (fst x) (fst y) then true else if la (fst y) (fst x) then false else lb (snd x) (snd y).
Definition nn_index : Type := (nat * nat).
Definition nn_less : nn_index -> nn_index -> bool := lex_pair Nat.ltb Nat.ltb.
Definition sub_index : Type := (Z * Z).
Definition sub_less : sub_index -> sub_index -> bool := lex_pair Z.ltb Z.ltb.
(** LocalizingMatrixIndex, localizing_matrix_index.h:24-54 and operator<, 42-52; WordHash is the hash of the word *)
Definition loc_index : Type := (nat * hseq).
Definition word_less (a b : hseq) : bool := N.ltb (hs_hash a) (hs_hash b).
Definition loc_less : loc_index -> loc_index -> bool := lex_pair Nat.ltb word_less.
(** PauliMonomialIndex::operator<, monomial_index.h:66-77 *)
Definition pauli_index : Type := (nn_index * hseq).
Definition pauli_less : pauli_index -> pauli_index -> bool := lex_pair nn_less word_less.
(** IndexPolyComparator, polynomial_index_storage.h:48-56, for levels and for nearest neighbour indices *)
Definition poly_index_less {R : rfield} (rcmp : R -> R -> Z) (lt : mono R -> mono R -> bool) : nat * list (mono R) -> nat * list (mono R) -> bool :=
  lex_pair Nat.ltb (poly_less (cmp_coefs rcmp lt)).
Definition nn_poly_less {R : rfield} (rcmp : R -> R -> Z) (lt : mono R -> mono R -> bool) : nn_index * list (mono R) -> nn_index * list (mono R) -> bool :=
  lex_pair nn_less (poly_less (cmp_coefs rcmp lt)).
