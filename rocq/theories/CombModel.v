(** Model of utilities/combinations.h, utilities/ordered_permutation.h and utilities/triangular_index_iterator.h: iterators
    over subsets, multisets and two-part partitions of {0, ..., N-1}.  Index lists are lists of [nat]. *)
From Coq Require Import List NArith Arith Bool.
From Verif Require Import AlgModel EnumModel.
Import ListNotations.

(** * combinations.h *)
(** combinations<size_t>(N, K), 24-35.  The products wrap modulo 2^64; [None] is a division by zero (undefined behaviour).
    Called with K <= N; the loop 27-29 has K rounds, the loop 31-33 has K rounds. *)
Definition word64 : N := 18446744073709551616%N.
Fixpoint wrap_product (first : N) (count : nat) (acc : N) : N :=
  match count with
  | O => acc
  | S c => wrap_product (first + 1) c ((acc * first) mod word64)%N
  end.
Definition combinations (n k : nat) : option N :=
  let numerator := wrap_product (N.of_nat (n - k + 1)) k 1 in
  let denominator := wrap_product 1 k 1 in
  if N.eqb denominator 0 then None else Some (numerator / denominator)%N.

(** CombinationIndexIteratorBase<inclusive>, fields 42-52 *)
Record comb := mk_comb { cb_n : nat; cb_k : nat; cb_indices : list nat; cb_end : bool }.
(** constructor, 58-71 *)
Definition comb_start (inclusive : bool) (n k : nat) : comb :=
  mk_comb n k (if inclusive then repeat 0 k else seq 0 k) false.
(** incIndexExclusive(J), 161-173: [x] is indices[J..K-1]; the flag is endState *)
Fixpoint inc_exclusive (n j : nat) (x : list nat) : list nat * bool :=
  match x with
  | [] => ([], false)
  | a :: x' =>
      match x' with
      | [] => ([S a], Nat.leb n (S a))
      | b :: _ => if Nat.leb b (S a) then let (y, e) := inc_exclusive n (S j) x' in (j :: y, e) else (S a :: x', false)
      end
  end.
(** incIndexInclusive(J), 146-159: [x] is indices[J], indices[J-1], ..., indices[0] *)
Fixpoint inc_inclusive (n : nat) (x : list nat) : list nat * bool :=
  match x with
  | [] => ([], false)
  | a :: x' =>
      match x' with
      | [] => ([S a], Nat.leb n (S a))
      | _ => if Nat.leb n (S a) then let (y, e) := inc_inclusive n x' in (hd 0 y :: y, e) else (S a :: x', false)
      end
  end.
(** operator++, 78-96 *)
Definition comb_step (inclusive : bool) (it : comb) : res comb :=
  if Nat.eqb (cb_k it) 0 then Ret (mk_comb (cb_n it) (cb_k it) (cb_indices it) true)
  else if inclusive then
    let (y, e) := inc_inclusive (cb_n it) (rev (cb_indices it)) in Ret (mk_comb (cb_n it) (cb_k it) (rev y) e)
  else
    let (y, e) := inc_exclusive (cb_n it) 0 (cb_indices it) in Ret (mk_comb (cb_n it) (cb_k it) y e).
Definition comb_run (inclusive : bool) (fuel n k : nat) : res (list (list nat)) :=
  run_iter fuel cb_end cb_indices (comb_step inclusive) (comb_start inclusive n k).
(** combination_count, 141-143 (the same for both kinds of iterator) *)
Definition combination_count (it : comb) : option N := combinations (cb_n it) (cb_k it).

(** PartitionIterator, fields 181-192 *)
Record parts := mk_parts { pt_primary : comb; pt_complement : list nat; pt_bits : list bool; pt_done : bool }.
(** constructor, 195-206 *)
Definition parts_start (n k : nat) : parts :=
  mk_parts (comb_start false n k) (seq k (n - k)) (repeat true k ++ repeat false (n - k)) false.
(** the loop 250-271 from index [i], [left] indices to go: [prim] is what is left of the primary indices, [room] the number of
    complement entries not yet written.  Returns the complement entries written and the bits [i..N-1]. *)
Fixpoint parts_scan (i left room : nat) (prim : list nat) : list nat * list bool :=
  match left with
  | O => ([], [])
  | S left' =>
      match room with
      | O => ([], repeat true left)
      | S room' =>
          match prim with
          | [] => let (c, b) := parts_scan (S i) left' room' prim in (i :: c, false :: b)
          | p :: prim' =>
              if Nat.eqb p i then let (c, b) := parts_scan (S i) left' room prim' in (c, true :: b)
              else let (c, b) := parts_scan (S i) left' room' prim in (i :: c, false :: b)
          end
      end
  end.
(** operator++, 235-274.  Complement entries that the loop does not reach keep their old value. *)
Definition parts_step (it : parts) : res parts :=
  bind (comb_step false (pt_primary it)) (fun prim =>
  if cb_end prim then Ret (mk_parts prim (pt_complement it) (pt_bits it) true)
  else
    let (c, b) := parts_scan 0 (cb_n prim) (length (pt_complement it)) (cb_indices prim) in
    Ret (mk_parts prim (c ++ skipn (length c) (pt_complement it)) b false)).
(** primary() and complement() (operator* 231-233) and bits() at each position *)
Definition parts_current (it : parts) : list nat * list nat * list bool :=
  (cb_indices (pt_primary it), pt_complement it, pt_bits it).
Definition parts_run (fuel n k : nat) : res (list (list nat * list nat * list bool)) :=
  run_iter fuel pt_done parts_current parts_step (parts_start n k).

(** * Right-to-left carry shared by OrderedPermutationIterator::inc_index (ordered_permutation.h 118-132) and
    TriangularIndexIterator::operator++ (triangular_index_iterator.h 75-89 and 101-116): [x] is indices[d], ..., indices[0];
    the index at depth [d] is increased; if it reaches [lim d] the loop moves one to the left.  [None]: index 0 reached its
    limit (end state).  Otherwise what is left of the list, with its head increased. *)
Fixpoint climb (lim : nat -> nat) (x : list nat) : option (list nat) :=
  match x with
  | [] => None
  | a :: x' => if Nat.leb (lim (length x')) (S a) then climb lim x' else Some (S a :: x')
  end.

(** OrderedPermutationIterator, ordered_permutation.h: constructor 36-42, inc_index 109-142.  The fill loop 134-138 copies
    indices[cursor] to all entries on its right. *)
Record operm := mk_operm { op_n : nat; op_k : nat; op_indices : list nat; op_end : bool }.
Definition operm_start (n k : nat) : operm := mk_operm n k (repeat 0 k) false.
Definition operm_step (it : operm) : res operm :=
  if Nat.eqb (op_k it) 0 then Ret (mk_operm (op_n it) (op_k it) (op_indices it) true)
  else match climb (fun _ => op_n it) (rev (op_indices it)) with
       | None => Ret (mk_operm (op_n it) (op_k it) (op_indices it) true)
       | Some y => Ret (mk_operm (op_n it) (op_k it) (rev y ++ repeat (hd 0 y) (length (op_indices it) - length y)) false)
       end.
Definition operm_run (fuel n k : nat) : res (list (list nat)) := run_iter fuel op_end op_indices operm_step (operm_start n k).

(** TriangularIndexIterator<allow_duplicates>: constructor 46-69; ipow is exact here (its wrap-around is in UtilModel) *)
Record tri := mk_tri { tr_max : nat; tr_len : nat; tr_global : nat; tr_indices : list nat; tr_done : bool }.
Definition tri_start (dup : bool) (max len : nat) : tri :=
  let dn := Nat.eqb len 0 || Nat.eqb max 0 || (negb dup && Nat.ltb max len) in
  mk_tri max len (if dn then max ^ len else 0) (if dn then repeat 0 len else if dup then repeat 0 len else seq 0 len) dn.
(** operator++, 71-130.  Entries are left past their limits in the end state; here they keep their last value. *)
Definition tri_step (dup : bool) (it : tri) : res tri :=
  let lim := if dup then (fun _ => tr_max it) else (fun depth => 1 + tr_max it + depth - tr_len it) in
  match climb lim (rev (tr_indices it)) with
  | None => Ret (mk_tri (tr_max it) (tr_len it) (S (tr_global it)) (tr_indices it) true)
  | Some y =>
      let rest := tr_len it - length y in
      Ret (mk_tri (tr_max it) (tr_len it) (S (tr_global it))
             (rev y ++ if dup then repeat (hd 0 y) rest else seq (hd 0 y + 1) rest) false)
  end.
Definition tri_run (dup : bool) (fuel max len : nat) : res (list (list nat)) :=
  run_iter fuel tr_done tr_indices (tri_step dup) (tri_start dup max len).
