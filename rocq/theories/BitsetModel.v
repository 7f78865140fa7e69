(** DynamicBitset, utilities/dynamic_bitset.h:24-393.  [W] is the number of bits of a page (page_t; 64 by default).  Pages are
    numbers below 2^W, sizes and indices natural numbers (index_t large enough). *)
From Coq Require Import List NArith Arith Bool.
Import ListNotations.

Section Bitset.
  Variable W : nat.
  (** bit_size and data, 84-92; page_count is the length of the data *)
  Record bitset := mk_bs { b_size : nat; b_pages : list N }.
  (** pages_required, 376-382 *)
  Definition pages_required (n : nat) : nat := if Nat.eqb (n mod W) 0 then n / W else n / W + 1.
  (** ~0 of page_t *)
  Definition all_ones : N := N.ones (N.of_nat W).
  (** make_final_mask, 384-390 *)
  Definition final_mask (n : nat) : N := if Nat.eqb (n mod W) 0 then all_ones else (N.shiftl 1 (N.of_nat (n mod W)) - 1)%N.
  (** constructor, 95-99 *)
  Definition bs_make (n : nat) : bitset := mk_bs n (repeat 0%N (pages_required n)).
  (** replaces page [p]; [data\[p\] = f(data\[p\])] *)
  Fixpoint page_map (p : nat) (f : N -> N) (l : list N) : list N :=
    match l, p with
    | [], _ => []
    | x :: l', O => f x :: l'
    | x :: l', S p' => x :: page_map p' f l'
    end.
  (** constructor with default value, 101-110; [None] = page_count - 1 underflows and memory outside the data is written *)
  Definition bs_make_all (n : nat) : option bitset :=
    match pages_required n with
    | O => None
    | S k => Some (mk_bs n (repeat all_ones k ++ [final_mask n]))
    end.
  (** page_t shifts drop the bits that leave the page *)
  Definition page (x : N) : N := N.land x all_ones.
  (** set, unset, clear, test, 121-141 *)
  Definition bs_set (b : bitset) (i : nat) : bitset := mk_bs (b_size b) (page_map (i / W) (fun x => N.lor x (page (N.shiftl 1 (N.of_nat (i mod W))))) (b_pages b)).
  Definition bs_unset (b : bitset) (i : nat) : bitset := mk_bs (b_size b) (page_map (i / W) (fun x => N.ldiff x (page (N.shiftl 1 (N.of_nat (i mod W))))) (b_pages b)).
  Definition bs_clear (b : bitset) : bitset := mk_bs (b_size b) (map (fun _ => 0%N) (b_pages b)).
  Definition bs_test (b : bitset) (i : nat) : bool := negb (N.eqb (N.land (nth (i / W) (b_pages b) 0%N) (page (N.shiftl 1 (N.of_nat (i mod W))))) 0).
  (** empty, 143-147 *)
  Definition bs_empty (b : bitset) : bool := forallb (fun x => N.eqb x 0) (b_pages b).
  (** std::popcount, std::countr_zero *)
  Definition popcount (x : N) : nat := length (filter (fun i => N.testbit x (N.of_nat i)) (seq 0 W)).
  Definition countr_zero (x : N) : nat := match find (fun i => N.testbit x (N.of_nat i)) (seq 0 W) with Some i => i | None => W end.
  (** count, 149-153 *)
  Definition bs_count (b : bitset) : nat := fold_left (fun s x => s + popcount x) (b_pages b) 0.
  (** first_index, 155-166 *)
  Fixpoint first_loop (first : nat) (l : list N) (size : nat) : nat :=
    match l with
    | [] => size
    | x :: l' => let first' := first + countr_zero x in if Nat.eqb (countr_zero x) W then first_loop first' l' size else first'
    end.
  Definition bs_first (b : bitset) : nat := first_loop 0 (b_pages b) (b_size b).
  (** operator==, 202-211: both have as many pages *)
  Fixpoint pages_eqb (l l' : list N) : bool :=
    match l, l' with x :: l1, y :: l2 => N.eqb x y && pages_eqb l1 l2 | _, _ => true end.
  Definition bs_eqb (a b : bitset) : bool := pages_eqb (b_pages a) (b_pages b).
  (** iteration, 29-59, 168-185: from a copy of the bitset until it equals the empty bitset; [None] = out of fuel *)
  Fixpoint bs_iterate (fuel : nat) (cursor : bitset) : option (list nat) :=
    match fuel with
    | O => None
    | S fuel' =>
        if bs_eqb cursor (bs_make (b_size cursor)) then Some []
        else let i := bs_first cursor in option_map (cons i) (bs_iterate fuel' (bs_unset cursor i))
    end.
  (** &=, |=, 219-249: operands of equal size *)
  Fixpoint pages_with (f : N -> N -> N) (l l' : list N) : list N :=
    match l, l' with x :: l1, y :: l2 => f x y :: pages_with f l1 l2 | _, _ => l end.
  Definition bs_and (a b : bitset) : bitset := mk_bs (b_size a) (pages_with N.land (b_pages a) (b_pages b)).
  Definition bs_or (a b : bitset) : bitset := mk_bs (b_size a) (pages_with N.lor (b_pages a) (b_pages b)).
  (** invert_in_place, 251-264 *)
  Definition page_not (x : N) : N := N.lxor x all_ones.
  Fixpoint invert_pages (mask : N) (l : list N) : list N :=
    match l with [] => [] | [x] => [N.land (page_not x) mask] | x :: l' => page_not x :: invert_pages mask l' end.
  Definition bs_invert (b : bitset) : bitset := mk_bs (b_size b) (invert_pages (final_mask (b_size b)) (b_pages b)).
  (** operator~, 269-276; [None] as in [bs_make_all] *)
  Definition bs_not (b : bitset) : option bitset :=
    match b_pages b with [] => None | l => Some (mk_bs (b_size b) (invert_pages (final_mask (b_size b)) l)) end.
  (** subset, 281-330.  Pages beyond the end are never used when the asserted bounds hold; [nth] gives 0 there. *)
  Definition pg (b : bitset) (p : nat) : N := nth p (b_pages b) 0%N.
  Fixpoint mask_last (mask : N) (l : list N) : list N :=
    match l with [] => [] | [x] => [N.land x mask] | x :: l' => x :: mask_last mask l' end.
  Definition bs_subset (b : bitset) (first len : nat) : bitset :=
    if Nat.eqb len 0 then bs_make len
    else
      let n := pages_required len in
      let first_page := first / W in
      let offset := first mod W in
      let last := first + len in
      let last_page := last / W in
      let joined p := N.lor (N.shiftr (pg b (first_page + p)) (N.of_nat offset)) (page (N.shiftl (pg b (first_page + p + 1)) (N.of_nat (W - offset)))) in
      if Nat.eqb offset 0 then
        let copied := map (fun p => pg b (first_page + p)) (seq 0 (last_page - first_page)) in
        mk_bs len (if Nat.eqb (last mod W) 0 then copied else copied ++ [N.land (pg b last_page) (final_mask len)])
      else if Nat.ltb (first_page + n) (length (b_pages b)) then mk_bs len (mask_last (final_mask len) (map joined (seq 0 n)))
      else mk_bs len (map joined (seq 0 (n - 1)) ++ [N.land (N.shiftr (pg b (first_page + n - 1)) (N.of_nat offset)) (final_mask len)]).
  (** small_subset, 336-364 *)
  Definition bs_small_subset (b : bitset) (first len : nat) : N :=
    if Nat.eqb len 0 then 0%N
    else
      let p := first / W in
      let offset := first mod W in
      let mask := final_mask len in
      if Nat.eqb offset 0 then N.land (pg b p) mask
      else if Nat.leb (offset + len) W then N.land (N.shiftr (pg b p) (N.of_nat offset)) mask
      else N.land (N.lor (N.shiftr (pg b p) (N.of_nat offset)) (page (N.shiftl (pg b (p + 1)) (N.of_nat (W - offset))))) mask.

  (** everything a program can build *)
  Inductive bexp :=
  | EMake (n : nat) | EAll (n : nat) | ESet (e : bexp) (i : nat) | EUnset (e : bexp) (i : nat) | EClear (e : bexp)
  | EAnd (a b : bexp) | EOr (a b : bexp) | EInvert (e : bexp) | ENot (e : bexp) | ESubset (e : bexp) (first len : nat).
  Definition obind {A B} (o : option A) (f : A -> option B) : option B := match o with Some x => f x | None => None end.
  Fixpoint bs_eval (e : bexp) : option bitset :=
    match e with
    | EMake n => Some (bs_make n)
    | EAll n => bs_make_all n
    | ESet e i => option_map (fun b => bs_set b i) (bs_eval e)
    | EUnset e i => option_map (fun b => bs_unset b i) (bs_eval e)
    | EClear e => option_map bs_clear (bs_eval e)
    | EAnd a b => obind (bs_eval a) (fun x => option_map (bs_and x) (bs_eval b))
    | EOr a b => obind (bs_eval a) (fun x => option_map (bs_or x) (bs_eval b))
    | EInvert e => option_map bs_invert (bs_eval e)
    | ENot e => obind (bs_eval e) bs_not
    | ESubset e first len => option_map (fun b => bs_subset b first len) (bs_eval e)
    end.
End Bitset.
