(** SmallVector, utilities/small_vector.h:20-616: a vector whose elements are kept in the object while there are at most [N], and on the heap
    otherwise.  Memory is a list of cells, [None] = not initialised (cells may be copied without being read); reads and writes out of bounds are
    undefined behaviour, shown as the result [None].  Element types are trivially copyable, as the class requires. *)
From Coq Require Import List Arith Bool.
Import ListNotations.

Section SmallVec.
  Variable V : Type.
  (** value_t{}: what std::make_unique<value_t[]> puts in new heap memory *)
  Variable dflt : V.
  Variable N : nat.
  Notation cells := (list (option V)).
  (** 63-71; [v_on_heap] tells where data_start points *)
  Record svec := mk_sv { v_heap : option cells; v_stack : cells; v_size : nat; v_cap : nat; v_on_heap : bool }.
  Definition obnd {A B} (o : option A) (f : A -> option B) : option B := match o with Some x => f x | None => None end.
  (** memory: reading [a, b), writing from [off] *)
  Definition slice (a b : nat) (m : cells) : option cells := if Nat.leb a b && Nat.leb b (length m) then Some (firstn (b - a) (skipn a m)) else None.
  Definition blit (src : cells) (off : nat) (m : cells) : option cells :=
    if Nat.leb (off + length src) (length m) then Some (firstn off m ++ src ++ skipn (off + length src) m) else None.
  Definition v_data (v : svec) : option cells := if v_on_heap v then v_heap v else Some (v_stack v).
  Definition with_data (v : svec) (m : cells) : svec :=
    if v_on_heap v then mk_sv (Some m) (v_stack v) (v_size v) (v_cap v) true else mk_sv (v_heap v) m (v_size v) (v_cap v) false.
  Definition with_size (v : svec) (n : nat) : svec := mk_sv (v_heap v) (v_stack v) n (v_cap v) (v_on_heap v).
  (** suggest_capacity, 577-579: std::bit_ceil *)
  Definition suggest (n : nat) : nat := 2 ^ Nat.log2_up n.
  Definition new_heap (n : nat) : cells := repeat (Some dflt) n.
  Definition new_stack : cells := repeat None N.
  (** constructors, 77, 170-228 *)
  Definition sv_new : svec := mk_sv None new_stack 0 N false.
  Definition sv_of_list (l : list V) : option svec :=
    if Nat.leb (length l) N then option_map (fun s => mk_sv None s (length l) N false) (blit (map Some l) 0 new_stack)
    else let cap := suggest (length l) in option_map (fun h => mk_sv (Some h) new_stack (length l) cap true) (blit (map Some l) 0 (new_heap cap)).
  Definition sv_fill (n : nat) (x : V) : option svec := sv_of_list (repeat x n).
  (** copy constructor, 83-92 *)
  Definition sv_copy (r : svec) : option svec :=
    match v_heap r with
    | Some h => obnd (slice 0 (v_size r) h) (fun d => option_map (fun h' => mk_sv (Some h') new_stack (v_size r) (v_cap r) true) (blit d 0 (new_heap (v_cap r))))
    | None => obnd (slice 0 (v_size r) (v_stack r)) (fun d => option_map (fun s => mk_sv None s (v_size r) (v_cap r) false) (blit d 0 new_stack))
    end.
  (** copy assignment, 98-114, to another vector *)
  Definition sv_assign (v r : svec) : option svec :=
    match v_heap r with
    | Some h => obnd (slice 0 (v_size r) h) (fun d => option_map (fun h' => mk_sv (Some h') (v_stack v) (v_size r) (v_cap r) true) (blit d 0 (new_heap (v_cap r))))
    | None => obnd (slice 0 (v_size r) (v_stack r)) (fun d => option_map (fun s => mk_sv None s (v_size r) (v_cap r) false) (blit d 0 (v_stack v)))
    end.
  (** move constructor, 120-136: the new vector and the source afterwards *)
  Definition moved_from (r : svec) : svec := mk_sv None (v_stack r) 0 N false.
  Definition sv_move (r : svec) : option (svec * svec) :=
    match v_heap r with
    | Some h => Some (mk_sv (Some h) new_stack (v_size r) (v_cap r) true, moved_from r)
    | None => obnd (slice 0 (v_size r) (v_stack r)) (fun d => option_map (fun s => (mk_sv None s (v_size r) (v_cap r) false, r)) (blit d 0 new_stack))
    end.
  (** move assignment, 142-167 *)
  Definition sv_move_assign (v r : svec) : option (svec * svec) :=
    match v_heap r with
    | Some h => Some (mk_sv (Some h) (v_stack v) (v_size r) (v_cap r) true, moved_from r)
    | None => obnd (slice 0 (v_size r) (v_stack r)) (fun d => option_map (fun s => (mk_sv None s (v_size r) N false, r)) (blit d 0 (v_stack v)))
    end.
  (** reallocate, 581-611 *)
  Definition sv_reallocate (v : svec) (required : nat) : option svec :=
    let cap := suggest required in
    match v_heap v with
    | Some h => obnd (slice 0 (v_cap v) h) (fun d => option_map (fun h' => mk_sv (Some h') (v_stack v) (v_size v) cap true) (blit d 0 (new_heap cap)))
    | None => option_map (fun h' => mk_sv (Some h') (v_stack v) (v_size v) cap true) (blit (v_stack v) 0 (new_heap cap))
    end.
  (** push_back, 299-309; emplace_back, 322-337 *)
  Definition sv_push (v : svec) (x : V) : option svec :=
    obnd (if Nat.leb (v_cap v) (v_size v) then sv_reallocate v (v_size v + 1) else Some v)
      (fun v1 => obnd (v_data v1) (fun m => option_map (fun m' => with_size (with_data v1 m') (v_size v1 + 1)) (blit [Some x] (v_size v1) m))).
  (** emplace_back(v\[k\]): the argument refers to an element; a reallocation from heap to heap frees it before it is read *)
  Definition sv_emplace_own (v : svec) (k : nat) : option svec :=
    if Nat.leb (v_cap v) (v_size v) && v_on_heap v then None
    else obnd (v_data v) (fun m => match nth_error m k with Some (Some x) => sv_push v x | _ => None end).
  (** pop_back, 314-317; clear, 273-275; reserve, 462-467 *)
  Definition sv_pop (v : svec) : svec := with_size v (v_size v - 1).
  Definition sv_clear (v : svec) : svec := with_size v 0.
  Definition sv_reserve (v : svec) (n : nat) : option svec := if Nat.ltb (v_cap v) n then sv_reallocate v n else Some v.
  (** operator\[\], 245-254: reading and assigning *)
  Definition sv_get (v : svec) (k : nat) : option V := obnd (v_data v) (fun m => match nth_error m k with Some (Some x) => Some x | _ => None end).
  Definition sv_set (v : svec) (k : nat) (x : V) : option svec := obnd (v_data v) (fun m => option_map (with_data v) (blit [Some x] k m)).
  (** front, back, 473-503 *)
  Definition sv_front (v : svec) : option V := sv_get v 0.
  Definition sv_back (v : svec) : option V := sv_get v (v_size v - 1).
  (** insert, 342-377; the range is not part of the vector *)
  Definition sv_insert (v : svec) (pos : nat) (l : list V) : option svec :=
    let n := length l in
    obnd (v_data v) (fun m =>
      if Nat.leb (v_size v + n) (v_cap v) then
        obnd (if Nat.eqb pos (v_size v) then Some m else obnd (slice pos (v_size v) m) (fun tail => blit tail (pos + n) m))
          (fun m1 => option_map (fun m2 => with_size (with_data v m2) (v_size v + n)) (blit (map Some l) pos m1))
      else
        let cap := suggest (v_size v + n) in
        obnd (slice 0 pos m) (fun before => obnd (blit before 0 (new_heap cap)) (fun h1 => obnd (blit (map Some l) pos h1) (fun h2 =>
          option_map (fun h3 => mk_sv (Some h3) (v_stack v) (v_size v + n) cap true)
            (if Nat.eqb pos (v_size v) then Some h2 else obnd (slice pos (v_size v) m) (fun tail => blit tail (pos + n) h2)))))).
  (** erase, 383-388 *)
  Definition sv_erase (v : svec) (a b : nat) : option svec :=
    obnd (v_data v) (fun m => obnd (slice b (v_size v) m) (fun tail => option_map (fun m' => with_size (with_data v m') (v_size v - (b - a))) (blit tail a m))).
  (** swap of two distinct vectors, 511-548 *)
  Definition sv_swap (v r : svec) : option (svec * svec) :=
    match v_heap v, v_heap r with
    | Some h, Some h' =>
        Some (mk_sv (Some h') (v_stack v) (v_size r) (v_cap r) (v_on_heap r), mk_sv (Some h) (v_stack r) (v_size v) (v_cap v) (v_on_heap v))
    | Some h, None =>
        obnd (slice 0 (v_size r) (v_stack r)) (fun d => option_map (fun s =>
          (mk_sv None s (v_size r) (v_cap r) false, mk_sv (Some h) (v_stack r) (v_size v) (v_cap v) true)) (blit d 0 (v_stack v)))
    | None, Some h' =>
        obnd (slice 0 (v_size v) (v_stack v)) (fun d => option_map (fun s =>
          (mk_sv (Some h') (v_stack v) (v_size r) (v_cap r) true, mk_sv None s (v_size v) (v_cap v) false)) (blit d 0 (v_stack r)))
    | None, None =>
        let common := Nat.min (v_size v) (v_size r) in
        obnd (slice 0 common (v_stack v)) (fun dv => obnd (slice 0 common (v_stack r)) (fun dr =>
        obnd (blit dr 0 (v_stack v)) (fun sv1 => obnd (blit dv 0 (v_stack r)) (fun sr1 =>
        let done sv2 sr2 := (mk_sv None sv2 (v_size r) (v_cap r) (v_on_heap v), mk_sv None sr2 (v_size v) (v_cap v) (v_on_heap r)) in
        if Nat.ltb common (v_size v) then obnd (slice common (v_size v) sv1) (fun t => option_map (done sv1) (blit t common sr1))
        else if Nat.ltb common (v_size r) then obnd (slice common (v_size r) sr1) (fun t => option_map (fun s => done s sr1) (blit t common sv1))
        else Some (done sv1 sr1)))))
    end.
  (** iteration from begin() to end(), 393-430, also as a span, 560-569; operator==, 573-575 *)
  Fixpoint all_some (m : cells) : option (list V) :=
    match m with [] => Some [] | Some x :: m' => option_map (cons x) (all_some m') | None :: _ => None end.
  Definition sv_contents (v : svec) : option (list V) := obnd (v_data v) (fun m => obnd (slice 0 (v_size v) m) all_some).
  (** reverse iteration, 37-61, 435-458: from the last element down to before the first *)
  Fixpoint rev_loop (m : cells) (k : nat) : option (list V) :=
    match k with O => Some [] | S k' => match nth_error m k' with Some (Some x) => option_map (cons x) (rev_loop m k') | _ => None end end.
  Definition sv_reversed (v : svec) : option (list V) := obnd (v_data v) (fun m => rev_loop m (v_size v)).

  (** a program's vectors and what it does with them *)
  Inductive sv_op :=
  | VNew | VOfList (l : list V) | VFill (n : nat) (x : V) | VCopy (i : nat) | VMove (i : nat)
  | VAssign (i j : nat) | VMoveAssign (i j : nat) | VSwap (i j : nat)
  | VPush (i : nat) (x : V) | VEmplaceOwn (i k : nat) | VPop (i : nat) | VClear (i : nat) | VReserve (i n : nat)
  | VSet (i k : nat) (x : V) | VInsert (i pos : nat) (l : list V) | VErase (i a b : nat).
  Fixpoint upd {A} (i : nat) (x : A) (l : list A) : list A :=
    match l, i with [] , _ => [] | _ :: l', O => x :: l' | y :: l', S i' => y :: upd i' x l' end.
  Definition on1 (s : list svec) (i : nat) (f : svec -> option svec) : option (list svec) :=
    obnd (nth_error s i) (fun v => option_map (fun v' => upd i v' s) (f v)).
  Definition on2 (s : list svec) (i j : nat) (f : svec -> svec -> option (svec * svec)) : option (list svec) :=
    obnd (nth_error s i) (fun v => obnd (nth_error s j) (fun r => option_map (fun x => upd i (fst x) (upd j (snd x) s)) (f v r))).
  Definition sv_step (s : list svec) (o : sv_op) : option (list svec) :=
    match o with
    | VNew => Some (s ++ [sv_new])
    | VOfList l => option_map (fun v => s ++ [v]) (sv_of_list l)
    | VFill n x => option_map (fun v => s ++ [v]) (sv_fill n x)
    | VCopy i => obnd (nth_error s i) (fun r => option_map (fun v => s ++ [v]) (sv_copy r))
    | VMove i => obnd (nth_error s i) (fun r => option_map (fun x => upd i (snd x) s ++ [fst x]) (sv_move r))
    | VAssign i j => if Nat.eqb i j then Some s else obnd (nth_error s j) (fun r => on1 s i (fun v => sv_assign v r))
    | VMoveAssign i j => on2 s i j sv_move_assign
    | VSwap i j => on2 s i j sv_swap
    | VPush i x => on1 s i (fun v => sv_push v x)
    | VEmplaceOwn i k => on1 s i (fun v => sv_emplace_own v k)
    | VPop i => on1 s i (fun v => Some (sv_pop v))
    | VClear i => on1 s i (fun v => Some (sv_clear v))
    | VReserve i n => on1 s i (fun v => sv_reserve v n)
    | VSet i k x => on1 s i (fun v => sv_set v k x)
    | VInsert i pos l => on1 s i (fun v => sv_insert v pos l)
    | VErase i a b => on1 s i (fun v => sv_erase v a b)
    end.
  Fixpoint sv_run (s : list svec) (os : list sv_op) : option (list svec) :=
    match os with [] => Some s | o :: os' => obnd (sv_step s o) (fun s' => sv_run s' os') end.
End SmallVec.
Arguments mk_sv {V}. Arguments v_heap {V}. Arguments v_stack {V}. Arguments v_size {V}. Arguments v_cap {V}. Arguments v_on_heap {V}.
Arguments slice {V}. Arguments blit {V}. Arguments v_data {V}. Arguments with_data {V}. Arguments with_size {V}. Arguments all_some {V}. Arguments rev_loop {V}.
Arguments sv_contents {V}. Arguments sv_reversed {V}. Arguments sv_get {V}. Arguments sv_front {V}. Arguments sv_back {V}.
Arguments VNew {V}. Arguments VOfList {V}. Arguments VFill {V}. Arguments VCopy {V}. Arguments VMove {V}. Arguments VAssign {V}. Arguments VMoveAssign {V}.
Arguments VSwap {V}. Arguments VPush {V}. Arguments VEmplaceOwn {V}. Arguments VPop {V}. Arguments VClear {V}. Arguments VReserve {V}. Arguments VSet {V}.
Arguments VInsert {V}. Arguments VErase {V}.
