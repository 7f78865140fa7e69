(** The persistent object bank: utilities/persistent_storage.h. *)
From Coq Require Import List NArith Arith Bool.
From Verif Require Import LockModel.
Import ListNotations.

(** PersistentStorageBase::check_signature (68-71): upper 32 bits of the key *)
Definition check_signature (sig key : N) : bool := N.eqb (N.shiftr (N.land key (N.shiftl (N.ones 32) 32)) 32) sig.
(** PersistentStorage::get_index (167-169) *)
Definition get_index (key : N) : N := N.land key (N.ones 32).
(** PersistentStorage::sign_index (176-178); the overload of store for shared pointers adds instead (226) *)
Definition sign_index (sig id : N) : N := N.lor (N.shiftl sig 32) id.
Definition sign_index_add (sig id : N) : N := (N.shiftl sig 32 + id)%N.

Section Bank.
  Variable A : Type. (* what the pointers point to; a stored pointer is not null *)
  (** std::map<uint32_t, shared_ptr>: sorted by key; nextID (146-148) *)
  Record bank := mk_bank { bk_objs : list (N * A); bk_next : N }.
  Definition new_bank : bank := mk_bank [] 0.
  (** results of the public operations *)
  Inductive bank_out := BNone | BKey (k : N) | BFound (x : A) | BBadSignature | BNotFound | BItem (i : N) (x : option A) | BSize (n : nat) | BEmpty (b : bool).
  Inductive bank_op := Store (shared : bool) (x : A) | Get (k : N) | Release (k : N) | First | Next (i : N) | Size | Empty | Clear.

  (** std::map::emplace_hint: does nothing when the key is there *)
  Fixpoint emplace (i : N) (x : A) (m : list (N * A)) : list (N * A) :=
    match m with
    | [] => [(i, x)]
    | (j, y) :: m' => if N.ltb i j then (i, x) :: m else if N.eqb i j then m else (j, y) :: emplace i x m'
    end.
  (** std::map::find *)
  Definition lookup (i : N) (m : list (N * A)) : option A := option_map snd (find (fun e => N.eqb (fst e) i) m).
  (** std::map::erase of a found element *)
  Definition erase (i : N) (m : list (N * A)) : list (N * A) := filter (fun e => negb (N.eqb (fst e) i)) m.
  (** std::map::upper_bound *)
  Definition upper_bound (i : N) (m : list (N * A)) : option (N * A) := find (fun e => N.ltb i (fst e)) m.
  Definition item (o : option (N * A)) : bank_out := match o with Some (i, x) => BItem i (Some x) | None => BItem 4294967295 None end.

  (** findOrThrow (289-305) *)
  Definition find_or_throw (sig k : N) (b : bank) : bank_out :=
    if check_signature sig k then match lookup (get_index k) (bk_objs b) with Some x => BFound x | None => BNotFound end else BBadSignature.

  (** The operations, as the memory actions they perform while holding the lock (186-285).  The thread-local value is the result;
      store keeps its key there. *)
  Definition bank_steps (sig : N) (op : bank_op) : list (bank * bank_out -> bank * bank_out) :=
    match op with
    | Store shared x =>
        [fun s => (fst s, BKey ((if shared then sign_index_add else sign_index) sig (bk_next (fst s))));
         fun s => (mk_bank (emplace (bk_next (fst s)) x (bk_objs (fst s))) (bk_next (fst s)), snd s);
         fun s => (mk_bank (bk_objs (fst s)) ((bk_next (fst s) + 1) mod 2 ^ 32)%N, snd s)]
    | Get k => [fun s => (fst s, find_or_throw sig k (fst s))]
    | Release k =>
        [fun s => (fst s, find_or_throw sig k (fst s));
         fun s => match snd s with BFound _ => (mk_bank (erase (get_index k) (bk_objs (fst s))) (bk_next (fst s)), BNone) | _ => s end]
    | First => [fun s => (fst s, item (hd_error (bk_objs (fst s))))]
    | Next i => [fun s => (fst s, item (upper_bound i (bk_objs (fst s))))]
    | Size => [fun s => (fst s, BSize (length (bk_objs (fst s))))]
    | Empty => [fun s => (fst s, BEmpty (match bk_objs (fst s) with [] => true | _ => false end))]
    | Clear => [fun s => (mk_bank [] (bk_next (fst s)), snd s); fun s => (mk_bank (bk_objs (fst s)) 0, snd s)]
    end.
  (** which lock is taken: get, size and empty share it, all others (even first and next) own it *)
  Definition bank_excl (op : bank_op) : bool := match op with Get _ | Size | Empty => false | _ => true end.
  Definition bank_lop (sig : N) (op : bank_op) : lop bank bank_out := mk_lop (bank_excl op) (bank_steps sig op).

  (** one operation with nobody else about *)
  Definition bank_run1 (sig : N) (op : bank_op) (b : bank) : bank * bank_out := run_lop BNone (bank_lop sig op) b.
  (** a history: final bank and results *)
  Fixpoint bank_run (sig : N) (h : list bank_op) (b : bank) : bank * list bank_out :=
    match h with
    | [] => (b, [])
    | op :: h' => let r := bank_run1 sig op b in let r' := bank_run sig h' (fst r) in (fst r', snd r :: snd r')
    end.
  (** a loop over the bank with first() and next() until a null pointer is returned; [fuel] bounds the rounds *)
  Fixpoint bank_loop (fuel : nat) (b : bank) (o : bank_out) : option (list (N * A)) :=
    match o, fuel with
    | BItem _ None, _ => Some []
    | BItem i (Some x), S fuel' => option_map (cons (i, x)) (bank_loop fuel' b (snd (bank_run1 0 (Next i) b)))
    | _, _ => None
    end.
  (** a thread that performs a list of operations *)
  Fixpoint bank_thread (sig : N) (ops : list bank_op) : prog bank bank_out :=
    match ops with [] => PDone BNone | op :: ops' => POp (bank_lop sig op) (fun _ => bank_thread sig ops') end.

  (** PersistentStorageMonoid::create_if_empty (120-138): look under the shared lock; if there is nothing, look again under the
      exclusive lock and create [x].  The second component counts constructor calls. *)
  Definition monoid := (option A * nat)%type.
  Definition look : lop monoid (option A) := mk_lop false [fun s => (fst s, fst (fst s))].
  Definition look_and_create (x : A) : lop monoid (option A) :=
    mk_lop true [fun s => (fst s, fst (fst s));
                 fun s => match snd s with Some _ => s | None => ((Some x, S (snd (fst s))), snd s) end;
                 fun s => (fst s, fst (fst s))].
  Definition create_if_empty (x : A) : prog monoid (option A) :=
    POp look (fun r => match r with Some _ => PDone r | None => POp (look_and_create x) PDone end).
End Bank.
Arguments mk_bank {A}. Arguments bk_objs {A}. Arguments bk_next {A}. Arguments new_bank {A}. Arguments emplace {A}. Arguments lookup {A}. Arguments erase {A}.
Arguments BNone {A}. Arguments BKey {A}. Arguments BFound {A}. Arguments BBadSignature {A}. Arguments BNotFound {A}. Arguments BItem {A}. Arguments BSize {A}. Arguments BEmpty {A}.
Arguments Store {A}. Arguments Get {A}. Arguments Release {A}. Arguments First {A}. Arguments Next {A}. Arguments Size {A}. Arguments Empty {A}. Arguments Clear {A}.
Arguments upper_bound {A}. Arguments item {A}. Arguments find_or_throw {A}. Arguments bank_steps {A}. Arguments bank_excl {A}. Arguments bank_lop {A}.
Arguments bank_run1 {A}. Arguments bank_run {A}. Arguments bank_loop {A}. Arguments bank_thread {A}. Arguments look {A}. Arguments look_and_create {A}. Arguments create_if_empty {A}.
