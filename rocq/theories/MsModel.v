(** The matrix system: matrices held in one list, found or created through indices, under one read/write lock.

    matrix_system/matrix_system.cpp:57-107 (access, appending, deletion), 110-165 (creation), matrix_system/matrix_indices.h:94-250
    (find-or-create), matrix_system/standard_matrix_indices.cpp:20-97 (factories), matrix_system/index_storage/vector_index_storage.h and
    map_index_storage.h, polynomial_index_storage.h (the indices themselves), matrix/composite_matrix.h:187-217 (matrices of polynomials),
    matrix_system/rulebook_storage.cpp:22-117, scenarios/pauli/pauli_matrix_system.cpp:70-135, 185-275 and
    scenarios/derived/derived_matrix_system.cpp:243-276 (aliases).

    Simplifications: what the generation of one matrix does to the symbol table, the dictionaries, the base system of a derived system
    and the rulebooks' expansions is one abstract function of an abstract "rest of the system" [T], which may throw ([None]); whether
    a found matrix has the static type the caller wants (dynamic_cast) is not modelled; nor are commutator matrices (whose indices are
    those of localizing matrices again). *)
From Coq Require Import List Arith ZArith Bool.
From Verif Require Import LockModel.
Import ListNotations.

(** ** Index storage *)
(** vector_index_storage.h:35-40 (find), 49-62 (insert): the offset now stored, and whether it was inserted *)
Definition vfind (v : list Z) (i : nat) : Z := if length v <=? i then (-1)%Z else nth i v (-1)%Z.
Fixpoint vset (v : list Z) (i : nat) (o : Z) : list Z :=
  match v, i with [], _ => [] | _ :: v', 0 => o :: v' | x :: v', S i' => x :: vset v' i' o end.
Definition vinsert (v : list Z) (i : nat) (o : Z) : list Z * (Z * bool) :=
  if length v <=? i then (v ++ repeat (-1)%Z (i - length v) ++ [o], (o, true))
  else if (nth i v (-1) =? -1)%Z then (vset v i o, (o, true)) else (v, (nth i v (-1)%Z, false)).
(** map_index_storage.h:27-41, polynomial_index_storage.h:92-118: std::map, keys compared up to the equivalence of the map's ordering *)
Definition afind {K : Type} (eqb : K -> K -> bool) (m : list (K * Z)) (k : K) : Z :=
  match find (fun e => eqb (fst e) k) m with Some e => snd e | None => (-1)%Z end.
Definition ainsert {K : Type} (eqb : K -> K -> bool) (m : list (K * Z)) (k : K) (o : Z) : list (K * Z) * (Z * bool) :=
  match find (fun e => eqb (fst e) k) m with Some e => (m, (snd e, false)) | None => (m ++ [(k, o)], (o, true)) end.

Section Ms.
  Context {T M P C B : Type}.
  (** What can be asked for: moment matrices by level; localizing matrices by level and word, or by level and polynomial; matrices
      rewritten by a rulebook; for Pauli scenarios, the first three restricted to nearest neighbours (0 = unrestricted); for derived
      systems, the image of the matrix at an offset of the base system. *)
  Inductive key :=
  | KMoment (l : nat) | KLoc (l : nat) (w : list nat) | KPoly (l : nat) (p : P) | KSub (s r : nat)
  | KNNMoment (l n : nat) | KNNLoc (l n : nat) (w : list nat) | KNNPoly (l n : nat) (p : P) | KDer (o : nat).
  Inductive syskind := Plain | Pauli | Derived.
  (** The rest of the library, as far as the matrix system calls it *)
  Record menv := mk_menv {
    e_kind : syskind;
    e_ndebug : bool;                                               (** compiled without asserts *)
    e_mk : T -> key -> T * option M;                               (** create_moment_matrix, create_localizing_matrix, ... *)
    e_monos : T -> P -> list (list nat * C);                       (** the words and factors of a polynomial (PolynomialIndexBase::MonomialIndices) *)
    e_compose : T -> nat -> nat -> list (M * C) -> T * option M;   (** CompositeMatrix: the weighted sum *)
    e_subst : T -> M -> B -> T * option M;                         (** MomentRulebook::create_substituted_matrix *)
    e_peq : P -> P -> bool;                                        (** equivalent polynomials (PolynomialOrderingWithCoefficients) *)
    e_base : T -> key -> Z;                                        (** derived systems: find_index in the base system *)
    e_name : nat -> B -> B;                                        (** a rulebook without a name gets "Rulebook #i" *)
    e_added : T -> nat -> B -> bool -> T * option B;               (** on_rulebook_added, which may extend the rulebook *)
    e_merge : B -> B -> B * bool                                   (** combine_and_complete; false: it threw *)
  }.
  Variable E : menv.
  Record mstate := mk_ms {
    ms_mats : list (option M);
    ix_mm : list Z; ix_loc : list ((nat * list nat) * Z); ix_poly : list ((nat * P) * Z); ix_sub : list ((nat * nat) * Z);
    ix_nnmm : list ((nat * nat) * Z); ix_nnloc : list ((nat * nat * list nat) * Z); ix_nnpoly : list ((nat * nat * P) * Z);
    ix_der : list Z;
    ms_books : list (option B);
    ms_t : T }.
  Definition empty_system (t : T) : mstate := mk_ms [] [] [] [] [] [] [] [] [] [] t.
  Definition set_mats x s := mk_ms x (ix_mm s) (ix_loc s) (ix_poly s) (ix_sub s) (ix_nnmm s) (ix_nnloc s) (ix_nnpoly s) (ix_der s) (ms_books s) (ms_t s).
  Definition set_t x s := mk_ms (ms_mats s) (ix_mm s) (ix_loc s) (ix_poly s) (ix_sub s) (ix_nnmm s) (ix_nnloc s) (ix_nnpoly s) (ix_der s) (ms_books s) x.
  Definition set_books x s := mk_ms (ms_mats s) (ix_mm s) (ix_loc s) (ix_poly s) (ix_sub s) (ix_nnmm s) (ix_nnloc s) (ix_nnpoly s) (ix_der s) x (ms_t s).

  (** Which map each kind of key goes to: standard_matrix_indices.h:59, 84, 110, 137, pauli_index_collections.h:53, 82, 173, derived_matrix_indices.h:64 *)
  Definition weqb (u v : list nat) : bool := if list_eq_dec Nat.eq_dec u v then true else false.
  Definition loc_eqb (x y : nat * list nat) : bool := (fst x =? fst y) && weqb (snd x) (snd y).
  Definition poly_eqb (x y : nat * P) : bool := (fst x =? fst y) && e_peq E (snd x) (snd y).
  Definition two_eqb (x y : nat * nat) : bool := (fst x =? fst y) && (snd x =? snd y).
  Definition nnloc_eqb (x y : nat * nat * list nat) : bool := two_eqb (fst x) (fst y) && weqb (snd x) (snd y).
  Definition nnpoly_eqb (x y : nat * nat * P) : bool := two_eqb (fst x) (fst y) && e_peq E (snd x) (snd y).
  Definition kfind (k : key) (s : mstate) : Z :=
    match k with
    | KMoment l => vfind (ix_mm s) l
    | KLoc l w => afind loc_eqb (ix_loc s) (l, w)
    | KPoly l p => afind poly_eqb (ix_poly s) (l, p)
    | KSub a r => afind two_eqb (ix_sub s) (a, r)
    | KNNMoment l n => afind two_eqb (ix_nnmm s) (l, n)
    | KNNLoc l n w => afind nnloc_eqb (ix_nnloc s) (l, n, w)
    | KNNPoly l n p => afind nnpoly_eqb (ix_nnpoly s) (l, n, p)
    | KDer o => vfind (ix_der s) o
    end.
  Definition kinsert (k : key) (o : Z) (s : mstate) : mstate * (Z * bool) :=
    let '(mk_ms a mm lo po su nm nl np de bo t) := s in
    match k with
    | KMoment l => let (x, r) := vinsert mm l o in (mk_ms a x lo po su nm nl np de bo t, r)
    | KLoc l w => let (x, r) := ainsert loc_eqb lo (l, w) o in (mk_ms a mm x po su nm nl np de bo t, r)
    | KPoly l p => let (x, r) := ainsert poly_eqb po (l, p) o in (mk_ms a mm lo x su nm nl np de bo t, r)
    | KSub c d => let (x, r) := ainsert two_eqb su (c, d) o in (mk_ms a mm lo po x nm nl np de bo t, r)
    | KNNMoment l n => let (x, r) := ainsert two_eqb nm (l, n) o in (mk_ms a mm lo po su x nl np de bo t, r)
    | KNNLoc l n w => let (x, r) := ainsert nnloc_eqb nl (l, n, w) o in (mk_ms a mm lo po su nm x np de bo t, r)
    | KNNPoly l n p => let (x, r) := ainsert nnpoly_eqb np (l, n, p) o in (mk_ms a mm lo po su nm nl x de bo t, r)
    | KDer c => let (x, r) := vinsert de c o in (mk_ms a mm lo po su nm nl np x bo t, r)
    end.

  (** ** Access by offset, appending, deletion *)
  (** matrix_system.cpp:57-83: operator[] and get; [None] is the missing_component exception *)
  Definition mget (s : mstate) (o : Z) : option M :=
    if (o <? 0)%Z || (Z.of_nat (length (ms_mats s)) <=? o)%Z then None else nth (Z.to_nat o) (ms_mats s) None.
  (** matrix_system.cpp:85-90 *)
  Definition push (m : M) (s : mstate) : mstate * Z := (set_mats (ms_mats s ++ [Some m]) s, Z.of_nat (length (ms_mats s))).
  Inductive exn := XMissing | XFactory.
  Inductive mout :=
  | OMat (o : Z) (m : M) | ORef (m : M) | OOff (o : Z) | OBool (b : bool) | OBook (i : nat)
  | OThrow (x : exn)
  | ORuntime                  (** "Index for matrix was found, but matrix was invalid." *)
  | OAssert                   (** an assert failed (debug builds) *)
  | OUndef.                   (** an element past the end of a vector was accessed *)
  Fixpoint clear_at (l : list (option M)) (i : nat) : list (option M) :=
    match l, i with [], _ => [] | _ :: l', 0 => None :: l' | x :: l', S i' => x :: clear_at l' i' end.
  (** matrix_system.cpp:92-107: the bounds test lets index = size() through *)
  Definition delete_matrix (o : Z) (s : mstate) : mstate * mout :=
    if (o <? 0)%Z || (Z.of_nat (length (ms_mats s)) <? o)%Z then (s, OBool false)
    else if (o =? Z.of_nat (length (ms_mats s)))%Z then (s, OUndef)
    else match nth (Z.to_nat o) (ms_mats s) None with
         | None => (s, OBool false)
         | Some _ => (set_mats (clear_at (ms_mats s) (Z.to_nat o)) s, OBool true)
         end.
  (** rulebook_storage.cpp:99-117: find *)
  Definition book (s : mstate) (i : nat) : option B := nth i (ms_books s) None.

  (** ** Find or create *)
  (** matrix_indices.h:110-150 in four steps, each one under the write lock; [LNone]: not found yet, [LBuilt]: made, not yet indexed *)
  Inductive mloc := LNone | LOut (o : mout) | LBuilt (o : Z) (m : M).
  Definition act := (mstate * mloc -> mstate * mloc)%type.
  (** matrix_indices.h:117-133, 229-242: look the key up, and the matrix at the offset found *)
  Definition found (ref : bool) (k : key) (s : mstate) : mloc :=
    let o := kfind k s in
    if (0 <=? o)%Z then match mget s o with Some m => LOut (if ref then ORef m else OMat o m) | None => LOut ORuntime end else LNone.
  Definition act_find (ref : bool) (k : key) : act := fun x => (fst x, found ref k (fst x)).
  Definition factory_t := (key -> mstate -> mstate * (Z * M + exn))%type.
  Definition act_build (F : factory_t) (k : key) : act := fun x =>
    match snd x with
    | LNone => match F k (fst x) with (s', inl (o, m)) => (s', LBuilt o m) | (s', inr e) => (s', LOut (OThrow e)) end
    | _ => x
    end.
  (** matrix_indices.h:144-146: insert the key; assert(actual_offset == matrix_offset), assert(did_insertion) *)
  Definition act_index (k : key) : act := fun x =>
    match snd x with
    | LBuilt o m => let '(s', (a, did)) := kinsert k o (fst x) in
        if e_ndebug E || ((a =? o)%Z && did) then (s', LBuilt o m) else (s', LOut OAssert)
    | _ => x
    end.
  (** Which further indices a new matrix is to be found under: pauli_matrix_system.cpp:185-275, derived_matrix_system.cpp:243-276 *)
  Definition pauli_partner (k : key) : option key :=
    match k with
    | KMoment l => Some (KNNMoment l 0)
    | KLoc l w => Some (KNNLoc l 0 w)
    | KPoly l p => Some (KNNPoly l 0 p)
    | KNNMoment l 0 => Some (KMoment l)
    | KNNLoc l 0 w => Some (KLoc l w)
    | KNNPoly l 0 p => Some (KPoly l p)
    | _ => None
    end.
  Definition alias (k : key) (s : mstate) : option key :=
    match e_kind E with
    | Plain => None
    | Pauli => pauli_partner k
    | Derived => match k with KMoment _ | KLoc _ _ | KPoly _ _ => Some (KDer (Z.to_nat (e_base E (ms_t s) k))) | _ => None end
    end.
  (** matrix_indices.h:147-149: factory.notify, which inserts the alias (insert_alias, 155-166); Pauli systems assert that it is not there yet,
      all of them that it is now what was asked for *)
  Definition act_notify (ref : bool) (k : key) : act := fun x =>
    match snd x with
    | LBuilt o m =>
        let r := if ref then ORef m else OMat o m in
        match alias k (fst x) with
        | None => (fst x, LOut r)
        | Some k' => let '(s', (a, did)) := kinsert k' o (fst x) in
            if e_ndebug E || ((a =? o)%Z && (did || match e_kind E with Pauli => false | _ => true end)) then (s', LOut r) else (s', LOut OAssert)
        end
    | _ => x
    end.
  Definition create_acts (F : factory_t) (ref : bool) (k : key) : list act := [act_find ref k; act_build F k; act_index k; act_notify ref k].
  Definition run_acts (l : list act) (s : mstate) : mstate * mloc := fold_left (fun x f => f x) l (s, LNone).
  Definition out_of (l : mloc) : mout := match l with LOut o => o | _ => OUndef end.

  (** standard_matrix_indices.cpp:20-46, 72-87: make the matrix, append it, return its offset *)
  Definition store_made (r : T * option M) (s : mstate) : mstate * (Z * M + exn) :=
    match r with
    | (t, Some m) => let (s', o) := push m (set_t t s) in (s', inl (o, m))
    | (t, None) => (set_t t s, inr XFactory)
    end.
  Definition factory1 : factory_t := fun k s =>
    match k with
    | KSub a r => match mget s (Z.of_nat a), book s r with
                  | Some m, Some b => store_made (e_subst E (ms_t s) m b) s
                  | _, _ => (s, inr XMissing)
                  end
    | _ => store_made (e_mk E (ms_t s) k) s
    end.
  Definition create1 (k : key) (s : mstate) : mstate * mout := let (s', l) := run_acts (create_acts factory1 false k) s in (s', out_of l).
  (** composite_matrix.h:202-205: the localizing matrices of the words, found or created one after the other *)
  Definition part_key (l n : nat) (w : list nat) : key := match e_kind E with Pauli => KNNLoc l n w | _ => KLoc l w end.
  Fixpoint gather (l n : nat) (parts : list (list nat * C)) (s : mstate) : mstate * (list (M * C) + mout) :=
    match parts with
    | [] => (s, inl [])
    | (w, c) :: parts' =>
        match create1 (part_key l n w) s with
        | (s1, OMat _ m) => match gather l n parts' s1 with (s2, inl ms) => (s2, inl ((m, c) :: ms)) | (s2, inr x) => (s2, inr x) end
        | (s1, x) => (s1, inr x)
        end
    end.
  (** composite_matrix.h:187-217 and standard_matrix_indices.cpp:48-59: the matrix of a polynomial (derived systems transform one of the base system instead) *)
  Definition composite (l n : nat) (parts : list (list nat * C)) (s : mstate) : mstate * (Z * M + mout) :=
    match gather l n parts s with
    | (s1, inl ms) => match store_made (e_compose E (ms_t s1) l n ms) s1 with (s2, inl x) => (s2, inl x) | (s2, inr e) => (s2, inr (OThrow e)) end
    | (s1, inr x) => (s1, inr x)
    end.
  Definition make (k : key) (s : mstate) : mstate * (Z * M + mout) :=
    let one := match factory1 k s with (s', inl x) => (s', inl x) | (s', inr e) => (s', inr (OThrow e)) end in
    match e_kind E, k with
    | Derived, _ => one
    | _, KPoly l p => composite l 0 (e_monos E (ms_t s) p) s
    | _, KNNPoly l n p => composite l n (e_monos E (ms_t s) p) s
    | _, _ => one
    end.
  Definition act_make (k : key) : act := fun x =>
    match snd x with
    | LNone => match make k (fst x) with (s', inl (o, m)) => (s', LBuilt o m) | (s', inr r) => (s', LOut r) end
    | _ => x
    end.
  (** create with a write lock held *)
  Definition full_acts (ref : bool) (k : key) : list act := [act_find ref k; act_make k; act_index k; act_notify ref k].
  Definition create_ (ref : bool) (k : key) (s : mstate) : mstate * mout := let (s', l) := run_acts (full_acts ref k) s in (s', out_of l).
  (** matrix_indices.h:218-250: with the read lock first, and only then with the write lock, looking again *)
  Definition lookup (k : key) (s : mstate) : mstate * mout := match found true k s with LOut r => (s, r) | _ => create_ true k s end.
  (** matrix_indices.h:174-189, 199-203: find *)
  Definition find_ (k : key) (s : mstate) : mout :=
    let o := kfind k s in if (o <? 0)%Z then OThrow XMissing else match mget s o with Some m => ORef m | None => OThrow XMissing end.
  (** matrix_system.cpp:148-158: create_and_register_localizing_matrix: no index *)
  Definition register (l n : nat) (parts : list (list nat * C)) (s : mstate) : mstate * mout :=
    match composite l n parts s with (s', inl (o, m)) => (s', OMat o m) | (s', inr r) => (s', r) end.

  (** ** Rulebooks *)
  Fixpoint book_set (l : list (option B)) (i : nat) (b : option B) : list (option B) :=
    match l, i with [], _ => [] | _ :: l', 0 => b :: l' | x :: l', S i' => x :: book_set l' i' b end.
  (** rulebook_storage.cpp:22-58 *)
  Definition add_book (b : B) (s : mstate) : mstate * mout :=
    let i := length (ms_books s) in
    let s1 := set_books (ms_books s ++ [Some (e_name E i b)]) s in
    match e_added E (ms_t s1) i (e_name E i b) true with
    | (t, Some b') => (set_t t (set_books (book_set (ms_books s1) i (Some b')) s1), OBook i)
    | (t, None) => (set_t t (set_books (removelast (ms_books s1)) s1), OThrow XFactory)
    end.
  (** rulebook_storage.cpp:65-84 *)
  Definition merge_book (i : nat) (b : B) (s : mstate) : mstate * mout :=
    match book s i with
    | None => (s, OThrow XMissing)
    | Some b0 =>
        let (b1, ok) := e_merge E b0 b in
        let s1 := set_books (book_set (ms_books s) i (Some b1)) s in
        if ok then
          match e_added E (ms_t s1) i b1 false with
          | (t, Some b2) => (set_t t (set_books (book_set (ms_books s1) i (Some b2)) s1), OBook i)
          | (t, None) => (set_t t s1, OThrow XFactory)
          end
        else (s1, OThrow XFactory)
    end.

  (** ** Requests, one after the other *)
  Inductive mop :=
  | Create (k : key) | Lookup (k : key) | Find (k : key) | Get (o : Z) | Push (m : M) | Delete (o : Z)
  | Register (l n : nat) (parts : list (list nat * C)) | AddBook (b : B) | MergeBook (i : nat) (b : B).
  Definition perform (op : mop) (s : mstate) : mstate * mout :=
    match op with
    | Create k => create_ false k s
    | Lookup k => lookup k s
    | Find k => (s, find_ k s)
    | Get o => (s, match mget s o with Some m => ORef m | None => OThrow XMissing end)
    | Push m => let (s', o) := push m s in (s', OOff o)
    | Delete o => delete_matrix o s
    | Register l n parts => register l n parts s
    | AddBook b => add_book b s
    | MergeBook i b => merge_book i b s
    end.
  Definition after (t : T) (h : list mop) : mstate := fold_left (fun s op => fst (perform op s)) h (empty_system t).
  Definition answer (t : T) (h : list mop) (op : mop) : mout := snd (perform op (after t h)).

  (** ** Requests of several threads: the lock is taken for every request; [Lookup] takes it shared, and exclusively only after a miss *)
  Definition simple_lop (excl : bool) (op : mop) : lop mstate mloc := mk_lop excl [fun x => (fst (perform op (fst x)), LOut (snd (perform op (fst x))))].
  Definition peek_lop (k : key) : lop mstate mloc := mk_lop false [act_find true k].
  Definition create_lop (ref : bool) (k : key) : lop mstate mloc := mk_lop true (full_acts ref k).
  Fixpoint serve (ops : list mop) : prog mstate mloc :=
    match ops with
    | [] => PDone LNone
    | op :: ops' =>
        match op with
        | Create k => POp (create_lop false k) (fun _ => serve ops')
        | Lookup k => POp (peek_lop k) (fun l => match l with LNone => POp (create_lop true k) (fun _ => serve ops') | _ => serve ops' end)
        | Find _ | Get _ => POp (simple_lop false op) (fun _ => serve ops')
        | _ => POp (simple_lop true op) (fun _ => serve ops')
        end
    end.
End Ms.
Arguments key : clear implicits. Arguments menv : clear implicits. Arguments mstate : clear implicits. Arguments mout : clear implicits.
Arguments mloc : clear implicits. Arguments mop : clear implicits.
