(** The dictionaries of a Pauli scenario, shared by threads: Dictionary::Level and WordCount, dictionary.cpp:17-72;
    PauliDictionary::NearestNeighbour and WordCount, pauli_dictionary.cpp:19-58; OSGPair, osg_pair.h:20-62.

    Both functions return a reference to an element of a std::vector, after the lock is released.  When the vector grows past
    its capacity its elements move to another block of memory: a reference is modelled by the number of the block and the
    offset in it.  The generator itself, which the pair owns by a unique_ptr, does not move when the pair does.
    What a thread does under a lock, and what touches only its own data, is one step. *)
From Coq Require Import List Arith Bool.
Import ListNotations.

(** NearestNeighbourIndex, nearest_neighbour_index.h:26-39: level and neighbours; with 0 neighbours, the level of a plain dictionary *)
Definition dkey := (nat * nat)%type.
Definition dkey_eqb (a b : dkey) : bool := Nat.eqb (fst a) (fst b) && Nat.eqb (snd a) (snd b).

Section Pdc.
  Variable G : Type.                         (* generators: lists of words *)
  Variable make : dkey -> option G.          (* new_osg and conjugate, dictionary.cpp:41-45; PauliSequenceGenerator's constructor; None: exception *)
  Variable size : G -> nat.                  (* OperatorSequenceGenerator::size *)
  Variable zero : G.                         (* the generator of level 0 made by the constructor *)
  Variable grow : nat -> nat.                (* capacity after a full vector of this size has been extended (chosen by the standard library) *)

  (** osgs; npa_level_to_offset; nn_indices; capacity of osgs; number of the block of memory osgs lives in *)
  Record pdict := mk_pd { pd_osgs : list G; pd_levels : list (nat * nat); pd_near : list (dkey * nat); pd_cap : nat; pd_block : nat }.
  (** constructor, dictionary.cpp:17-26 *)
  Definition pd_start : pdict := mk_pd [zero] [] [] (grow 0) 0.
  Fixpoint level_find (l : nat) (m : list (nat * nat)) : option nat :=
    match m with [] => None | (a, o) :: m' => if Nat.eqb a l then Some o else level_find l m' end.
  Fixpoint near_find (k : dkey) (m : list (dkey * nat)) : option nat :=
    match m with [] => None | (a, o) :: m' => if dkey_eqb a k then Some o else near_find k m' end.
  (** dictionary.cpp:32 and 52; pauli_dictionary.cpp:28 and 41; which of the two: pauli_dictionary.cpp:21-23 *)
  Definition pd_find (k : dkey) (d : pdict) : option nat :=
    if Nat.eqb 0 (snd k) then level_find (fst k) (pd_levels d) else near_find k (pd_near d).
  (** emplace_back and insert, dictionary.cpp:59-65; pauli_dictionary.cpp:50-53 *)
  Definition pd_push (k : dkey) (g : G) (d : pdict) : pdict :=
    let full := Nat.eqb (length (pd_osgs d)) (pd_cap d) in
    let o := length (pd_osgs d) in
    mk_pd (pd_osgs d ++ [g])
          (if Nat.eqb 0 (snd k) then pd_levels d ++ [(fst k, o)] else pd_levels d)
          (if Nat.eqb 0 (snd k) then pd_near d else pd_near d ++ [(k, o)])
          (if full then grow (pd_cap d) else pd_cap d)
          (if full then S (pd_block d) else pd_block d).

  (** a reference to a pair: block and offset *)
  Definition pref := (nat * nat)%type.
  (** what a program does with a dictionary *)
  Inductive pop :=
  | Ask (k : dkey)      (* Level or NearestNeighbour; the reference is kept *)
  | Open (i : nat)      (* operator() of the pair of the i-th kept reference; the reference to the generator is kept *)
  | Words (j : nat)     (* read the words through the j-th kept reference to a generator *)
  | Count (k : dkey).   (* WordCount, dictionary.cpp:69-72, pauli_dictionary.cpp:56-59 *)
  (** what it sees.  A generator is identified by its address, here the offset of the pair that owns it. *)
  Inductive pevent :=
  | EAsked (k : dkey)
  | EThrown (k : dkey)            (* making the generator threw *)
  | ERaced (k : dkey)             (* undefined: find_key->second (offset_iter->second) with the end iterator, pauli_dictionary.cpp:44, dictionary.cpp:54 *)
  | EOpened (k : dkey) (a : nat)
  | EDangling (k : dkey)          (* undefined: a reference into a block that has been freed *)
  | EWords (k : dkey) (g : G)
  | ELost (k : dkey)              (* undefined: a reference to a generator that is no more *)
  | ECount (k : dkey) (n : nat)
  | EBad.                         (* the program names a reference it does not have *)
  (** where a thread is in a call; [cnt]: the call is made by WordCount *)
  Inductive ppc :=
  | PIdle
  | PRead (cnt : bool) (k : dkey)              (* dictionary.cpp:31-38, pauli_dictionary.cpp:26-34: under the read lock *)
  | PMake (cnt : bool) (k : dkey)              (* dictionary.cpp:41-45, pauli_dictionary.cpp:37: no lock *)
  | PWrite (cnt : bool) (k : dkey) (g : G)     (* dictionary.cpp:48-66, pauli_dictionary.cpp:40-54: under the write lock *)
  | PSize (k : dkey) (r : pref).               (* dictionary.cpp:71, pauli_dictionary.cpp:58: no lock *)
  Record pthread := mk_pt { pt_todo : list pop; pt_pc : ppc; pt_refs : list (dkey * pref); pt_gens : list (dkey * nat); pt_log : list pevent }.
  (** the thread ends: undefined behaviour, or an exception it does not catch *)
  Definition halt (e : pevent) (t : pthread) : pthread := mk_pt [] PIdle (pt_refs t) (pt_gens t) (pt_log t ++ [e]).
  (** a call returned the pair at offset [o] *)
  Definition returned (cnt : bool) (k : dkey) (o : nat) (d : pdict) (t : pthread) : pthread :=
    let r := (pd_block d, o) in
    if cnt then mk_pt (pt_todo t) (PSize k r) (pt_refs t) (pt_gens t) (pt_log t)
    else mk_pt (pt_todo t) PIdle (pt_refs t ++ [(k, r)]) (pt_gens t) (pt_log t ++ [EAsked k]).
  Definition goto (p : ppc) (t : pthread) : pthread := mk_pt (pt_todo t) p (pt_refs t) (pt_gens t) (pt_log t).
  (** dereference *)
  Definition pd_deref (r : pref) (d : pdict) : option (nat * G) :=
    if Nat.eqb (fst r) (pd_block d) then option_map (fun g => (snd r, g)) (nth_error (pd_osgs d) (snd r)) else None.
  Definition pstart_op (op : pop) (rest : list pop) (t : pthread) (d : pdict) : pthread :=
    let t := mk_pt rest PIdle (pt_refs t) (pt_gens t) (pt_log t) in
    match op with
    | Ask k => goto (PRead false k) t
    | Count k => goto (PRead true k) t
    | Open i =>
        match nth_error (pt_refs t) i with
        | None => halt EBad t
        | Some (k, r) => match pd_deref r d with
                         | None => halt (EDangling k) t
                         | Some (a, _) => mk_pt rest PIdle (pt_refs t) (pt_gens t ++ [(k, a)]) (pt_log t ++ [EOpened k a])
                         end
        end
    | Words j =>
        match nth_error (pt_gens t) j with
        | None => halt EBad t
        | Some (k, a) => match nth_error (pd_osgs d) a with
                         | None => halt (ELost k) t
                         | Some g => mk_pt rest PIdle (pt_refs t) (pt_gens t) (pt_log t ++ [EWords k g])
                         end
        end
    end.
  Definition pthread_step (t : pthread) (d : pdict) : pthread * pdict :=
    match pt_pc t with
    | PIdle => match pt_todo t with [] => (t, d) | op :: rest => (pstart_op op rest t d, d) end
    | PRead cnt k => match pd_find k d with Some o => (returned cnt k o d t, d) | None => (goto (PMake cnt k) t, d) end
    | PMake cnt k => match make k with Some g => (goto (PWrite cnt k g) t, d) | None => (halt (EThrown k) t, d) end
    | PWrite cnt k g =>
        match pd_find k d with
        | Some _ => (halt (ERaced k) t, d)
        | None => let d' := pd_push k g d in (returned cnt k (length (pd_osgs d') - 1) d' t, d')
        end
    | PSize k r =>
        match pd_deref r d with
        | None => (halt (EDangling k) t, d)
        | Some (_, g) => (mk_pt (pt_todo t) PIdle (pt_refs t) (pt_gens t) (pt_log t ++ [ECount k (size g)]), d)
        end
    end.
  (** threads and a schedule: whose step is next *)
  Record pstate := mk_ps { ps_dict : pdict; ps_threads : list pthread }.
  Definition pstep (i : nat) (s : pstate) : pstate :=
    match nth_error (ps_threads s) i with
    | None => s
    | Some t => let (t', d') := pthread_step t (ps_dict s) in mk_ps d' (firstn i (ps_threads s) ++ t' :: skipn (S i) (ps_threads s))
    end.
  Fixpoint prun (sched : list nat) (s : pstate) : pstate :=
    match sched with [] => s | i :: r => prun r (pstep i s) end.
  Definition pbegin (progs : list (list pop)) : pstate := mk_ps pd_start (map (fun p => mk_pt p PIdle [] [] []) progs).
End Pdc.
Arguments mk_pd {G}. Arguments pd_osgs {G}. Arguments pd_levels {G}. Arguments pd_near {G}. Arguments pd_cap {G}. Arguments pd_block {G}.
Arguments pd_start {G}. Arguments pd_find {G}. Arguments pd_push {G}. Arguments pd_deref {G}.
Arguments EAsked {G}. Arguments EThrown {G}. Arguments ERaced {G}. Arguments EOpened {G}. Arguments EDangling {G}. Arguments EWords {G}.
Arguments ELost {G}. Arguments ECount {G}. Arguments EBad {G}.
Arguments PIdle {G}. Arguments PRead {G}. Arguments PMake {G}. Arguments PWrite {G}. Arguments PSize {G}.
Arguments mk_pt {G}. Arguments pt_todo {G}. Arguments pt_pc {G}. Arguments pt_refs {G}. Arguments pt_gens {G}. Arguments pt_log {G}.
Arguments halt {G}. Arguments returned {G}. Arguments goto {G}. Arguments pstart_op {G}. Arguments pthread_step {G}.
Arguments mk_ps {G}. Arguments ps_dict {G}. Arguments ps_threads {G}. Arguments pstep {G}. Arguments prun {G}. Arguments pbegin {G}.
