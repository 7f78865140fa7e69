(** Pauli dictionaries: scenarios/pauli/pauli_osg.cpp and the fills of scenarios/pauli/symmetry/lattice_duplicator.cpp.

    Every function that appends to the vector of sequences is modelled by the list it appends.  Qubit numbers and lengths are
    natural numbers; the conversions to int16_t (oper_name_t) are exact because a context of 3 n >= 32767 operators is refused
    by its constructor. *)
From Coq Require Import List NArith Arith Bool.
From Verif Require Import CoreModel AlgModel EnumModel CombModel PauliModel SiteModel.
Import ListNotations.

(** result: a value, an exception, undefined behaviour, or (iterators and unhash only) out of fuel *)
Inductive dout (A : Type) := DOk (a : A) | DThrow | DUndef | DNoFuel.
Arguments DOk {A} _. Arguments DThrow {A}. Arguments DUndef {A}. Arguments DNoFuel {A}.
Definition dbind {A B} (x : dout A) (f : A -> dout B) : dout B :=
  match x with DOk a => f a | DThrow => DThrow | DUndef => DUndef | DNoFuel => DNoFuel end.
(** iterators: [Err] is an out-of-range access *)
Definition of_res {A} (x : res A) : dout A := match x with Ret a => DOk a | Err => DUndef | NoFuel => DNoFuel end.
Definition of_site {A} (x : sout A) : dout A := match x with SOk a => DOk a | SUndef => DUndef | SNoFuel => DNoFuel end.
(** a loop whose body appends to the output *)
Fixpoint each {X Y} (f : X -> dout (list Y)) (xs : list X) : dout (list Y) :=
  match xs with [] => DOk [] | x :: xs' => dbind (f x) (fun a => dbind (each f xs') (fun b => DOk (a ++ b))) end.

(** PauliContext, pauli_context.h:63-98 *)
Record pctx := mk_pctx { pc_qubits : nat; pc_col : nat; pc_row : nat; pc_wrap : bool; pc_sym : bool }.
(** constructors, pauli_context.cpp:63-81 and 83-109; is_lattice, pauli_context.h:133-135 *)
Definition chain_ctx (n : nat) (wrap sym : bool) : pctx := mk_pctx n 0 0 wrap sym.
Definition lattice_ctx (ch rw : nat) (wrap sym : bool) : pctx :=
  mk_pctx (ch * rw) ch (if Nat.eqb ch 0 then 0 else rw) wrap sym.
Definition is_lattice (c : pctx) : bool := negb (Nat.eqb (pc_col c) 0).

Section Osg.
  (** what a shift by 64 or more does, see SiteModel *)
  Variable wide : bool -> N -> N -> sout N.
  Variable c : pctx.
  Let n := pc_qubits c.
  Let radix := pauli_radix n.

  (** one_qubit_fill, lattice_duplicator.cpp:243-255 *)
  Definition raw_one (o : nat) : hseq := mk_hseq (hash_op o) [o] SPos.
  Definition one_qubit_fill (q : nat) : list hseq := [raw_one (q * 3); raw_one (q * 3 + 1); raw_one (q * 3 + 2)].
  (** two_qubit_fill, lattice_duplicator.cpp:259-283 *)
  Definition two_qubit_fill (a b : nat) : list hseq :=
    let base_a := 3 * a in let base_b := 3 * b in
    if base_a <? base_b then
      flat_map (fun oa => map (fun ob => presorted radix [oa; ob] SPos) (seq base_b 3)) (seq base_a 3)
    else
      flat_map (fun oa => map (fun ob => presorted radix [ob; oa] SPos) (seq base_b 3)) (seq base_a 3).
  (** do_permutation_fill, lattice_duplicator.cpp:28-48.  MultiOperatorIterator{context, parties, 3, 0} has 3^parties values. *)
  Definition site_ops (sites raw : list nat) : word := map (fun x => 3 * fst x + snd x) (List.combine sites raw).
  Definition do_permutation_fill (sites : list nat) : dout (list hseq) :=
    let parties := length sites in
    dbind (of_res (moi_run (3 ^ parties) parties 3 0)) (fun raws =>
    DOk (map (fun raw => pauli_sequence n (site_ops sites raw) SPos) raws)).
  (** permutation_fill, lattice_duplicator.cpp:290-308 *)
  Definition permutation_fill (sites : list nat) : dout (list hseq) :=
    match sites with
    | [] => DOk [hseq_const false]
    | [q] => DOk (one_qubit_fill q)
    | [a; b] => DOk (two_qubit_fill a b)
    | _ => do_permutation_fill sites
    end.

  (** * Fills of all translates *)
  (** sizes in MomentSimplifierNoWrappingLattice, moment_simplifier_no_wrapping.cpp:79-86 *)
  Definition nw_col : nat := if is_lattice c then pc_col c else n.
  Definition nw_row : nat := if is_lattice c then pc_row c else 1.
  (** lattice_supremum(span<const size_t>), moment_simplifier_no_wrapping.cpp:167-184 *)
  Definition site_supremum (sites : list nat) : nat * nat :=
    match sites with
    | [] => (0, 0)
    | s :: rest => (fold_left (fun m q => Nat.max m (q mod nw_col + 1)) rest (s mod nw_col + 1), 1 + last sites 0 / nw_col)
    end.
  (** wrapless_symmetrical_fill, lattice_duplicator.cpp:346-382.  The loop bounds are size_t: 1 + row_width - number_cols is
      never negative for sites of the lattice. *)
  Definition wrapless_symmetrical_fill (sites : list nat) : dout (list hseq) :=
    match sites with
    | [] => DOk []
    | _ =>
        let sup := site_supremum sites in
        each (fun col => each (fun row => permutation_fill (map (fun q => q + (col * nw_col + row)) sites))
                              (seq 0 (1 + nw_col - fst sup))) (seq 0 (1 + nw_row - snd sup))
    end.

  (** hashes of the base elements, lattice_duplicator.cpp:62-67, 91-96, 168-173 *)
  Fixpoint base_hashes (h : hasher) (base : list hseq) : dout (list datum) :=
    match base with
    | [] => DOk []
    | q :: base' => dbind (of_site (site_hash h (hs_ops q))) (fun d => dbind (base_hashes h base') (fun ds => DOk (d :: ds)))
    end.
  (** the body of the innermost loops, 71-75, 101-105, 207-211 *)
  Definition shifted (shift : datum -> sout datum) (d : datum) : dout (list hseq) :=
    dbind (of_site (sbind (shift d) unhash)) (fun w => DOk [presorted radix w SPos]).
  (** do_unaliased_chain_symmetric_fill, lattice_duplicator.cpp:50-79 *)
  Definition unaliased_chain_fill (h : hasher) (sites : list nat) (max_index : nat) : dout (list hseq) :=
    dbind (permutation_fill sites) (fun base =>
    dbind (base_hashes h base) (fun hashes =>
    dbind (each (fun qubit => each (shifted (fun d => cyclic_shift wide h d qubit)) hashes) (seq 1 (max_index - 1))) (fun rest =>
    DOk (base ++ rest)))).
  (** do_unaliased_lattice_symmetric_fill, lattice_duplicator.cpp:81-110 (the bound of the loop over rows is row_width) *)
  Definition unaliased_lattice_fill (h : hasher) (sites : list nat) : dout (list hseq) :=
    dbind (permutation_fill sites) (fun base =>
    dbind (base_hashes h base) (fun hashes =>
    dbind (each (fun col =>
             each (fun row => each (shifted (fun d => lattice_shift wide h d row col)) hashes)
                  (if negb (Nat.eqb col 0) then seq 0 (h_row h) else seq 1 (h_row h - 1)))
                (seq 0 (h_row h))) (fun rest =>
    DOk (base ++ rest)))).
  (** do_aliased_chain_symmetric_fill, lattice_duplicator.cpp:112-137 *)
  Definition aliased_chain_fill (h : hasher) (sites : list nat) : dout (list hseq) :=
    match sites with
    | [] => DUndef
    | s :: rest =>
        let range := fold_left Nat.max rest s - fold_left Nat.min rest s in
        if range <? n / 2 then unaliased_chain_fill h sites n
        else dbind (of_site (sbind (site_hash h (map (fun q => 3 * q) sites)) (first_chain_alias wide h))) (fun first_alias =>
             unaliased_chain_fill h sites first_alias)
    end.
  (** std::map<HashValue, pair>: kept sorted by the hash, compared from the first slide; insert changes nothing if the key is
      there already *)
  Fixpoint datum_lt (a b : datum) : bool :=
    match a, b with
    | x :: a', y :: b' => if (x <? y)%N then true else if (y <? x)%N then false else datum_lt a' b'
    | _, _ => false
    end.
  Fixpoint map_insert (k : datum) (v : nat * nat) (m : list (datum * (nat * nat))) : list (datum * (nat * nat)) :=
    match m with
    | [] => [(k, v)]
    | (k', v') :: m' => if datum_lt k k' then (k, v) :: m
                        else if datum_lt k' k then (k', v') :: map_insert k v m'
                        else m
    end.
  (** the loop over all offsets, lattice_duplicator.cpp:189-194 *)
  Fixpoint insert_offsets (h : hasher) (base : datum) (offsets : list (nat * nat)) (m : list (datum * (nat * nat)))
    : dout (list (datum * (nat * nat))) :=
    match offsets with
    | [] => DOk m
    | (row, col) :: offsets' =>
        dbind (of_site (lattice_shift wide h base row col)) (fun k => insert_offsets h base offsets' (map_insert k (row, col) m))
    end.
  Definition all_offsets (ch rw : nat) : list (nat * nat) := flat_map (fun col => map (fun row => (row, col)) (seq 0 ch)) (seq 0 rw).
  (** do_aliased_lattice_symmetric_fill, lattice_duplicator.cpp:140-216 *)
  Definition aliased_lattice_fill (h : hasher) (sites : list nat) : dout (list hseq) :=
    let sup := site_supremum sites in
    let no_horz_alias := fst sup <=? h_row h / 2 in
    let no_vert_alias := snd sup <=? h_col h / 2 in
    if no_horz_alias && no_vert_alias then unaliased_lattice_fill h sites
    else
      dbind (permutation_fill sites) (fun base =>
      dbind (base_hashes h base) (fun hashes =>
      match hashes with
      | [] => DUndef
      | x_hash :: _ =>
          dbind (insert_offsets h x_hash (all_offsets (pc_col c) (pc_row c)) (map_insert x_hash (0, 0) [])) (fun m =>
          dbind (each (fun e => let '(_, (row, col)) := e in
                    if Nat.eqb row 0 && Nat.eqb col 0 then DOk []
                    else each (shifted (fun d => lattice_shift wide h d row col)) hashes) m) (fun rest =>
          DOk (base ++ rest)))
      end)).
  (** symmetrical_fill, lattice_duplicator.cpp:310-344, with do_symmetric_fill, 226-249.  moment_simplifier() throws without
      translational symmetry (pauli_context.cpp:500-506); with it, the context has made the hasher of its sizes. *)
  Definition symmetrical_fill (sites : list nat) (check_for_aliases : bool) : dout (list hseq) :=
    match sites with
    | [] => DOk []
    | _ =>
        if negb (pc_wrap c) then wrapless_symmetrical_fill sites
        else if negb (pc_sym c) then DThrow
        else match make_wrapping wide (is_lattice c) nw_col nw_row with
             | None => DThrow
             | Some x =>
                 dbind (of_site x) (fun h =>
                 if is_lattice c then
                   if check_for_aliases then aliased_lattice_fill h sites else unaliased_lattice_fill h sites
                 else
                   if check_for_aliases then aliased_chain_fill h sites else unaliased_chain_fill h sites n)
             end
    end.

  (** * Sequence generators *)
  (** add_length_zero_sequence, pauli_osg.cpp:275-277; add_length_one_sequences, 279-287 (context.size() is 3 n) *)
  Definition add_length_zero : list hseq := [hseq_const false].
  Definition add_length_one : list hseq := map raw_one (seq 0 (3 * n)).
  (** compute_all_sequences, pauli_osg.cpp:289-330.  PartitionIterator over n qubits has at most 2^n positions. *)
  Definition all_pairs : list hseq :=
    flat_map (fun q1 => flat_map (fun q2 => two_qubit_fill q1 q2) (seq (q1 + 1) (n - (q1 + 1)))) (seq 0 (n - 1)).
  Definition all_of (parties : nat) : dout (list hseq) :=
    dbind (of_res (parts_run (2 ^ n) n parties)) (fun ps => each (fun p => permutation_fill (fst (fst p))) ps).
  Definition compute_all (level : nat) : dout (list hseq) :=
    let word_length := Nat.min level n in
    if word_length <? 1 then DOk add_length_zero
    else if word_length <? 2 then DOk (add_length_zero ++ add_length_one)
    else dbind (each all_of (seq 3 (word_length - 2))) (fun longer =>
         DOk (add_length_zero ++ add_length_one ++ all_pairs ++ longer)).

  (** chain_nn_sequences<wrapped>, pauli_osg.cpp:21-60 *)
  Definition chain_nn_pairs : list hseq :=
    flat_map (fun first => two_qubit_fill first (first + 1)) (seq 0 (n - 1)) ++
    (if pc_wrap c then two_qubit_fill (n - 1) 0 else []).
  Definition final_first_party (parties : nat) : nat := if pc_wrap c then n - 1 else n - parties.
  Definition chain_nn_window (parties first : nat) : dout (list hseq) :=
    dbind (of_res (moi_run (3 ^ parties) parties 3 0)) (fun raws =>
    DOk (map (fun raw =>
      pauli_sequence n (map (fun i => 3 * (if pc_wrap c then (first + i) mod n else first + i) + nth i raw 0) (seq 0 parties)) SPos) raws)).
  Definition chain_nn_sequences (word_length : nat) : dout (list hseq) :=
    dbind (each (fun parties => each (chain_nn_window parties) (seq 0 (final_first_party parties + 1)))
                (seq 3 (word_length - 2))) (fun longer =>
    DOk ((if 2 <=? word_length then chain_nn_pairs else []) ++ longer)).

  (** the inner loop of chain_next_nn_sequences, pauli_osg.cpp:88-103; [None]: skip *)
  Fixpoint select (first cumulative : nat) (offsets : list nat) : option (list nat) :=
    match offsets with
    | [] => Some []
    | o :: offsets' =>
        let cum := cumulative + o in
        if (if pc_wrap c then n <=? cum else n <=? first + cum) then None
        else option_map (cons (if pc_wrap c then (first + cum) mod n else first + cum)) (select first cum offsets')
    end.
  (** chain_next_nn_sequences<wrapped>, pauli_osg.cpp:66-115 *)
  Definition next_nn_from (parties max_distance first : nat) : dout (list hseq) :=
    dbind (of_res (moi_run (max_distance ^ (parties - 1)) (parties - 1) max_distance 1)) (fun raws =>
    each (fun raw => match select first 0 raw with Some sel => permutation_fill (first :: sel) | None => DOk [] end) raws).
  Definition chain_next_nn_sequences (word_length max_distance : nat) : dout (list hseq) :=
    each (fun parties => each (next_nn_from parties max_distance) (seq 0 (final_first_party parties + 1))) (seq 2 (word_length - 1)).

  (** lattice_neighbour_pairs<wrapped>, pauli_osg.cpp:118-179.  The state is qubit_index and what has been appended.
      [qubit_index + 1 - col_height] is not negative where it is evaluated. *)
  Definition pair_state := (nat * list hseq)%type.
  Definition pairs_cell (s : pair_state) : pair_state :=
    let '(k, out) := s in (S k, out ++ two_qubit_fill k (k + 1) ++ two_qubit_fill k (k + pc_col c)).
  Definition pairs_column (s : pair_state) : pair_state :=
    let '(k, out) := fold_left (fun st (_ : nat) => pairs_cell st) (seq 0 (pc_col c - 1)) s in
    (S k, out ++ (if pc_wrap c && (2 <? pc_col c) then two_qubit_fill k (k + 1 - pc_col c) else []) ++
          two_qubit_fill k (k + pc_col c)).
  Definition pairs_last_cell (s : pair_state) (row : nat) : pair_state :=
    let '(k, out) := s in
    (S k, out ++ two_qubit_fill k (k + 1) ++ (if pc_wrap c && (2 <? pc_row c) then two_qubit_fill k row else [])).
  Definition lattice_pairs : list hseq :=
    let s := fold_left (fun st (_ : nat) => pairs_column st) (seq 0 (pc_row c - 1)) (0, []) in
    let '(k, out) := fold_left pairs_last_cell (seq 0 (pc_col c - 1)) s in
    out ++ (if pc_wrap c then
              (if 2 <? pc_col c then two_qubit_fill k (k + 1 - pc_col c) else []) ++
              (if 2 <? pc_row c then two_qubit_fill k (pc_col c - 1) else [])
            else []).

  (** lattice_neighbour_triplets<wrapped>, pauli_osg.cpp:181-212 *)
  Definition triplet_shapes : list (list nat * bool) :=
    let ch := pc_col c in
    (if 3 <=? pc_row c then [([0; ch; 2 * ch], pc_wrap c && Nat.eqb (pc_row c) 3)] else []) ++
    (if 3 <=? ch then [([0; 1; 2], pc_wrap c && Nat.eqb ch 3)] else []) ++
    (if (2 <=? pc_row c) && (2 <=? ch) then
       [([0; 1; ch], false); ([0; ch; ch + 1], false); ([0; 1; ch + 1], false); ([0; ch; ch + 1], false)]
     else []).
  Definition lattice_triplets : dout (list hseq) := each (fun x => symmetrical_fill (fst x) (snd x)) triplet_shapes.
  (** lattice_neighbour_squares<wrapped>, pauli_osg.cpp:214-229 *)
  Definition lattice_squares : dout (list hseq) :=
    let ch := pc_col c in
    if (2 <=? pc_row c) && (2 <=? ch) then
      symmetrical_fill [0; 1; ch; ch + 1] (pc_wrap c && (Nat.eqb (pc_row c) 2 || Nat.eqb ch 2))
    else DOk [].
  (** add_lattice_neighbours<wrapped>, pauli_osg.cpp:231-254 *)
  Definition lattice_neighbours (word_length : nat) : dout (list hseq) :=
    if 5 <=? word_length then DThrow
    else dbind (if 3 <=? word_length then lattice_triplets else DOk []) (fun triplets =>
         dbind (if 4 <=? word_length then lattice_squares else DOk []) (fun squares =>
         DOk (lattice_pairs ++ triplets ++ squares))).

  (** compute_nearest_neighbour_sequences, pauli_osg.cpp:332-389 *)
  Definition compute_neighbours (level neighbours : nat) : dout (list hseq) :=
    if is_lattice c && (1 <? neighbours) then DThrow
    else
      let word_length := Nat.min level n in
      if word_length <? 1 then DOk add_length_zero
      else if word_length <? 2 then DOk (add_length_zero ++ add_length_one)
      else dbind (if Nat.eqb 1 neighbours
                  then if is_lattice c then lattice_neighbours word_length else chain_nn_sequences word_length
                  else chain_next_nn_sequences word_length neighbours) (fun longer =>
           DOk (add_length_zero ++ add_length_one ++ longer)).
  (** PauliSequenceGenerator(context, NearestNeighbourIndex), pauli_osg.cpp:263-273 *)
  Definition pauli_osg (level neighbours : nat) : dout (list hseq) :=
    if negb (Nat.eqb neighbours 0) then compute_neighbours level neighbours else compute_all level.
End Osg.
