(** From operator matrices to matrices of symbols: matrix/monomial_matrix_factory.{h,cpp}.

    The operator matrix is a column-major list of [dim * dim] sequences.  What the code asks of its context and of the symbol
    table is in SymModel. *)
From Coq Require Import List NArith ZArith Arith Bool.
From Verif Require Import CoreModel FieldModel SymModel PolyModel ParModel MatModel.
Import ListNotations.

Section Fac.
  Variable c : sctx.
  Context {R : rfield}.
  (** dimension, elements, is_hermitian() and the factor in front of all monomials (1 if has_prefactor is false) *)
  Variables (dim : nat) (m : list hseq) (hermitian : bool) (prefactor : cx R).

  (** to_scalar, scenarios/sequence_sign_type.h *)
  Definition to_scalar (s : sign) : cx R := match s with SPos => c1 | SIm => ci | SNeg => copp c1 | SNegIm => copp ci end.
  (** known_hashes.contains *)
  Definition known (h : N) (l : list N) : bool := existsb (N.eqb h) l.
  (** offsets of the lower triangle, column by column (MatrixTriangleIterator: SquareModel) *)
  Definition lower : list nat := flat_map (fun col => map (fun row => col * dim + row) (seq col (dim - col))) (seq 0 dim).
  (** (row, col) of the upper triangle, column by column *)
  Definition upper : list (nat * nat) := flat_map (fun col => map (fun row => (row, col)) (seq 0 (S col))) (seq 0 dim).

  (** * Single-threaded *)
  (** one element of identify_unique_sequences_* if all operators are Hermitian: monomial_matrix_factory.cpp:75-87 and 142-152.  In 75-87
      the iterator only moves on when the hash is found known, so each new element is looked at twice *)
  Definition note_positive (st : list N * list symbol) (q : hseq) : list N * list symbol :=
    if known (hs_hash q) (fst st) then st else (hs_hash q :: fst st, snd st ++ [symbol_positive q]).
  (** one element otherwise: 95-121 and 157-182 *)
  Definition note (st : list N * list symbol) (elem conj_elem : hseq) : list N * list symbol :=
    let elem_hermitian := Z.eqb (hs_compare_same_negation elem conj_elem) 1 in
    let h := hs_hash elem in let hc := hs_hash conj_elem in
    if known h (fst st) || (negb elem_hermitian && known hc (fst st)) then st
    else if elem_hermitian then (h :: fst st, snd st ++ [symbol_one elem])
    else (hc :: h :: fst st, snd st ++ [if N.ltb h hc then symbol_pair elem conj_elem else symbol_pair conj_elem elem]).
  Definition st_start : list N * list symbol := ([0%N; 1%N], [symbol_zero; symbol_identity]).
  Fixpoint pick (l : list nat) : option (list hseq) :=
    match l with [] => Some [] | o :: l' => match nth_error m o, pick l' with Some q, Some r => Some (q :: r) | _, _ => None end end.
  (** identify_unique_sequences_hermitian 59-127, identify_unique_sequences_generic 129-187; [None] = read beyond the matrix *)
  Definition st_identify (only_hermitian_ops : bool) : option (list symbol) :=
    match pick (if hermitian then lower else seq 0 (dim * dim)) with
    | None => None
    | Some l => Some (snd (if only_hermitian_ops then fold_left note_positive l st_start
                           else if hermitian then fold_left (fun st q => note st (cx_conj c q) q) l st_start
                           else fold_left (fun st q => note st q (cx_conj c q)) l st_start))
    end.

  (** hash_to_index, then symbol_table[id]; [None]: the sequence is not in the table (std::logic_error) *)
  Definition find_entry (t : table) (q : hseq) : option (symbol * bool) :=
    match hash_to_index t (hs_hash q) with
    | None => None
    | Some (id, cj) => match nth_error (t_syms t) id with Some s => Some (s, cj) | None => None end
    end.
  (** the entry of an element: 214-216, 275 and, multi-threaded, 569-571, 606 *)
  Definition direct (t : table) (q : hseq) : option (mono R) :=
    match find_entry t q with None => None | Some (s, cj) => Some (mk_mono (sy_id s) cj (cmul prefactor (to_scalar (hs_sign q)))) end.
  (** the entry mirrored from an element on the other side of the diagonal: 219-230 and, multi-threaded, 609-617 *)
  Definition mirror (t : table) (q : hseq) : option (mono R) :=
    match find_entry t q with
    | None => None
    | Some (s, cj) => Some (mk_mono (sy_id s) (if sy_herm s then false else negb cj) (cmul prefactor (cconj (to_scalar (hs_sign q)))))
    end.
  (** symbolic_representation: not yet written cells are [None].  Writing, with the exception if the entry was not found *)
  Definition cells := list (option (mono R)).
  Definition put (o : nat) (x : option (mono R)) (out : option cells) : option cells :=
    match out, x with Some l, Some e => Some (set_at o (Some e) l) | _, _ => None end.
  Definition entry_of (f : hseq -> option (mono R)) (o : nat) : option (mono R) := match nth_error m o with Some q => f q | None => None end.
  (** build_symbol_matrix_hermitian 190-253, build_symbol_matrix_generic 255-281 *)
  Definition st_build (t : table) : option cells :=
    let blank := Some (repeat None (dim * dim)) in
    if hermitian then
      fold_left (fun out rc => let '(row, col) := rc in
        let out := put (col * dim + row) (entry_of (direct t) (col * dim + row)) out in
        if Nat.eqb row col then out else put (row * dim + col) (entry_of (mirror t) (col * dim + row)) out) upper blank
    else fold_left (fun out o => put o (entry_of (direct t) o) out) (seq 0 (dim * dim)) blank.
  (** operator(), 48-58 *)
  Definition st_run (only_hermitian_ops : bool) (t : table) : outcome cells :=
    match st_identify only_hermitian_ops with
    | None => Undef
    | Some l => match merge_symbols t l with
                | Done t1 _ => match st_build t1 with Some out => Done t1 out | None => Throw t1 end
                | Throw t1 => Throw t1
                | Undef => Undef
                end
    end.

  (** * Multi-threaded *)
  (** std::bit_floor, std::bit_width *)
  Definition bit_floor (n : nat) : nat := if Nat.eqb n 0 then 0 else 2 ^ Nat.log2 n.
  Definition bit_width (n : nat) : nat := if Nat.eqb n 0 then 0 else S (Nat.log2 n).
  (** first_merge_level, 353-379 *)
  Definition first_merge_level (N w : nat) : nat :=
    let bf := bit_floor N in let p := bit_width bf - 1 in
    if Nat.eqb bf N then p else if Nat.leb bf w then p + 1 else if Nat.ltb (w + bf) N then p + 1 else p.
  (** final_merge_level, 384-387 *)
  Definition final_merge_level (w : nat) : nat := bit_width (bit_floor w).

  (** unique_elements: std::map from hash to symbol, in order of hash *)
  Definition umap := list (N * symbol).
  (** one element of identify_unique_symbols_*: 413-433 and 464-484.  Symbol{elem} keeps the sign of elem, and there is no
      special treatment of contexts without non-Hermitian operators *)
  Definition mt_note (st : list N * umap) (elem conj_elem : hseq) : list N * umap :=
    let elem_hermitian := Z.eqb (hs_compare_same_negation elem conj_elem) 1 in
    let h := hs_hash elem in let hc := hs_hash conj_elem in
    if known h (fst st) then st
    else if elem_hermitian then (h :: fst st, map_emplace h (symbol_one elem) (snd st))
    else (hc :: h :: fst st,
          if N.ltb h hc then map_emplace h (symbol_pair elem conj_elem) (snd st) else map_emplace hc (symbol_pair conj_elem elem) (snd st)).
  Definition mt_start (w : nat) : list N * umap :=
    if Nat.eqb w 0 then ([0%N; 1%N], map_emplace 1 symbol_identity (map_emplace 0 symbol_zero [])) else ([], []).
  (** the elements worker [w] of [N] looks at: (offset, offset of its transpose) *)
  Definition identify_cells (N w : nat) : list (nat * nat) :=
    flat_map (fun col => map (fun row => (col * dim + row, row * dim + col)) (if hermitian then seq col (dim - col) else seq 0 dim)) (strided dim w N dim).
  (** identify_unique_symbols_hermitian 390-439, identify_unique_symbols_generic 441-490; [None] = read beyond the matrix *)
  Fixpoint mt_identify_loop (l : list (nat * nat)) (st : list N * umap) : option umap :=
    match l with
    | [] => Some (snd st)
    | (o, o') :: l' =>
        match nth_error m o, (if hermitian then nth_error m o' else option_map (cx_conj c) (nth_error m o)) with
        | Some q, Some cq => mt_identify_loop l' (mt_note st q cq)
        | _, _ => None
        end
    end.
  Definition mt_identify (N w : nat) : option umap := mt_identify_loop (identify_cells N w) (mt_start w).
  (** linear_map_merge: entries of the right map whose key the left map lacks are added (UtilModel has the loop itself, and C42
      proves that this is what it does) *)
  Definition merge_maps (a b : umap) : umap := fold_left (fun acc kv => map_emplace (fst kv) (snd kv) acc) b a.

  (** ready flags, "merge_level <= l" of a worker, promises, end of a thread *)
  Inductive fsignal := FReady (phase : nat) | FLevel (worker level : nat) | FPromised (worker phase : nat) | FExited (worker : nat).
  (** shared memory: the workers' maps, the symbol table, the output, what execute() returned, and whether anything went wrong
      (a sequence was not found, or undefined behaviour) *)
  Record fmem := mk_fmem { f_maps : list umap; f_table : table; f_out : cells; f_ret : option cells; f_bad : bool }.
  Inductive fcmd :=
  | FIdentify (N w : nat)         (** identify_unique_symbols, with the publication of the first merge level, 436-438 *)
  | FMerge (w level : nat)        (** one round of merge_unique_symbols, 501-533, with the publication of the next level *)
  | FRegister                     (** register_unique_symbols, 701-705 *)
  | FDirect (o : nat)             (** sm_data[o] = entry of element o *)
  | FMirror (o o' : nat)          (** sm_data[o'] = mirrored entry of element o *)
  | FTake                         (** the matrix is made from sm_data *)
  | FWait (e : fsignal)
  | FSignal (e : fsignal).
  Definition map_of (s : fmem) (w : nat) : umap := nth w (f_maps s) [].
  Definition fset_maps (s : fmem) (l : list umap) : fmem := mk_fmem l (f_table s) (f_out s) (f_ret s) (f_bad s).
  Definition fset_out (s : fmem) (l : cells) : fmem := mk_fmem (f_maps s) (f_table s) l (f_ret s) (f_bad s).
  Definition fset_bad (s : fmem) : fmem := mk_fmem (f_maps s) (f_table s) (f_out s) (f_ret s) true.
  Definition put_cell (o : nat) (x : option (mono R)) (s : fmem) : fmem :=
    match x with Some e => fset_out s (set_at o (Some e) (f_out s)) | None => fset_bad s end.
  Definition run_fcmd (x : fcmd) (s : fmem) : fmem :=
    match x with
    | FIdentify N w => match mt_identify N w with Some u => fset_maps s (set_at w u (f_maps s)) | None => fset_bad s end
    | FMerge w level =>
        let other := w + 2 ^ (level - 1) in
        (* the other map has been moved from: nothing is in it any more *)
        fset_maps s (set_at other [] (set_at w (merge_maps (map_of s w) (map_of s other)) (f_maps s)))
    | FRegister => match merge_symbols (f_table s) (map snd (map_of s 0)) with
                   | Done t _ => mk_fmem (f_maps s) t (f_out s) (f_ret s) (f_bad s)
                   | _ => fset_bad s
                   end
    | FDirect o => put_cell o (entry_of (direct (f_table s)) o) s
    | FMirror o o' => put_cell o' (entry_of (mirror (f_table s)) o) s
    | FTake => mk_fmem (f_maps s) (f_table s) (f_out s) (Some (f_out s)) (f_bad s)
    | FWait _ | FSignal _ => s
    end.
  (** levels that become visible when a worker's merge level is first stored: all not below it, as far as anybody asks *)
  Definition first_levels (N w : nat) : list nat := seq (first_merge_level N w) (bit_width N + 1 - first_merge_level N w).
  (** Each round of merging is one step: its wait for the other worker's level (518-524), linear_map_merge, and the publication of
      its own level; nobody else may look at the two maps in between. *)
  Definition finstr (x : fcmd) : instr fmem fsignal :=
    match x with
    | FIdentify N w => mk_instr [FReady 0] (map (FLevel w) (first_levels N w)) (run_fcmd x)
    | FMerge w level => mk_instr [FLevel (w + 2 ^ (level - 1)) level] [FLevel w (level - 1)] (run_fcmd x)
    | FWait e => mk_instr [e] [] (run_fcmd x)
    | FSignal e => mk_instr [] [e] (run_fcmd x)
    | _ => mk_instr [] [] (run_fcmd x)
    end.
  (** merge_unique_symbols 501-533: rounds from the first level down to just above the final one *)
  Definition merges (N w : nat) : list fcmd :=
    map (fun i => FMerge w (first_merge_level N w - i)) (seq 0 (first_merge_level N w - final_merge_level w)).
  (** generate_symbol_matrix_generic 543-574 and generate_symbol_matrix_hermitian 576-620: the latter writes every entry and its mirror *)
  Definition generate (N w : nat) : list fcmd :=
    flat_map (fun col => flat_map (fun row =>
      let o := col * dim + row in let o' := row * dim + col in
      if hermitian then FDirect o :: (if Nat.eqb o o' then [] else [FMirror o o']) else [FDirect o]) (seq 0 dim)) (strided dim w N dim).
  (** execute, 318-348.  [throws w]: worker [w] throws while it identifies symbols; then its own promise and worker 0's receive the
      exception, and the thread ends. *)
  Definition fworker (N : nat) (throws : nat -> bool) (w : nat) : list fcmd :=
    if throws w then [FWait (FReady 0); FSignal (FPromised w 0)] ++ (if Nat.eqb w 0 then [] else [FSignal (FPromised 0 0)]) ++ [FSignal (FExited w)]
    else FIdentify N w :: merges N w ++ [FSignal (FPromised w 0); FWait (FReady 1)] ++ generate N w ++ [FSignal (FPromised w 1); FSignal (FExited w)].
  (** execute 665-684 with 686-720, and the destructor 659-663.  If some worker throws, worker 0's promise ends up with an exception
      (it needs everybody's map for a value), get() throws on it, and the factory is destroyed. *)
  Definition fmain (N : nat) (throws : nat -> bool) : list fcmd :=
    FSignal (FReady 0) ::
    (if existsb throws (seq 0 N) then [FWait (FPromised 0 0)]
     else map (fun w => FWait (FPromised w 0)) (seq 0 N) ++ [FRegister; FSignal (FReady 1)] ++ map (fun w => FWait (FPromised w 1)) (seq 0 N) ++ [FTake]) ++
    map (fun w => FWait (FExited w)) (seq 0 N).
  Definition fthreads (N : nat) (throws : nat -> bool) : list (list fcmd) := fmain N throws :: map (fworker N throws) (seq 0 N).
  Definition fprograms (N : nat) (throws : nat -> bool) : list (list (instr fmem fsignal)) := map (map finstr) (fthreads N throws).
  Definition ffresh (N : nat) (t : table) : fmem := mk_fmem (repeat [] N) t (repeat None (dim * dim)) None false.
  Definition no_throw (w : nat) : bool := false.
End Fac.
Arguments mk_fmem {R}. Arguments f_maps {R}. Arguments f_table {R}. Arguments f_out {R}. Arguments f_ret {R}. Arguments f_bad {R}.
