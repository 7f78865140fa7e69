(** Extended moment matrices, scenarios/inflation/extended_matrix.cpp, and their making by several threads,
    scenarios/inflation/multithreading/.

    Simplifications: as in FTabModel; a matrix is a function of row and column; only the positions below the dimension are meant.
    The parts of TemporarySymbolsAndFactors::find_or_register_factors between taking and releasing a lock are single steps (the locks are
    those of a std::shared_mutex; readers change nothing).  A pointer into the tree of new factors is the path to the node: nodes are never
    moved or deleted (IndexTree keeps children as unique_ptr). *)
From Coq Require Import List ZArith Arith Bool.
From Verif Require Import CoreModel FieldModel AlgModel InfModel TreeModel MatModel FTabModel.
Import ListNotations.

Section Ext.
  (** matrix elements, and the element made from a symbol: Monomial{id} *)
  Variables (A : Type) (mono : nat -> A).
  Definition matrix := nat -> nat -> A.
  Definition put (cells : list (nat * nat)) (f : nat -> nat -> A) (m : matrix) : matrix :=
    fun i j => if existsb (fun x => (fst x =? i) && (snd x =? j)) cells then f i j else m i j.
  (** SquareMatrix::pad, square_matrix.h:512-529 *)
  Definition pad (n : nat) (src : matrix) : matrix := fun i j => if (i <? n) && (j <? n) then src i j else mono 0.
  Definition both (i j : nat) : list (nat * nat) := [(i, j); (j, i)].

  Section Single.
    Variables (c : ictx) (fuel : nat) (scratch : list nat) (grow_to : nat -> nat).
    (** the symbol of a generator, extended_matrix.cpp:86-92.  A generator without a symbol is undefined behaviour: the assertions are off. *)
    Definition generator_symbol (t : ftab) (w : word) : fout nat :=
      fbind (canonical_seq c fuel scratch (Some w)) (fun q => match find_seq q (ft_syms t) with Some k => FOk k | None => FUndef end).
    (** the inner loop for a generator, 96-109 *)
    Fixpoint extend_row (t : ftab) (m : matrix) (source : list nat) (row col : nat) (exts : list nat) : fout (ftab * matrix) :=
      match exts with
      | [] => FOk (t, m)
      | s :: exts' =>
          fbind (entry_of t s) (fun e =>
          fbind (combine_and_register grow_to t source (fe_syms e)) (fun x => let '(t', id) := x in
          extend_row t' (put (both row col) (fun _ _ => mono id) m) source row (S col) exts'))
      end.
    (** the loop over the generators, 85-113 *)
    Fixpoint extend_rows (t : ftab) (m : matrix) (n row : nat) (words : list word) (exts : list nat) : fout (ftab * matrix) :=
      match words with
      | [] => FOk (t, m)
      | w :: words' =>
          fbind (generator_symbol t w) (fun k =>
          fbind (entry_of t k) (fun e =>
          fbind (extend_row t m (fe_syms e) row n exts) (fun x => let '(t', m') := x in extend_rows t' m' n (S row) words' exts)))
      end.
    (** has the vector of entries been moved to other memory? *)
    Definition moved (t t' : ftab) : bool := negb (length (ft_entries t') =? length (ft_entries t)) && (ft_cap t <=? length (ft_entries t)).
    (** 122-129: the rest of a row of the bottom right block.  [valid]: the reference to the row's factors still refers to them. *)
    Fixpoint corner_row (t : ftab) (m : matrix) (valid : bool) (rowf : list nat) (row col : nat) (exts : list nat) : fout (ftab * matrix) :=
      match exts with
      | [] => FOk (t, m)
      | s :: exts' =>
          fbind (entry_of t s) (fun e =>
          if negb valid then FUndef
          else fbind (combine_and_register grow_to t rowf (fe_syms e)) (fun x => let '(t', id) := x in
               corner_row t' (put (both row col) (fun _ _ => mono id) m) (negb (moved t t')) rowf row (S col) exts'))
      end.
    (** 115-130 *)
    Fixpoint corner (t : ftab) (m : matrix) (row : nat) (exts : list nat) : fout (ftab * matrix) :=
      match exts with
      | [] => FOk (t, m)
      | s :: exts' =>
          fbind (entry_of t s) (fun e =>
          fbind (combine_and_register grow_to t (fe_syms e) (fe_syms e)) (fun x => let '(t', id) := x in
          fbind (corner_row t' (put [(row, row)] (fun _ _ => mono id) m) (negb (moved t t')) (fe_syms e) row (S row) exts') (fun y =>
          let '(t'', m'') := y in corner t'' m'' (S row) exts')))
      end.
    (** make_extended_matrix_single_thread, 57-132 *)
    Definition extend_single (t : ftab) (n : nat) (src : matrix) (words : list word) (exts : list nat) : fout (ftab * matrix) :=
      if existsb (fun s => length (ft_syms t) <=? s) exts then FThrow
      else fbind (extend_rows t (pad n src) n 0 words exts) (fun x => let '(t', m') := x in corner t' m' n exts).
  End Single.

  (** * Several threads *)
  (** what a worker does: copy a column; find or register factors and write the symbol *)
  Inductive action := ACopy (col : nat) | AReq (ks : list nat) (cells : list (nat * nat)).
  Definition cells_of (n : nat) (a : action) : list (nat * nat) := match a with ACopy col => map (fun r => (r, col)) (seq 0 n) | AReq _ cells => cells end.
  (** find_factors_by_symbol_id, temporary_symbols_and_factors.cpp:25-32 *)
  Definition factors_by_id (t : ftab) (k : nat) : fout (list nat) := fbind (entry_of t k) (fun e => FOk (fe_syms e)).
  Fixpoint collect {X Y} (f : X -> fout Y) (l : list X) : fout (list Y) :=
    match l with [] => FOk [] | x :: l' => fbind (f x) (fun y => fbind (collect f l') (fun ys => FOk (y :: ys))) end.
  (** requests for the product of a column with the rows from [row] on *)
  Definition requests (t : ftab) (colf : list nat) (col row : nat) (exts : list nat) : fout (list action) :=
    collect (fun x => fbind (factors_by_id t (snd x)) (fun rowf => FOk (AReq (combine_factors colf rowf) (both (fst x) col)))) (List.combine (seq row (length exts)) exts).
  (** ExtendedMatrixWorker::execute, extended_matrix_worker.cpp:40-102; [cols] are the symbols of the generators *)
  Definition program (t : ftab) (cols exts : list nat) (workers w : nat) : fout (list action) :=
    let n := length cols in
    fbind (collect (fun col => fbind (factors_by_id t (nth col cols 0)) (fun colf =>
             fbind (requests t colf col n exts) (fun l => FOk (ACopy col :: l)))) (strided n w workers n)) (fun side =>
    fbind (collect (fun j => fbind (factors_by_id t (nth j exts 0)) (fun colf =>
             fbind (requests t colf (n + j) (n + S j) (skipn (S j) exts)) (fun l => FOk (AReq (combine_factors colf colf) [(n + j, n + j)] :: l))))
             (strided (length exts) w workers (length exts))) (fun corner =>
    FOk (concat side ++ concat corner))).

  (** the workers are numbered from 0: extended_matrix_worker.cpp:24-38 and multithreading of moment matrices *)
  Definition programs (t : ftab) (cols exts : list nat) (workers : nat) : fout (list (list action)) := collect (program t cols exts workers) (seq 0 workers).

  (** the index tree of the new factors, the new factors with their sequences; the matrix; for each worker, the number of actions done
      and the hint it is holding: temporary_symbols_and_factors.h *)
  Record mstate := mk_mstate {
    ms_tree : itree nat; ms_defs : list (list nat * list (option word)); ms_mat : matrix; ms_work : list (nat * option (list Z * list Z)) }.
  Section Multi.
    Variables (t : ftab) (n : nat) (src : matrix) (progs : list (list action)).
    Definition ms_set (s : mstate) (w pc : nat) (h : option (list Z * list Z)) : list (nat * option (list Z * list Z)) :=
      firstn w (ms_work s) ++ (pc, h) :: skipn (S w) (ms_work s).
    Definition ms_write (s : mstate) (w pc : nat) (cells : list (nat * nat)) (f : nat -> nat -> A) : mstate :=
      mk_mstate (ms_tree s) (ms_defs s) (put cells f (ms_mat s)) (ms_set s w (S pc) None).
    (** find_or_register_factors, temporary_symbols_and_factors.cpp:34-86: up to the release of the read lock; from the taking of the write
        lock *)
    Definition look (s : mstate) (w pc : nat) (ks : list nat) (cells : list (nat * nat)) : fout mstate :=
      match find_factors t ks with
      | Some id => FOk (ms_write s w pc cells (fun _ _ => mono id))
      | None =>
          match t_hint (key ks) (ms_tree s) with
          | (node, []) => match t_value node with Some id => FOk (ms_write s w pc cells (fun _ _ => mono id)) | None => FTerminate end
          | (_, rest) => FOk (mk_mstate (ms_tree s) (ms_defs s) (ms_mat s)
                                (ms_set s w pc (Some (firstn (length ks - length rest) (key ks), rest))))
          end
      end.
    Definition register (s : mstate) (w pc : nat) (hint : list Z * list Z) (ks : list nat) (cells : list (nat * nat)) : fout mstate :=
      fbind (sequences_of (ft_syms t) ks) (fun qs =>
      match t_find_node (fst hint) (ms_tree s) with
      | None => FUndef
      | Some node =>
          match t_find (snd hint) node with
          | Some id => FOk (ms_write s w pc cells (fun _ _ => mono id))
          | None => let id := length (ft_syms t) + length (ms_defs s) in
                    FOk (mk_mstate (t_add (key ks) id (ms_tree s)) (ms_defs s ++ [(ks, qs)]) (put cells (fun _ _ => mono id) (ms_mat s)) (ms_set s w (S pc) None))
          end
      end).
    (** one step of worker [w] *)
    Definition mstep (s : mstate) (w : nat) : fout mstate :=
      match nth_error (ms_work s) w, nth_error progs w with
      | Some (pc, h), Some prog =>
          match nth_error prog pc, h with
          | None, _ => FOk s
          | Some (ACopy col), _ => FOk (ms_write s w pc (cells_of n (ACopy col)) src)
          | Some (AReq ks cells), None => look s w pc ks cells
          | Some (AReq ks cells), Some hint => register s w pc hint ks cells
          end
      | _, _ => FOk s
      end.
    (** an execution: the workers in the order in which they take steps *)
    Fixpoint mrun (s : mstate) (order : list nat) : fout mstate :=
      match order with [] => FOk s | w :: order' => fbind (mstep s w) (fun s' => mrun s' order') end.
    Definition mstart : mstate := mk_mstate t_root [] (fun _ _ => mono 0) (map (fun _ => (0, None)) progs).
    Definition mdone (s : mstate) : Prop := forall w pc h prog, nth_error (ms_work s) w = Some (pc, h) -> nth_error progs w = Some prog -> length prog <= pc.
    (** register_new_symbols_and_factors, 88-106 *)
    Definition mfinish (grow_to : nat -> nat) (s : mstate) : ftab * matrix := (register_all grow_to t (ms_defs s) (ms_tree s), ms_mat s).
  End Multi.
End Ext.
Arguments put {A}. Arguments pad {A}. Arguments mk_mstate {A}. Arguments ms_tree {A}. Arguments ms_defs {A}. Arguments ms_mat {A}. Arguments ms_work {A}.
Arguments extend_row {A}. Arguments extend_rows {A}. Arguments corner_row {A}. Arguments corner {A}. Arguments extend_single {A}. Arguments ms_set {A}. Arguments ms_write {A}.
Arguments look {A}. Arguments register {A}. Arguments mstep {A}. Arguments mrun {A}. Arguments mstart {A}. Arguments mdone {A}. Arguments mfinish {A}.
