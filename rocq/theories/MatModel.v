(** Operator matrices: single-threaded and multi-threaded generation.

    Elements are of an arbitrary type [A] (the operator sequences), generated by an arbitrary functor; the context supplies
    conjugation and simplification to moments.  Cells hold [None] until written (OperatorSequence::create_uninitialized_vector). *)
From Coq Require Import List Arith Bool.
From Verif Require Import ParModel.
Import ListNotations.

Section Mat.
  Variable A : Type.
  (** the functor applied to (row sequence, column sequence); hermitian conjugation; Context::simplify_as_moment *)
  Variables (f : A -> A -> A) (cj sm : A -> A).

  (** matrix/operator_matrix/operator_matrix_factory_singlethreaded.h:59-71 (make_unaliased): columns outside, rows inside *)
  Definition st_generate (rows cols : list A) : list A := flat_map (fun c => map (fun r => f r c) rows) cols.
  (** operator_matrix_factory_singlethreaded.h:73-86 (make_aliased): every element simplified as a moment *)
  Definition st_aliased (m : list A) : list A := map sm m.

  (** signals: the two ready flags (operator_matrix_factory_multithreaded.h:311-312), a worker's two promises (47-48), and the
      end of a worker's thread *)
  Inductive signal := Ready (phase : nat) | Promised (worker phase : nat) | Exited (worker : nat).
  (** shared memory: os_data_ptr, alias_data_ptr (315-318) and the two matrices handed back *)
  Record mat_mem := mk_mem { m_os : list (option A); m_al : list (option A); m_ret : option (list (option A)); m_ret_al : option (list (option A)) }.
  Definition cell (l : list (option A)) (i : nat) : option A := match nth_error l i with Some x => x | None => None end.

  (** what the threads do *)
  Inductive cmd :=
  | CPut (i : nat) (v : option A)       (** os[i] = v *)
  | CMirror (i j : nat)                 (** os[i] = os[j].conjugate() *)
  | CAlias (i j : nat)                  (** alias[i] = simplify_as_moment(os[j]) *)
  | CAliasMirror (i j : nat)            (** alias[i] = alias[j].conjugate() *)
  | CTake                               (** the operator matrix is constructed from os, and checked for Hermiticity *)
  | CTakeAlias                          (** the same for alias *)
  | CWait (e : signal)
  | CSignal (e : signal).
  Definition run_cmd (c : cmd) (m : mat_mem) : mat_mem :=
    match c with
    | CPut i v => mk_mem (set_at i v (m_os m)) (m_al m) (m_ret m) (m_ret_al m)
    | CMirror i j => mk_mem (set_at i (option_map cj (cell (m_os m) j)) (m_os m)) (m_al m) (m_ret m) (m_ret_al m)
    | CAlias i j => mk_mem (m_os m) (set_at i (option_map sm (cell (m_os m) j)) (m_al m)) (m_ret m) (m_ret_al m)
    | CAliasMirror i j => mk_mem (m_os m) (set_at i (option_map cj (cell (m_al m) j)) (m_al m)) (m_ret m) (m_ret_al m)
    | CTake => mk_mem (m_os m) (m_al m) (Some (m_os m)) (m_ret_al m)
    | CTakeAlias => mk_mem (m_os m) (m_al m) (m_ret m) (Some (m_al m))
    | CWait _ | CSignal _ => m
    end.
  Definition instr_of (c : cmd) : instr mat_mem signal :=
    mk_instr (match c with CWait e => [e] | _ => [] end) (match c with CSignal e => [e] | _ => [] end) (run_cmd c).
  (** memory locations read and written *)
  Inductive loc := LOs (i : nat) | LAl (i : nat) | LRet | LRetAl.
  Definition writes (c : cmd) : list loc :=
    match c with CPut i _ | CMirror i _ => [LOs i] | CAlias i _ | CAliasMirror i _ => [LAl i] | CTake => [LRet] | CTakeAlias => [LRetAl] | _ => [] end.
  Definition reads (numel : nat) (c : cmd) : list loc :=
    match c with CMirror _ j | CAlias _ j => [LOs j] | CAliasMirror _ j => [LAl j] | CTake => map LOs (seq 0 numel) | CTakeAlias => map LAl (seq 0 numel) | _ => [] end.

  Variables rows cols : list A.
  (** factory.dimension (operator_matrix_factory.h:119) *)
  Definition dim : nat := length cols.
  Definition elem (r c : nat) : option A :=
    match nth_error rows r, nth_error cols c with Some x, Some y => Some (f x y) | _, _ => None end.
  (** for (col_idx = worker_id; col_idx < row_length; col_idx += max_workers) *)
  Fixpoint strided (fuel c step n : nat) : list nat :=
    match fuel with O => [] | S k => if Nat.ltb c n then c :: strided k (c + step) step n else [] end.
  (** for (row_idx = col_idx + 1; row_idx < row_length; ++row_idx) *)
  Definition below (c : nat) : list nat := seq (S c) (dim - S c).

  (** operator_matrix_factory_multithreaded.h:116-144 (generate_operator_sequence_matrix_hermitian) *)
  Definition gen_hermitian (N w : nat) : list cmd :=
    flat_map (fun c => CPut (c * dim + c) (elem c c) ::
      flat_map (fun r => [CPut (c * dim + r) (elem r c); CMirror (r * dim + c) (c * dim + r)]) (below c)) (strided dim w N dim).
  (** operator_matrix_factory_multithreaded.h:149-197 (generate_operator_sequence_matrix_generic); the worker's own note of the first
      non-Hermitian element is left out: it is gathered by determine_hermitian_status (473-485) and never read again, because the
      matrix constructor looks for itself (operator_matrix.cpp:48-52) *)
  Definition gen_generic (N w : nat) : list cmd :=
    flat_map (fun c => CPut (c * dim + c) (elem c c) ::
      flat_map (fun r => [CPut (c * dim + r) (elem r c); CPut (r * dim + c) (elem c r)]) (below c)) (strided dim w N dim).
  (** operator_matrix_factory_multithreaded.h:199-205 *)
  Definition gen (could_be_non_hermitian : bool) (N w : nat) : list cmd :=
    if could_be_non_hermitian then gen_generic N w else gen_hermitian N w.
  (** operator_matrix_factory_multithreaded.h:207-252 *)
  Definition alias_generic (N w : nat) : list cmd :=
    flat_map (fun c => CAlias (c * dim + c) (c * dim + c) ::
      flat_map (fun r => [CAlias (c * dim + r) (c * dim + r); CAlias (r * dim + c) (r * dim + c)]) (below c)) (strided dim w N dim).
  (** operator_matrix_factory_multithreaded.h:255-280 *)
  Definition alias_hermitian (N w : nat) : list cmd :=
    flat_map (fun c => CAlias (c * dim + c) (c * dim + c) ::
      flat_map (fun r => [CAlias (c * dim + r) (c * dim + r); CAliasMirror (r * dim + c) (c * dim + r)]) (below c)) (strided dim w N dim).
  (** operator_matrix_factory_multithreaded.h:283-289 *)
  Definition alias (could_be_non_hermitian : bool) (N w : nat) : list cmd :=
    if could_be_non_hermitian then alias_generic N w else alias_hermitian N w.

  (** operator_matrix_factory_multithreaded.h:87-111 (execute).  [throws w = Some k]: the functor throws at worker w's k-th action;
      then the promise receives the exception and the thread exits. *)
  Definition worker (nonh can_alias : bool) (N : nat) (throws : nat -> option nat) (w : nat) : list cmd :=
    CWait (Ready 0) ::
    match throws w with
    | Some k => firstn k (gen nonh N w) ++ [CSignal (Promised w 0)] ++ [CSignal (Exited w)]
    | None => gen nonh N w ++ [CSignal (Promised w 0)] ++
        (if can_alias then CWait (Ready 1) :: alias nonh N w ++ [CSignal (Promised w 1)] else []) ++ [CSignal (Exited w)]
    end.
  (** operator_matrix_factory_multithreaded.h:378-414, 421-436 with 439-471 and the destructor 367-371.  Futures are waited for in
      order; the first that holds an exception makes get() throw, and the factory is destroyed (all threads joined). *)
  Definition main_thread (can_alias : bool) (N : nat) (throws : nat -> option nat) : list cmd :=
    CSignal (Ready 0) ::
    match find (fun w => match throws w with Some _ => true | None => false end) (seq 0 N) with
    | Some w0 => map (fun w => CWait (Promised w 0)) (seq 0 (S w0))
    | None => map (fun w => CWait (Promised w 0)) (seq 0 N) ++ [CTake] ++
        (if can_alias then CSignal (Ready 1) :: map (fun w => CWait (Promised w 1)) (seq 0 N) ++ [CTakeAlias] else [])
    end ++ map (fun w => CWait (Exited w)) (seq 0 N).
  Definition threads (nonh can_alias : bool) (N : nat) (throws : nat -> option nat) : list (list cmd) :=
    main_thread can_alias N throws :: map (worker nonh can_alias N throws) (seq 0 N).
  Definition programs (nonh can_alias : bool) (N : nat) (throws : nat -> option nat) : list (list (instr mat_mem signal)) :=
    map (map instr_of) (threads nonh can_alias N throws).
  (** freshly allocated memory *)
  Definition fresh : mat_mem := mk_mem (repeat None (dim * dim)) (repeat None (dim * dim)) None None.
  Definition nothing_throws (w : nat) : option nat := None.
End Mat.
Arguments CPut {A}. Arguments CMirror {A}. Arguments CAlias {A}. Arguments CAliasMirror {A}. Arguments CTake {A}. Arguments CTakeAlias {A}.
Arguments CWait {A}. Arguments CSignal {A}. Arguments mk_mem {A}. Arguments m_os {A}. Arguments m_al {A}. Arguments m_ret {A}. Arguments m_ret_al {A}.
Arguments cell {A}. Arguments run_cmd {A}. Arguments instr_of {A}. Arguments writes {A}. Arguments reads {A}.
Arguments st_generate {A}. Arguments st_aliased {A}. Arguments dim {A}. Arguments elem {A}. Arguments below {A}.
Arguments gen_hermitian {A}. Arguments gen_generic {A}. Arguments gen {A}. Arguments alias_generic {A}. Arguments alias_hermitian {A}. Arguments alias {A}.
Arguments worker {A}. Arguments main_thread {A}. Arguments threads {A}. Arguments programs {A}. Arguments fresh {A}.
