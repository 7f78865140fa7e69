(** The bases of a matrix, made on first use by several threads: MatrixBasis, matrix_basis.h:30-76, and create_basis, matrix_basis.cpp:28-240.
    There are eight kinds: dense or sparse, real or complex coefficients, cellular or monolithic; a monolithic one is made from the cellular
    one, which it asks for while it holds the (recursive) mutex.  How bases are computed is in [BasModel]; here the computations are parameters.
    The atomic flag [done] (release/acquire) orders the accesses to the parts, so that threads are interleaved. *)
From Coq Require Import List Arith Bool.
Import ListNotations.

Record bkind := mk_bk { bk_dense : bool; bk_cplx : bool; bk_mono : bool }.
Definition bk_eqb (a b : bkind) : bool := Bool.eqb (bk_dense a) (bk_dense b) && Bool.eqb (bk_cplx a) (bk_cplx b) && Bool.eqb (bk_mono a) (bk_mono b).
(** getDenseCellular, getSparseCellular, matrix_basis.cpp:28-50: the kind from which a monolithic basis is made *)
Definition bk_cell (k : bkind) : bkind := mk_bk (bk_dense k) (bk_cplx k) false.

Section Lazy.
  Variable W : Type.                                  (* the real part of a basis, or the imaginary part *)
  Variable make : bool -> bool -> option (W * W).     (* create_dense, ... matrix_basis.cpp:161-187 (dense, complex); None: bad_basis_error *)
  Variable infer : bool -> bool -> W * W -> W * W.    (* do_infer_dense_monolithic, do_infer_sparse_monolithic, matrix_basis.cpp:52-146 *)
  (** one MatrixBasisImpl: [done], [re], [im] (None: not assigned).  [s_made] counts the bases made; it is not in the program *)
  Record slot := mk_slot { s_done : bool; s_re : option W; s_im : option W; s_made : nat }.
  (** all slots, and who owns the mutex how many times *)
  Record bshared := mk_bs { b_slot : bkind -> slot; b_lock : option (nat * nat) }.
  Definition set_slot (k : bkind) (x : slot) (s : bshared) : bshared := mk_bs (fun k' => if bk_eqb k' k then x else b_slot s k') (b_lock s).
  (** std::recursive_mutex *)
  Definition acquire (i : nat) (s : bshared) : option bshared :=
    match b_lock s with
    | None => Some (mk_bs (b_slot s) (Some (i, 1)))
    | Some (j, n) => if Nat.eqb j i then Some (mk_bs (b_slot s) (Some (i, S n))) else None
    end.
  Definition release (s : bshared) : bshared :=
    mk_bs (b_slot s) (match b_lock s with Some (i, S (S n)) => Some (i, S n) | _ => None end).
  (** where a call of operator() is, matrix_basis.h:56-76 *)
  Inductive bpc :=
  | PCheck                          (* 57 *)
  | PLock                           (* 62 *)
  | PAgain                          (* 63 *)
  | PMake (arg : option (W * W))    (* 68, with the cellular basis for a monolithic one *)
  | PRe (v : W * W)                 (* 69 *)
  | PIm (v : W * W)                 (* 70 *)
  | PStore                          (* 71 *)
  | PRead.                          (* 74 *)
  (** a call goes on, asks for the cellular basis, ends with a result (None: exception), or waits *)
  Inductive bact := Go (p : bpc) (s : bshared) | Ask (s : bshared) | End_ (o : option (option W * option W)) (s : bshared) | Wait_.
  Definition parts (x : slot) : option W * option W := (s_re x, s_im x).
  Definition call_step (i : nat) (k : bkind) (p : bpc) (s : bshared) : bact :=
    let x := b_slot s k in
    match p with
    | PCheck => if s_done x then End_ (Some (parts x)) s else Go PLock s
    | PLock => match acquire i s with Some s' => Go PAgain s' | None => Wait_ end
    | PAgain => if s_done x then End_ (Some (parts x)) (release s) else if bk_mono k then Ask s else Go (PMake None) s
    | PMake arg =>
        match (match arg with Some v => Some (infer (bk_dense k) (bk_cplx k) v) | None => make (bk_dense k) (bk_cplx k) end) with
        | Some v => Go (PRe v) (set_slot k (mk_slot (s_done x) (s_re x) (s_im x) (S (s_made x))) s)
        | None => End_ None (release s)
        end
    | PRe v => Go (PIm v) (set_slot k (mk_slot (s_done x) (Some (fst v)) (s_im x) (s_made x)) s)
    | PIm v => Go PStore (set_slot k (mk_slot (s_done x) (s_re x) (Some (snd v)) (s_made x)) s)
    | PStore => Go PRead (set_slot k (mk_slot true (s_re x) (s_im x) (s_made x)) s)
    | PRead => End_ (Some (parts x)) (release s)
    end.
  (** a thread: bases it will ask for; the call it is in; what it got.  [InSub]: in the call for the cellular basis, inside the one for [k] *)
  Inductive bloc := Out | InTop (k : bkind) (p : bpc) | InSub (k : bkind) (p : bpc).
  Record bthread := mk_bt { bt_todo : list bkind; bt_loc : bloc; bt_log : list (bkind * option (option W * option W)) }.
  Definition bthread_step (i : nat) (t : bthread) (s : bshared) : option (bthread * bshared) :=
    match bt_loc t with
    | Out => match bt_todo t with [] => None | k :: r => Some (mk_bt r (InTop k PCheck) (bt_log t), s) end
    | InTop k p =>
        match call_step i k p s with
        | Go p' s' => Some (mk_bt (bt_todo t) (InTop k p') (bt_log t), s')
        | Ask s' => Some (mk_bt (bt_todo t) (InSub k PCheck) (bt_log t), s')
        | End_ o s' => Some (mk_bt (bt_todo t) Out (bt_log t ++ [(k, o)]), s')
        | Wait_ => None
        end
    | InSub k p =>
        match call_step i (bk_cell k) p s with
        | Go p' s' => Some (mk_bt (bt_todo t) (InSub k p') (bt_log t), s')
        | Ask s' => Some (mk_bt (bt_todo t) Out (bt_log t ++ [(k, None)]), release s')      (* does not happen: [bk_cell k] is cellular *)
        | End_ (Some (Some a, Some b)) s' => Some (mk_bt (bt_todo t) (InTop k (PMake (Some (a, b)))) (bt_log t), s')
        | End_ _ s' => Some (mk_bt (bt_todo t) Out (bt_log t ++ [(k, None)]), release s')   (* the exception leaves both calls *)
        | Wait_ => None
        end
    end.
  Record bstate := mk_bstate { bs_shared : bshared; bs_threads : list bthread }.
  Definition bstep (i : nat) (st : bstate) : option bstate :=
    match nth_error (bs_threads st) i with
    | None => None
    | Some t => match bthread_step i t (bs_shared st) with
                | None => None
                | Some (t', s') => Some (mk_bstate s' (firstn i (bs_threads st) ++ t' :: skipn (S i) (bs_threads st)))
                end
    end.
  Fixpoint brun (sched : list nat) (st : bstate) : bstate :=
    match sched with [] => st | i :: r => brun r (match bstep i st with Some st' => st' | None => st end) end.
  (** a new matrix: no basis yet *)
  Definition bstart (progs : list (list bkind)) : bstate :=
    mk_bstate (mk_bs (fun _ => mk_slot false None None 0) None) (map (fun p => mk_bt p Out []) progs).
End Lazy.
Arguments bs_shared {W}. Arguments bs_threads {W}. Arguments bt_todo {W}. Arguments bt_loc {W}. Arguments bt_log {W}. Arguments mk_bt {W}.
Arguments b_slot {W}. Arguments b_lock {W}. Arguments s_done {W}. Arguments s_re {W}. Arguments s_im {W}. Arguments s_made {W}.
Arguments mk_slot {W}. Arguments mk_bs {W}. Arguments mk_bstate {W}. Arguments Out {W}. Arguments InTop {W}. Arguments InSub {W}.
Arguments PCheck {W}. Arguments PLock {W}. Arguments PAgain {W}. Arguments PMake {W}. Arguments PRe {W}. Arguments PIm {W}. Arguments PStore {W}. Arguments PRead {W}.
