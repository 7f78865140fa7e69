(** Model of tensor/square_matrix.h: square matrices stored column by column.
    Simplification: offsets are natural numbers (the data is in memory, so they fit in 64 bits). *)
From Coq Require Import List NArith Arith Bool.
From Verif Require Import CoreModel AlgModel EnumModel.
Import ListNotations.

Section Square.
  Context {E : Type}.
  (** dimension 347 and data 351 *)
  Record square := mk_square { sq_dim : nat; sq_data : list E }.
  (** operator()(row, col) 449-462: the offset of a two-dimensional last-index-major tensor; None = read outside the data *)
  Definition sq_get (m : square) (row col : nat) : option E := nth_error (sq_data m) (row + col * sq_dim m).
  (** TransposeView::operator() 120-122 *)
  Definition sq_get_transposed (m : square) (row col : nat) : option E := sq_get m col row.

  (** TransposeIterator: begin 57, end 60-61, operator++ 64-74, operator* 95-97 *)
  Definition transpose_step (d : nat) (rc : nat * nat) : res (nat * nat) :=
    let (row, col) := rc in
    let row := S row in
    if Nat.leb d row then
      let col := S col in
      if Nat.leb d col then Ret (row, col) else Ret (0, col)
    else Ret (row, col).
  Definition transpose_run (fuel : nat) (m : square) : res (list (option E)) :=
    let d := sq_dim m in
    run_iter fuel (fun rc => Nat.eqb (fst rc) d && Nat.eqb (snd rc) d)
      (fun rc => nth_error (sq_data m) (fst rc * d + snd rc)) (transpose_step d) (0, 0).

  (** TriangularIterator<upper, inclusive> 128-240 *)
  Record tri_it := mk_tri_it { ti_row : nat; ti_col : nat; ti_offset : nat }.
  (** begin 147-151 *)
  Definition tri_begin (upper inclusive : bool) (d : nat) : tri_it :=
    if inclusive then mk_tri_it 0 0 0
    else if upper then mk_tri_it 0 1 d else mk_tri_it 1 0 (Nat.min 1 (d * d)).
  (** offset of the end iterator 153-157 *)
  Definition tri_end (upper inclusive : bool) (d : nat) : nat :=
    if upper || negb inclusive then d * d else d * d + d.
  (** operator++ 175-212 *)
  Definition tri_next (upper inclusive : bool) (d : nat) (it : tri_it) : res tri_it :=
    let offset := S (ti_offset it) in
    let row := S (ti_row it) in
    let col := ti_col it in
    if upper then
      if inclusive then
        if Nat.ltb col row then Ret (mk_tri_it 0 (S col) (offset + (d - col - 1))) else Ret (mk_tri_it row col offset)
      else
        if Nat.leb col row then Ret (mk_tri_it 0 (S col) (offset + (d - col))) else Ret (mk_tri_it row col offset)
    else
      if inclusive then
        if Nat.leb d row then Ret (mk_tri_it (S col) (S col) (offset + S col)) else Ret (mk_tri_it row col offset)
      else
        if Nat.leb d row then Ret (mk_tri_it (S (S col)) (S col) (offset + S (S col))) else Ret (mk_tri_it row col offset).
  (** A whole traversal: Row(), Col(), Offset() and operator* of each position; equality compares offsets 229-238 *)
  Definition triangle_run (fuel : nat) (upper inclusive : bool) (m : square) : res (list (nat * nat * nat * option E)) :=
    let d := sq_dim m in
    run_iter fuel (fun it => Nat.eqb (ti_offset it) (tri_end upper inclusive d))
      (fun it => (ti_row it, ti_col it, ti_offset it, nth_error (sq_data m) (ti_offset it)))
      (tri_next upper inclusive d) (tri_begin upper inclusive d).

  (** pad 512-529: columns are copied one by one, each followed by [padding] zeros, then [padding] columns of zeros *)
  Definition column (m : square) (i : nat) : list E := firstn (sq_dim m) (skipn (i * sq_dim m) (sq_data m)).
  Definition sq_pad (m : square) (padding : nat) (zero : E) : square :=
    let d := sq_dim m + padding in
    mk_square d (flat_map (fun i => column m i ++ repeat zero padding) (seq 0 (sq_dim m)) ++ repeat zero (padding * d)).
End Square.
Arguments square E : clear implicits.
