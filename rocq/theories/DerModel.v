(** The map from the symbols of a matrix system to those of a derived (symmetrized) one: scenarios/derived/map_core.cpp, lu_map_core_processor.cpp,
    symbol_table_map.cpp, derived_matrix_system.cpp, scenarios/symmetrized/symmetrized_matrix_system.cpp.
    Numbers are exact, [approximately_zero] is equality with zero.  Bit sets are the ascending lists of their set bits. *)
From Coq Require Import List NArith ZArith Arith Bool.
From Verif Require Import CoreModel FieldModel SymModel ParModel PolyModel.
Import ListNotations.

Section Der.
  Context {R : rfield}.
  Notation mono := (mono R).
  Definition nz (x : R) : bool := negb (r_eqb R x (r0 R)).

  (** An input matrix: dense, by rows and columns; or sparse, a list of stored (row, value) for each column, ascending rows. *)
  Inductive input := Dense (rows cols : nat) (at_ : nat -> nat -> R) | Sparse (rows : nat) (columns : list (list (nat * R))).
  Definition in_rows (x : input) : nat := match x with Dense r _ _ => r | Sparse r _ => r end.
  Definition in_cols (x : input) : nat := match x with Dense _ c _ => c | Sparse _ l => length l end.
  (** coeff of a column of a sparse matrix *)
  Definition coeff (col : list (nat * R)) (r : nat) : R := match find (fun e => Nat.eqb (fst e) r) col with Some e => snd e | None => r0 R end.

  (** MapCore, map_core.h:100-124, with DenseMapCore's core (one row for each nontrivial column) *)
  Record mapcore := mk_core { mc_cols : list nat; mc_rows : list nat; mc_consts : list (nat * R); mc_offset : list R; mc_core : list (list R) }.
  (** the columns looked at: all but the first and the skipped ones *)
  Definition used (skipped : nat -> bool) (cols : nat) : list nat := filter (fun c => negb (skipped c)) (seq 1 (cols - 1)).
  (** col_has_any_non_constant, map_core.cpp:47-57 *)
  Definition non_constant (rows : nat) (M : nat -> nat -> R) (c : nat) : bool := existsb (fun r => nz (M r c)) (seq 1 (rows - 1)).
  (** identify_nontrivial (dense), 37-99, and DenseMapCore(dense), 237-263; [None] = bad_map *)
  Definition dense_core (skipped : nat -> bool) (rows cols : nat) (M : nat -> nat -> R) : option mapcore :=
    if Nat.ltb cols 1 || Nat.ltb rows 1 then None
    else if negb (r_eqb R (M 0 0) (r1 R)) then None
    else if non_constant rows M 0 then None
    else let nt := filter (non_constant rows M) (used skipped cols) in
         let cs := filter (fun c => negb (non_constant rows M c)) (used skipped cols) in
         let rs := filter (fun r => existsb (fun c => nz (M r c)) nt) (seq 1 (rows - 1)) in
         Some (mk_core nt rs (map (fun c => (c, M 0 c)) cs) (map (M 0) nt) (map (fun c => map (fun r => M r c) rs) nt)).
  (** identify_nontrivial (sparse), 101-148, with [positive x] for x > 0: the constant of a column that is taken for constant *)
  Variable positive : R -> bool.
  Definition constant (col : list (nat * R)) : option R :=
    match col with
    | [] => Some (r0 R)
    | [_] => if positive (coeff col 0) then Some (coeff col 0) else None
    | _ => None
    end.
  (** remap_vector, 152-160; an index that is not listed is read as -1, and writing there is outside the core *)
  Fixpoint position (x : nat) (l : list nat) : option nat :=
    match l with [] => None | y :: l' => if Nat.eqb x y then Some 0 else option_map S (position x l') end.
  (** the rows of DenseMapCore(sparse), 266-304: offset, and values written to a row of zeros; [None]: written outside *)
  Definition split_offset (col : list (nat * R)) : R * list (nat * R) :=
    match col with (0, v) :: rest => (v, rest) | _ => (r0 R, col) end.
  Fixpoint write_row (rs : list nat) (col : list (nat * R)) (row : list R) : option (list R) :=
    match col with
    | [] => Some row
    | e :: rest => match position (fst e) rs with Some k => write_row rs rest (set_at k (snd e) row) | None => None end
    end.
  Fixpoint write_core (columns : list (list (nat * R))) (rs nt : list nat) : option (list (list R)) :=
    match nt with
    | [] => Some []
    | c :: rest => match write_row rs (snd (split_offset (nth c columns []))) (repeat (r0 R) (length rs)), write_core columns rs rest with
                   | Some row, Some l => Some (row :: l)
                   | _, _ => None
                   end
    end.
  (** [Some None] = bad_map, [None] = written outside *)
  Definition sparse_core (skipped : nat -> bool) (rows : nat) (columns : list (list (nat * R))) : option (option mapcore) :=
    if Nat.ltb (length columns) 1 || Nat.ltb rows 1 then Some None
    else if negb (Nat.eqb (length (nth 0 columns [])) 1) || negb (r_eqb R (coeff (nth 0 columns []) 0) (r1 R)) then Some None
    else let us := used skipped (length columns) in
         let nt := filter (fun c => match constant (nth c columns []) with Some _ => false | None => true end) us in
         let cs := flat_map (fun c => match constant (nth c columns []) with Some v => [(c, v)] | None => [] end) us in
         let rs := filter (fun r => existsb (fun c => existsb (fun e => Nat.eqb (fst e) r) (nth c columns [])) nt) (seq 1 (rows - 1)) in
         match write_core columns rs nt with
         | None => None
         | Some core => Some (Some (mk_core nt rs cs (map (fun c => fst (split_offset (nth c columns []))) nt) core))
         end.
  Definition core_of (skipped : nat -> bool) (x : input) : option (option mapcore) :=
    match x with Dense r c M => Some (dense_core skipped r c M) | Sparse r l => sparse_core skipped r l end.

  (** SolvedMapCore, map_core.h:28-72, dense parts *)
  Record matrix := mk_matrix { x_rows : nat; x_cols : nat; x_at : nat -> nat -> R }.
  Record solution := mk_solution { so_out : nat; so_dense : bool; so_map : matrix; so_inv : matrix }.
  (** do_check_solution, map_core.cpp:163-198 *)
  Definition check_solution (c : mapcore) (s : solution) : bool :=
    if so_dense s then Nat.eqb (length (mc_cols c)) (x_rows (so_map s)) && Nat.eqb (x_cols (so_map s)) (so_out s) && Nat.eqb (x_rows (so_inv s)) (so_out s) && Nat.eqb (x_cols (so_inv s)) (length (mc_rows c))
    else true.
  (** LUMapCoreProcessor on a dense core, lu_map_core_processor.cpp:18-47.  [lu]: Eigen's FullPivLU as rank, packed matrix, and the permutations P and Q as
      the functions that say to which row (column) of the packed matrix a row (column) goes. *)
  Variable full_piv_lu : list (list R) -> nat * (nat -> nat -> R) * (nat -> nat) * (nat -> nat).
  Definition lower (lu : nat -> nat -> R) (i k : nat) : R := if Nat.eqb i k then r1 R else if Nat.ltb k i then lu i k else r0 R.
  Definition upper (lu : nat -> nat -> R) (k j : nat) : R := if Nat.leb k j then lu k j else r0 R.
  Definition lu_process (c : mapcore) : option solution :=
    let rows := length (mc_cols c) in let cols := length (mc_rows c) in
    let none := mk_matrix 0 0 (fun _ _ => r0 R) in
    if Nat.eqb cols 0 || Nat.eqb rows 0 then Some (mk_solution 0 false none none)
    else let '(rank, lu, p, q) := full_piv_lu (mc_core c) in
         Some (mk_solution rank true (mk_matrix rows rank (fun i k => lower lu (p i) k)) (mk_matrix rank cols (fun k j => upper lu k (q j)))).

  (** SymbolTableMap *)
  Record symmap := mk_map { s_map : list (list mono); s_inv : list (list mono); s_target : table; s_mono : bool }.
  Inductive made := MBuilt (m : symmap) | MThrow | MUndef.
  (** Polynomial::Scalar, polynomial.h:370-372 *)
  Definition scalar (srt : list mono -> list mono) (x : R) : list mono := make_plain srt [mk_mono 1 false (creal x)].
  (** map[id] = p; [None]: outside *)
  Definition put_at (id : nat) (p : list mono) (l : list (list mono)) : option (list (list mono)) := if Nat.ltb id (length l) then Some (set_at id p l) else None.
  Fixpoint put_all (l : list (nat * list mono)) (m : list (list mono)) : option (list (list mono)) :=
    match l with [] => Some m | (id, p) :: l' => match put_at id p m with Some m' => put_all l' m' | None => None end end.
  (** unzip_indices, symbol_table_map.cpp:31-44; [None] = range_error *)
  Fixpoint unzip_indices (t : table) (idx : list nat) : option (list (nat * bool)) :=
    match idx with
    | [] => Some []
    | i :: rest => match map_index t i, unzip_indices t rest with Some x, Some l => Some (x :: l) | _, _ => None end
    end.
  (** the image of the k-th nontrivial column, 117-144 *)
  Definition row_terms (offset : R) (m : matrix) (k : nat) : list mono :=
    (if nz offset then [mk_mono 1 false (creal offset)] else []) ++
    flat_map (fun j => if nz (x_at m k j) then [mk_mono (j + 2) false (creal (x_at m k j))] else []) (seq 0 (x_cols m)).
  (** the new symbol number i + 2 in terms of the old ones, 156-170; [None]: read outside osg_to_symbols *)
  Fixpoint inv_terms (osg : list (nat * bool)) (m : matrix) (i : nat) (rs : list nat) (col : nat) : option (list mono) :=
    match rs with
    | [] => Some []
    | r :: rest =>
        match inv_terms osg m i rest (S col) with
        | None => None
        | Some l => if nz (x_at m i col) then match nth_error osg r with Some (id, cj) => Some (mk_mono id cj (creal (x_at m i col)) :: l) | None => None end else Some l
        end
    end.
  Fixpoint inv_all (srt : list mono -> list mono) (osg : list (nat * bool)) (m : matrix) (rs : list nat) (is_ : list nat) : option (list (list mono)) :=
    match is_ with
    | [] => Some []
    | i :: rest => match inv_terms osg m i rs 0, inv_all srt osg m rs rest with Some l, Some q => Some (make_plain srt l :: q) | _, _ => None end
    end.
  (** construct_map, 95-174: (map, inverse map); [None]: undefined *)
  Definition construct_map (srt : list mono -> list mono) (t : table) (osg : list (nat * bool)) (c : mapcore) (s : solution) : option (list (list mono) * list (list mono)) :=
    let sym i := match nth_error osg i with Some (id, _) => id | None => length (t_syms t) end in
    let n := length (t_syms t) in
    match put_all ((0, []) :: (1, scalar srt (r1 R)) :: map (fun x => (sym (fst x), scalar srt (snd x))) (mc_consts c) ++
                   map (fun k => (sym (nth k (mc_cols c) 0), make_plain srt (row_terms (nth k (mc_offset c) (r0 R)) (so_map s) k))) (seq 0 (length (mc_cols c))))
                  (repeat [] n),
          inv_all srt osg (so_inv s) (mc_rows c) (seq 0 (so_out s)) with
    | Some m, Some q => Some (m, [] :: scalar srt (r1 R) :: q)
    | _, _ => None
    end.
  (** populate_target_symbols, 176-197 *)
  Fixpoint populate (t : table) (target : table) (l : list (list mono)) : table :=
    match l with [] => target | p :: l' => populate t (fst (create target true (negb (is_hermitian t p)))) l' end.
  Definition is_monomial (p : list mono) : bool := Nat.leb (length p) 1.
  (** constructor from a matrix, 69-92; [solve] is the processor, [None] if it throws *)
  Definition make_map (srt : list mono -> list mono) (solve : mapcore -> option solution) (t target : table) (x : input) : made :=
    match unzip_indices t (seq 0 (in_cols x)) with
    | None => MThrow
    | Some osg =>
        match core_of (fun i => match nth_error osg i with Some (_, cj) => cj | None => false end) x with
        | None => MUndef
        | Some None => MThrow
        | Some (Some c) =>
            match solve c with
            | None => MThrow
            | Some s =>
                if check_solution c s then
                  match construct_map srt t osg c s with
                  | None => MUndef
                  | Some (m, q) => if Nat.eqb (length (t_syms target)) 2 then MBuilt (mk_map m q (populate t target (tl (tl q))) (forallb is_monomial m)) else MThrow
                  end
                else MThrow
            end
        end
    end.
  (** operator(), 204-241; [None] = bad_map *)
  Definition apply_id (m : symmap) (id : nat) : option (list mono) := nth_error (s_map m) id.
  Definition apply_mono (m : symmap) (x : mono) : option (list mono) :=
    match apply_id m (m_id x) with
    | None => None
    | Some p => let q := scale (m_f x) p in Some (if m_cj x then conjugate_poly (s_target m) q else q)
    end.
  Fixpoint apply_terms (m : symmap) (p : list mono) : option (list mono) :=
    match p with
    | [] => Some []
    | x :: p' => match apply_mono m x, apply_terms m p' with Some a, Some b => Some (a ++ b) | _, _ => None end
    end.
  Definition apply_poly (srt : list mono -> list mono) (m : symmap) (p : list mono) : option (list mono) := option_map (make_plain srt) (apply_terms m p).
  (** monomial, 266-278, one entry; [None] = bad_map *)
  Definition apply_monomial (m : symmap) (x : mono) : option mono :=
    if s_mono m then match apply_mono m x with Some p => mono_of_poly p | None => None end else None.

  (** SymmetrizedSTMFactory::operator(), symmetrized_matrix_system.cpp:34-38: the average of the matrices of a group, [inv_size] is 1 / size *)
  Definition average (inv_size : R) (mats : list (nat -> nat -> R)) : nat -> nat -> R := fun i j => rmul R inv_size (fold_right (fun d s => radd R (d i j) s) (r0 R) mats).
  (** create_moment_matrix, create_localizing_matrix, create_derived_matrix, derived_matrix_system.cpp:108-118, 144-157, 212-236: may a matrix be made whose
      entries are words of up to the given length? *)
  Inductive wanted := WMoment (level : nat) | WLocalizing (level word : nat) | WDerived (offset : Z).
  Definition allowed (longest size : nat) (w : wanted) : bool :=
    match w with
    | WMoment l => negb (Nat.ltb longest (l * 2))
    | WLocalizing l k => negb (Nat.ltb longest (l * 2 + k))
    | WDerived o => negb (Z.ltb o 0 || Z.leb (Z.of_nat size) o)
    end.
End Der.
Arguments input R : clear implicits. Arguments mapcore R : clear implicits. Arguments matrix R : clear implicits. Arguments solution R : clear implicits. Arguments symmap R : clear implicits. Arguments made R : clear implicits.
