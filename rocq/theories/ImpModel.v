(** Importing matrices of monomials: scenarios/imported/imported_matrix_system.cpp, imported_context.cpp.
    Coefficients are exact.  Matrices are stored by columns: element (i, j) is at j * d + i. *)
From Coq Require Import List NArith ZArith Arith Bool.
From Verif Require Import CoreModel FieldModel SymModel PolyModel BasModel.
Import ListNotations.

Section Imp.
  Context {R : rfield}.
  Notation mono := (mono R).
  (** DynamicBitset::unset, utilities/dynamic_bitset.h:126-130: [BitsetModel], here as a list of bits *)
  Fixpoint unset (id : nat) (l : list bool) : list bool :=
    match l, id with
    | [], _ => []
    | _ :: r, 0 => false :: r
    | b :: r, S i => b :: unset i r
    end.
  Notation bits := (list bool * list bool)%type.  (* can_be_real, can_be_imaginary *)
  (** |f| = |g| *)
  Definition same_modulus (f g : cx R) : bool := ceqb (cmul f (cconj f)) (cmul g (cconj g)).
  (** input({i, j}) *)
  Definition elem (d : nat) (cells : list mono) (i j : nat) : mono := nth (j * d + i) cells (mk_mono 0 false c0).
  (** the comparison of an element with its mirror image: checkIMSymmetric, 30-53, and checkIMHermitian, 65-94 ([hermitian]).
      [None]: bad_import_matrix.  The last lines of checkIMHermitian have no effect: it is only called if can_be_complex. *)
  Definition check_pair (hermitian : bool) (upper lower : mono) (b : bits) : option bits :=
    let '(re, im) := b in
    if negb (Nat.eqb (m_id upper) (m_id lower)) || negb (same_modulus (m_f upper) (m_f lower)) then None
    else
      let conj_eq := if hermitian then negb (Bool.eqb (m_cj upper) (m_cj lower)) else Bool.eqb (m_cj upper) (m_cj lower) in
      let neg_eq := ceqb (m_f upper) (m_f lower) in
      Some (if conj_eq then if neg_eq then (re, im) else (unset (m_id upper) re, unset (m_id upper) im)
            else if neg_eq then (re, unset (m_id upper) im) else (unset (m_id upper) re, im)).
  (** the loop over the columns to the right of the diagonal, 30-53 and 65-94 *)
  Fixpoint check_row (hermitian : bool) (d : nat) (cells : list mono) (i : nat) (js : list nat) (b : bits) : option bits :=
    match js with
    | [] => Some b
    | j :: js' => match check_pair hermitian (elem d cells i j) (elem d cells j i) b with Some b' => check_row hermitian d cells i js' b' | None => None end
    end.
  (** checkIMSymmetric, 24-55, and checkIMHermitian, 57-96, which first looks at the diagonal, 61-63 *)
  Fixpoint check_rows (hermitian : bool) (d : nat) (cells : list mono) (is : list nat) (b : bits) : option bits :=
    match is with
    | [] => Some b
    | i :: is' =>
        let b := if hermitian then (fst b, unset (m_id (elem d cells i i)) (snd b)) else b in
        match check_row hermitian d cells i (seq (S i) (d - S i)) b with Some b' => check_rows hermitian d cells is' b' | None => None end
    end.
  (** the largest symbol, 142-149 *)
  Definition max_symbol (t : table) (cells : list mono) : nat := fold_left (fun n x => Nat.max n (m_id x)) cells (length (t_syms t) - 1).
  (** 151-173 *)
  Definition import_bits (pr cplx hermitian : bool) (d : nat) (cells : list mono) (t : table) : option bits :=
    let n := S (max_symbol t cells) in
    let b := (repeat true n, repeat (negb pr) n) in
    match (if hermitian then check_rows cplx d cells (seq 0 d) b else Some b) with
    | None => None
    | Some (re, im) => Some (re, if negb cplx && negb pr then fold_left (fun l x => unset (m_id x) l) cells im else im)
    end.
  (** a matrix in the system: its entries, the flag, and the basis once it has been asked for ([BasModel.create_basis]; of the eight
      kinds of basis, one) *)
  Record imat := mk_imat { im_dim : nat; im_herm : bool; im_cells : list mono; im_basis : option (basis R) }.
  (** renumerate_bases, monomial_matrix.cpp:74-95, makes the entries canonical; it leaves a basis that was made before as it is *)
  Definition renumber (t : table) (m : imat) : imat := mk_imat (im_dim m) (im_herm m) (map (canonical_mono t) (im_cells m)) (im_basis m).
  (** a system: the context is purely real or not; the symbols; the matrices *)
  Record imsys := mk_imsys { sys_real : bool; sys_table : table; sys_mats : list imat }.
  (** import_matrix, 126-208.  [Some (false, s)]: bad_import_matrix, and what it leaves behind; [None]: undefined.  The matrices of
      MonomialMatrix's constructor, monomial_matrix.cpp:25-43, are made canonical as well.  Observers of new symbols are left out. *)
  Definition import_matrix (cplx hermitian : bool) (d : nat) (cells : list mono) (s : imsys) : option (bool * imsys) :=
    if sys_real s && cplx then Some (false, s)
    else match import_bits (sys_real s) cplx hermitian d cells (sys_table s) with
         | None => Some (false, s)
         | Some (re, im) =>
             match merge_bits (sys_table s) re im with
             | Undef => None
             | Throw t' => Some (false, mk_imsys (sys_real s) t' (sys_mats s))
             | Done t' changed =>
                 let old := if changed then map (renumber t') (sys_mats s) else sys_mats s in
                 Some (true, mk_imsys (sys_real s) t' (old ++ [mk_imat d hermitian (map (canonical_mono t') cells) None]))
             end
         end.
  (** SymbolicMatrix::Basis, matrix_basis.h:55-75: the basis that was made before, or a new one *)
  Definition get_basis (is_dense : bool) (k : nat) (s : imsys) : option (bout R * imsys) :=
    match nth_error (sys_mats s) k with
    | None => None
    | Some m =>
        match im_basis m with
        | Some b => Some (BOk b, s)
        | None =>
            match mono_matrix (sys_table s) (im_dim m) (im_herm m) (im_cells m) with
            | None => None
            | Some x =>
                match create_basis true is_dense false (sys_table s) x with
                | BOk b => Some (BOk b, mk_imsys (sys_real s) (sys_table s) (firstn k (sys_mats s) ++ mk_imat (im_dim m) (im_herm m) (im_cells m) (Some b) :: skipn (S k) (sys_mats s)))
                | o => Some (o, s)
                end
            end
        end
    end.
  (** sessions *)
  Inductive iop := IImport (cplx hermitian : bool) (d : nat) (cells : list mono) | IBasis (k : nat).
  Definition istep (is_dense : bool) (s : imsys) (o : iop) : option imsys :=
    match o with
    | IImport cplx hermitian d cells => option_map snd (import_matrix cplx hermitian d cells s)
    | IBasis k => match get_basis is_dense k s with Some (_, s') => Some s' | None => Some s end
    end.
  Fixpoint irun (is_dense : bool) (s : imsys) (l : list iop) : option imsys :=
    match l with [] => Some s | o :: l' => match istep is_dense s o with Some s' => irun is_dense s' l' | None => None end end.
  Definition ifresh (pr : bool) : imsys := mk_imsys pr table_start [].
End Imp.
Arguments imat : clear implicits. Arguments imsys : clear implicits. Arguments iop : clear implicits.
(** ImportedContext: no operators; conjugation and moments have nothing to do *)
Definition imported_sctx : sctx := mk_sctx (fun q => q) false (fun q => q) (fun _ => false) (fun _ => [hseq_const false]).
