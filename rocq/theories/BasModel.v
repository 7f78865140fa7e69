(** Symbolic matrices and their numeric bases: matrix/monomial_matrix.cpp:25-131, polynomial_matrix.cpp:22-42, 113-194,
    monomial_matrix_basis.cpp, polynomial_matrix_basis.cpp, matrix_basis.cpp:47-200.

    Matrices are stored by columns.  Numbers are exact: "approximately zero / real / equal" is zero / real / equal.  Eigen's dense and
    sparse matrices are functions of row and column. *)
From Coq Require Import List NArith ZArith Arith Bool.
From Verif Require Import CoreModel FieldModel SymModel PolyModel PolyBasisModel.
Import ListNotations.

Section Bas.
  Context {R : rfield}.
  Notation mono := (mono R).

  (** ** Matrices of monomials and of polynomials *)
  (** std::set<symbol_name_t>: ascending, without repetitions *)
  Fixpoint set_insert (x : nat) (s : list nat) : list nat :=
    match s with [] => [x] | y :: s' => if Nat.ltb x y then x :: s else if Nat.eqb x y then s else y :: set_insert x s' end.
  Definition set_of (l : list nat) : list nat := fold_left (fun s x => set_insert x s) l [].
  (** The entries (monomials: lists of one term) and properties of a SymbolicMatrix, symbolic_matrix.h:71-113 *)
  Record smat := mk_smat {
    sm_dim : nat;
    sm_cells : list (list mono);
    sm_herm : bool;                              (** hermitian *)
    sm_ccoef : bool;                             (** complex_coefficients *)
    sm_cbasis : bool;                            (** complex_basis *)
    sm_symbols : list nat;                       (** included_symbols *)
    sm_real : list nat;                          (** real_basis_elements *)
    sm_imag : list nat;                          (** imaginary_basis_elements *)
    sm_key : list (nat * (option nat * option nat)) }.   (** basis_key *)
  Definition keep {A} (o : option A) : list A := match o with Some a => [a] | None => [] end.
  Definition key_of (t : table) (s : list nat) : list (nat * (option nat * option nat)) := map (fun id => (id, (re_index t id, im_index t id))) s.
  Definition complex_factor (x : mono) : bool := negb (is_real (m_f x)).
  Definition symbols_in (cells : list (list mono)) : list nat := set_of (map m_id (concat cells)).
  (** symbols[id] with an unknown id: assertion, or access out of bounds *)
  Definition all_known (t : table) (cells : list (list mono)) : bool := forallb (forallb (fun x => Nat.ltb (m_id x) (length (t_syms t)))) cells.

  (** MonomialMatrix::renumerate_bases, monomial_matrix.cpp:74-95: one entry *)
  Definition canonical_mono (t : table) (x : mono) : mono :=
    let y := if m_cj x then
               if herm t (m_id x) then mk_mono (m_id x) false (m_f x)
               else if anti t (m_id x) then mk_mono (m_id x) false (copp (m_f x)) else x
             else x in
    if is_zero (m_f y) then mk_mono 0 false c0 else y.
  (** MonomialMatrix constructor, monomial_matrix.cpp:25-43; identify_symbols_and_basis_indices, 97-131.  [None]: unknown symbol *)
  Definition mono_matrix (t : table) (d : nat) (hermitian : bool) (cells : list mono) : option smat :=
    let cells := map (fun x => [canonical_mono t x]) cells in
    if all_known t cells then
      let s := symbols_in cells in
      let re := set_of (flat_map (fun id => keep (re_index t id)) s) in
      let im := set_of (flat_map (fun id => keep (im_index t id)) s) in
      Some (mk_smat d cells hermitian (existsb (existsb complex_factor) cells) (negb (Nat.eqb (length im) 0)) s re im (key_of t s))
    else None.

  (** test_hermicity, polynomial_matrix.cpp:22-42: row by row; an entry is missing only if the matrix is not square *)
  Definition cell (d : nat) (cells : list (list mono)) (row col : nat) : list mono := nth (col * d + row) cells [].
  Definition test_hermicity (t : table) (d : nat) (cells : list (list mono)) : bool :=
    forallb (fun row => is_hermitian t (cell d cells row row) &&
                        forallb (fun col => is_conjugate t (cell d cells row col) (cell d cells col row)) (seq (S row) (d - S row))) (seq 0 d).
  (** PolynomialMatrix constructor, polynomial_matrix.cpp:113-145; identify_symbols_and_basis_indices, 158-194 *)
  Definition poly_matrix (t : table) (nonneg : R -> bool) (d : nat) (cells : list (list mono)) : option smat :=
    if all_known t cells then
      let s := symbols_in cells in
      let re := set_of (flat_map (fun p => fst (mask t nonneg p)) cells) in
      let im := set_of (flat_map (fun p => snd (mask t nonneg p)) cells) in
      Some (mk_smat d cells (test_hermicity t d cells) (existsb (existsb complex_factor) cells) (negb (Nat.eqb (length im) 0)) s re im (key_of t s))
    else None.

  (** ** Bases *)
  Definition dmat := nat -> nat -> cx R.
  Definition zero_matrix : dmat := fun _ _ => c0.
  Definition set_entry (r c : nat) (x : cx R) (m : dmat) : dmat := fun r' c' => if Nat.eqb r r' && Nat.eqb c c' then x else m r' c'.
  Definition add_entry (r c : nat) (x : cx R) (m : dmat) : dmat := fun r' c' => if Nat.eqb r r' && Nat.eqb c c' then cadd (m r' c') x else m r' c'.
  Record basis := mk_basis { b_real : list dmat; b_imag : list dmat }.

  (** A value for one entry of one basis matrix: imaginary?, index, row, column, value *)
  Record deposit := mk_dep { d_imag : bool; d_index : nat; d_row : nat; d_col : nat; d_value : cx R }.
  (** get_re_factor, monomial_matrix_basis.cpp:15-28: the bases of type [R,C] take the real part *)
  Definition re_factor (real_type : bool) (f : cx R) : cx R := if real_type then creal (cre f) else f.
  (** What one term in row, col contributes: monomial_matrix_basis.cpp:44-69, 83-97 (dense), 152-175, 185-200 (sparse),
      polynomial_matrix_basis.cpp:58-82 (dense), 136-163 (sparse).  If the matrix is [symmetric], the other side of the diagonal as well *)
  Definition deposits (t : table) (real_type symmetric complex : bool) (row col : nat) (x : mono) : list deposit :=
    let mirrored := symmetric && negb (Nat.eqb row col) in
    match re_index t (m_id x) with
    | Some k => mk_dep false k row col (re_factor real_type (m_f x)) ::
                (if mirrored then [mk_dep false k col row (re_factor real_type (cconj (m_f x)))] else [])
    | None => []
    end ++
    if complex then
      match im_index t (m_id x) with
      | Some k => mk_dep true k row col (cmul (if m_cj x then copp ci else ci) (m_f x)) ::
                  (if mirrored then [mk_dep true k col row (cmul (if m_cj x then ci else copp ci) (cconj (m_f x)))] else [])
      | None => []
      end
    else [].
  (** The cells that are looked at: the upper triangle (matrices of monomials), the lower triangle (matrices of polynomials) or all *)
  Definition upper (d : nat) : list (nat * nat) := flat_map (fun col => map (fun row => (row, col)) (seq 0 (S col))) (seq 0 d).
  Definition lower (d : nat) : list (nat * nat) := flat_map (fun col => map (fun row => (row, col)) (seq col (d - col))) (seq 0 d).
  Definition everywhere (d : nat) : list (nat * nat) := flat_map (fun col => map (fun row => (row, col)) (seq 0 d)) (seq 0 d).
  Definition all_deposits (t : table) (real_type : bool) (places : list (nat * nat)) (m : smat) : list deposit :=
    flat_map (fun rc => flat_map (deposits t real_type (sm_herm m) (sm_cbasis m) (fst rc) (snd rc)) (cell (sm_dim m) (sm_cells m) (fst rc) (snd rc))) places.
  Definition mono_deposits (t : table) (real_type : bool) (m : smat) : list deposit :=
    all_deposits t real_type (if sm_herm m then upper (sm_dim m) else everywhere (sm_dim m)) m.
  Definition poly_deposits (t : table) (real_type : bool) (m : smat) : list deposit :=
    all_deposits t real_type (if sm_herm m then lower (sm_dim m) else everywhere (sm_dim m)) m.
  (** indices into the lists of basis matrices are asserted to be in range *)
  Definition in_range (nre nim : nat) (x : deposit) : bool := Nat.ltb (d_index x) (if d_imag x then nim else nre).
  (** do_create_dense_basis, monomial_matrix_basis.cpp:105-134, and polynomial_matrix_basis.cpp:89-117: matrices of monomials assign
      entries, matrices of polynomials add to them *)
  Fixpoint nth_update {A} (n : nat) (f : A -> A) (l : list A) : list A :=
    match l, n with [], _ => [] | x :: l', 0 => f x :: l' | x :: l', S n' => x :: nth_update n' f l' end.
  Definition write (adding : bool) (b : basis) (x : deposit) : basis :=
    let f := (if adding then add_entry else set_entry) (d_row x) (d_col x) (d_value x) in
    if d_imag x then mk_basis (b_real b) (nth_update (d_index x) f (b_imag b)) else mk_basis (nth_update (d_index x) f (b_real b)) (b_imag b).
  Definition dense (adding : bool) (t : table) (l : list deposit) : option basis :=
    if forallb (in_range (length (t_real t)) (length (t_imag t))) l then
      Some (fold_left (write adding) l (mk_basis (repeat zero_matrix (length (t_real t))) (repeat zero_matrix (length (t_imag t)))))
    else None.
  (** do_create_sparse_frame and setFromTriplets (which adds up), monomial_matrix_basis.cpp:207-254, polynomial_matrix_basis.cpp:168-218.
      If the matrix is not complex, the imaginary matrices are empty ones *)
  Definition from_frame (imag : bool) (k : nat) (l : list deposit) : dmat := fun r c =>
    fold_left (fun s x => if Bool.eqb (d_imag x) imag && Nat.eqb (d_index x) k && Nat.eqb (d_row x) r && Nat.eqb (d_col x) c then cadd s (d_value x) else s) l c0.
  Definition sparse (t : table) (m : smat) (l : list deposit) : option basis :=
    if forallb (in_range (length (t_real t)) (length (t_imag t))) l then
      Some (mk_basis (map (fun k => from_frame false k l) (seq 0 (length (t_real t))))
                     (if sm_cbasis m then map (fun k => from_frame true k l) (seq 0 (length (t_imag t))) else repeat zero_matrix (length (t_imag t))))
    else None.
  (** MatrixBasis::create_dense, create_sparse, create_dense_complex, create_sparse_complex, matrix_basis.cpp:163-185: bases of type [R,C]
      are refused (bad_basis_error) if there are complex coefficients *)
  Inductive bout := BOk (b : basis) | BRefused | BAssert.
  Definition done (b : option basis) : bout := match b with Some b => BOk b | None => BAssert end.
  Definition create_basis (monomial is_dense real_type : bool) (t : table) (m : smat) : bout :=
    if real_type && sm_ccoef m then BRefused
    else let l := (if monomial then mono_deposits else poly_deposits) t real_type m in
         done (if is_dense then dense (negb monomial) t l else sparse t m l).
  (** do_infer_dense_monolithic, do_infer_sparse_monolithic, matrix_basis.cpp:49-147: one row per basis matrix, which is read by columns *)
  Definition monolithic (d : nat) (l : list dmat) : dmat := fun k j => nth k l zero_matrix (j mod d) (j / d).
End Bas.
Arguments smat : clear implicits. Arguments basis : clear implicits. Arguments dmat : clear implicits. Arguments bout : clear implicits. Arguments deposit : clear implicits.
