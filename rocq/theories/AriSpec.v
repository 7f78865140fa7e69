(** What arithmetic on symbolic matrices should do: act on the values of the entries. *)
From Coq Require Import List NArith ZArith Arith Bool.
From Verif Require Import CoreModel FieldModel SymModel SymSpec PolyModel PolySpec FacSpec AriModel.
Import ListNotations.

Section AriSpec.
  Context {R : rfield}.
  Notation mono := (mono R).
  (** the value of an entry, if symbol [id] has the value [v id] *)
  Definition entry (v : nat -> cx R) (a : smx R) (o : nat) : option (cx R) :=
    match a with
    | SM m => option_map (term_value v) (nth_error (mm_cells m) o)
    | SP p => option_map (value v) (nth_error (pm_cells p) o)
    end.
  (** a matrix as the library should store it: square; conjugated only where that means something; polynomials canonical *)
  Definition plain_entry (t : table) (x : mono) : Prop := in_table t x /\ (herm t (m_id x) = true \/ anti t (m_id x) = true -> m_cj x = false).
  Definition sized (a : smx R) : Prop := match a with SM m => length (mm_cells m) = mm_dim m * mm_dim m | SP p => length (pm_cells p) = pm_dim p * pm_dim p end.
  Definition well_formed (t : table) (lt : mono -> mono -> bool) (a : smx R) : Prop :=
    sized a /\ match a with SM m => Forall (plain_entry t) (mm_cells m) | SP p => Forall (canonical t lt) (pm_cells p) end.
  (** sum of the values times factors *)
  Definition entry_sum (v : nat -> cx R) (parts : list (smx R * cx R)) (o : nat) : cx R :=
    fold_right (fun p s => cadd (cmul (snd p) (match entry v (fst p) o with Some z => z | None => c0 end)) s) c0 parts.
  (** the values form a Hermitian (anti-Hermitian, s = -1) matrix *)
  Definition hermitian_values (v : nat -> cx R) (a : smx R) : Prop :=
    forall row col x y, row < smx_dim a -> col < smx_dim a -> entry v a (col * smx_dim a + row) = Some x -> entry v a (row * smx_dim a + col) = Some y -> y = cconj x.
  Definition hermitian_data (d : nat) (f : nat -> nat -> cx R) : Prop := forall row col, row < d -> col < d -> f col row = cconj (f row col).
  Definition antihermitian_data (d : nat) (f : nat -> nat -> cx R) : Prop := forall row col, row < d -> col < d -> f col row = copp (cconj (f row col)).
  (** the matrix stands for its operator matrix, times its prefactor *)
  Definition stands (E : hseq -> cx R) (v : nat -> cx R) (m : monomat R) : Prop :=
    forall ops o a, mm_ops m = Some ops -> nth_error ops o = Some a -> entry v (SM m) o = Some (cmul (mm_factor m) (E a)).
  (** the product of [q] with every element lies in the context's words; zero times anything is zero *)
  Definition products_ok (V : hseq -> Prop) (mul : hseq -> hseq -> hseq) (pre : bool) (q : hseq) (ops : list hseq) : Prop :=
    Forall V (times mul pre q ops) /\ (hs_zero q = true -> forall a, In a (times mul pre q ops) -> a = hseq_const true).
  (** an operator polynomial times an operator, under an expectation functional *)
  Definition product_value (E : hseq -> cx R) (mul : hseq -> hseq -> hseq) (pre : bool) (p : list (hseq * cx R)) (a : hseq) : cx R :=
    fold_right (fun x s => cadd (cmul (snd x) (E (if pre then mul (fst x) a else mul a (fst x)))) s) c0 p.
  (** a sparse matrix: each position at most once, inside *)
  Definition sparse_ok (d : nat) (l : list (nat * nat * cx R)) : Prop :=
    NoDup (map fst l) /\ forall row col z, In (row, col, z) l -> row < d /\ col < d.
End AriSpec.
(** no entry of a monomial matrix is zero *)
Definition no_zero_entry (R : rfield) (a : smx R) : Prop := match a with SM m => forall x, In x (mm_cells m) -> m_id x <> 0 /\ m_f x <> c0 | SP _ => True end.
(** the words whose symbols a matrix shows: the representatives of the moments, if the context identifies any *)
Definition used_ops (c : sctx) (ops : list hseq) : list hseq := if cx_alias c then map (cx_moment c) ops else ops.
(** a context that claims to have only Hermitian words has only Hermitian words *)
Definition known_ops (c : sctx) (only : bool) (ops : list hseq) : Prop := only = true -> Forall (fun q => same_word (cx_conj c q) q) (used_ops c ops).
(** the products of the terms of [p] with the elements are words of the context, none of which is its own conjugate only up to a phase *)
Definition terms_ok (c : sctx) (V : hseq -> Prop) (R : rfield) (only : bool) (mul : hseq -> hseq -> hseq) (pre : bool) (p : list (hseq * cx R)) (ops : list hseq) : Prop :=
  forall x, In x p -> Forall V (times mul pre (fst x) ops) /\ known_ops c only (times mul pre (fst x) ops) /\ plain_self_conjugates c (used_ops c (times mul pre (fst x) ops)).
(** an entry that is a number *)
Definition number (R : rfield) (x : mono R) : Prop := x = mk_mono 0 false c0 \/ (m_id x = 1 /\ m_cj x = false).
(** for every entry stored above the diagonal, something is stored in the mirror position *)
Definition mirrored (R : rfield) (l : list (nat * nat * cx R)) : Prop := forall row col z, In (row, col, z) l -> row < col -> exists z', In (col, row, z') l.
Definition antihermitian_values (R : rfield) (v : nat -> cx R) (a : smx R) : Prop :=
  forall row col x y, row < smx_dim a -> col < smx_dim a -> entry v a (col * smx_dim a + row) = Some x -> entry v a (row * smx_dim a + col) = Some y -> y = copp (cconj x).
Definition flags_right (R : rfield) (v : nat -> cx R) (m : monomat R) : Prop := (mm_herm m = true -> hermitian_values v (SM m)) /\ (mm_anti m = true -> antihermitian_values R v (SM m)).
(** the empty word is the identity *)
Definition one_identity (V : hseq -> Prop) : Prop := forall q, V q -> hs_zero q = false -> hs_ops q = [] -> pos q = hseq_const false.
