(** What polynomials mean. *)
From Coq Require Import List NArith ZArith Arith Bool Sorted Permutation.
From Verif Require Import CoreModel FieldModel SymModel SymSpec PolyModel.
Import ListNotations.

Section Poly.
  Context {R : rfield}.
  Notation mono := (mono R).
  (** Value of a sum of terms if symbol number [id] has the value [v id]. *)
  Definition term_value (v : nat -> cx R) (x : mono) : cx R := cmul (m_f x) (if m_cj x then cconj (v (m_id x)) else v (m_id x)).
  Definition value (v : nat -> cx R) (l : list mono) : cx R := fold_right (fun x s => cadd (term_value v x) s) c0 l.
  (** Assignments of values to the symbols of a table: Hermitian symbols are real, anti-Hermitian ones imaginary; symbol 0 (which
      is both) is zero and symbol 1 (the identity) is one. *)
  Record assignment (t : table) (v : nat -> cx R) : Prop := mk_assignment {
    as_zero : v 0 = c0;
    as_one : v 1 = c1;
    as_herm : forall id s, nth_error (t_syms t) id = Some s -> sy_herm s = true -> cim (v id) = r0 R;
    as_anti : forall id s, nth_error (t_syms t) id = Some s -> sy_anti s = true -> cre (v id) = r0 R }.
  (** a term whose symbol exists *)
  Definition in_table (t : table) (x : mono) : Prop := m_id x < length (t_syms t).
  (** [lt] orders terms by symbol, in some strict order of the symbols of [t], then puts X before its conjugate; coefficients are
      ignored *)
  Definition term_order (t : table) (lt : mono -> mono -> bool) : Prop :=
    exists rank : nat -> N,
      (forall i j, i < length (t_syms t) -> j < length (t_syms t) -> rank i = rank j -> i = j) /\
      forall x y, in_table t x -> in_table t y ->
        (lt x y = true <-> (rank (m_id x) < rank (m_id y))%N \/ (m_id x = m_id y /\ m_cj x = false /\ m_cj y = true)).
  (** [srt] sorts lists of terms *)
  Definition sorts (t : table) (lt : mono -> mono -> bool) (srt : list mono -> list mono) : Prop :=
    forall l, Forall (in_table t) l -> Permutation l (srt l) /\ StronglySorted (fun x y => lt y x = false) (srt l).
  (** Canonical polynomials: strictly sorted, no zero coefficient, no zero symbol, conjugated only where that means something. *)
  Record canonical (t : table) (lt : mono -> mono -> bool) (p : list mono) : Prop := mk_canonical {
    cp_sorted : StronglySorted (fun x y => lt x y = true) p;
    cp_terms : forall x, In x p -> in_table t x /\ m_f x <> c0 /\ m_id x <> 0 /\
      (herm t (m_id x) = true \/ anti t (m_id x) = true -> m_cj x = false) }.
  (** no symbol but 0 is marked as zero *)
  Definition no_null (t : table) : Prop := forall id, 0 < id -> id < length (t_syms t) -> herm t id = true -> anti t id = true -> False.
  (** the table starts with zero and the identity *)
  Definition starts (t : table) : Prop := exists s0 s1 l, t_syms t = s0 :: s1 :: l /\ sy_herm s1 = true /\ sy_anti s1 = false.
  (** two lists of terms mean the same *)
  Definition same_value (t : table) (l l' : list mono) : Prop := forall v, assignment t v -> value v l = value v l'.
  (** the operator polynomial [raw] under an expectation functional (the phases of the words are already in the weights) *)
  Definition raw_value (E : hseq -> cx R) (raw : list (hseq * cx R)) : cx R :=
    fold_right (fun x s => cadd (cmul (snd x) (E (pos (fst x)))) s) c0 raw.
  (** ... which gives each symbol with a word the value of its word *)
  Definition agrees (E : hseq -> cx R) (t : table) (v : nat -> cx R) : Prop :=
    forall id w, symbol_word t id = Some w -> v id = E (pos w).
End Poly.

(** Strict weak orders on the elements satisfying [P], and the equivalence they define. *)
Record strict_weak {A} (P : A -> Prop) (less : A -> A -> bool) : Prop := mk_sw {
  sw_irr : forall x, P x -> less x x = false;
  sw_trans : forall x y z, P x -> P y -> P z -> less x y = true -> less y z = true -> less x z = true;
  sw_cotrans : forall x y z, P x -> P y -> P z -> less x z = true -> less x y = true \/ less y z = true }.
(** [rcmp] compares exactly: -1, 0, 1 for less, equal, greater in some linear order *)
Record exact_compare {A} (rcmp : A -> A -> Z) : Prop := mk_ec {
  ec_range : forall x y, rcmp x y = (-1)%Z \/ rcmp x y = 0%Z \/ rcmp x y = 1%Z;
  ec_eq : forall x y, rcmp x y = 0%Z <-> x = y;
  ec_anti : forall x y, rcmp y x = (- rcmp x y)%Z;
  ec_trans : forall x y z, rcmp x y = 1%Z -> rcmp y z = 1%Z -> rcmp x z = 1%Z }.
(** terms without their coefficients *)
Definition term_ids {R : rfield} (p : list (mono R)) : list (nat * bool) := map (fun x => (m_id x, m_cj x)) p.

(** Basis vectors: the values of the elements of the real and imaginary basis, and linear combinations of them. *)
Section BasisSpec.
  Context {R : rfield}.
  Definition real_elem (t : table) (v : nat -> cx R) (k : nat) : R := match nth_error (t_real t) k with Some id => cre (v id) | None => r0 R end.
  Definition imag_elem (t : table) (v : nat -> cx R) (k : nat) : R := match nth_error (t_imag t) k with Some id => cim (v id) | None => r0 R end.
  (** real and imaginary basis one after the other *)
  Definition both_elem (t : table) (v : nat -> cx R) (k : nat) : R :=
    if Nat.ltb k (length (t_real t)) then real_elem t v k else imag_elem t v (k - length (t_real t)).
  Definition rdot (l : list (nat * R)) (a : nat -> R) : R := fold_right (fun x s => radd R (rmul R (snd x) (a (fst x))) s) (r0 R) l.
  Definition cdot (l : list (nat * cx R)) (a : nat -> R) : cx R := fold_right (fun x s => cadd (cmul (snd x) (creal (a (fst x)))) s) c0 l.
  (** a sparse vector: each index once, below [n], no zero stored *)
  Definition sparse {A} (zero : A) (n : nat) (l : list (nat * A)) : Prop :=
    NoDup (map fst l) /\ forall k w, In (k, w) l -> k < n /\ w <> zero.
  (** the polynomial uses real coefficients only *)
  Definition real_coefs (p : list (mono R)) : Prop := forall x, In x p -> cim (m_f x) = r0 R.
End BasisSpec.

(** sessions that create no symbol without real and imaginary part *)
Definition creates (o : op) : Prop := match o with OCreate _ r i => r || i = true | _ => True end.
(** operator polynomials made of words satisfying [V] *)
Definition raw_ok {R : rfield} (V : hseq -> Prop) (raw : list (hseq * cx R)) : Prop := Forall (fun x => V (fst x)) raw.
(** hashes order words by length first *)
Definition graded (t : table) : Prop := forall i j a b, symbol_word t i = Some a -> symbol_word t j = Some b -> (hs_hash a <= hs_hash b)%N -> length (hs_ops a) <= length (hs_ops b).
(** [srt] sorts the list of indices 0..n-1 stably *)
Definition index_sort (n : nat) (srt : (nat -> nat -> bool) -> list nat -> list nat) : Prop := forall less : nat -> nat -> bool, Permutation (seq 0 n) (srt less (seq 0 n)) /\
  (strict_weak (fun i => i < n) less -> StronglySorted (fun i j => less j i = false /\ (less i j = false -> i < j)) (srt less (seq 0 n))).
(** a column of a matrix given by triplets (row, column, value), and the product of one of its rows with a vector *)
Definition column {A} (col : nat) (l : list (nat * nat * A)) : list (nat * A) :=
  map (fun x => (fst (fst x), snd x)) (filter (fun x => Nat.eqb (snd (fst x)) col) l).
Definition row_dot {R : rfield} (l : list (nat * nat * R)) (row : nat) (a : nat -> R) : R :=
  fold_right (fun x s => radd R (if Nat.eqb (fst (fst x)) row then rmul R (snd x) (a (snd (fst x))) else r0 R) s) (r0 R) l.
