(** What the Pauli dictionaries should list, independently of how they are generated. *)
From Coq Require Import List NArith Arith Bool Sorted.
From Verif Require Import CoreModel SiteModel SiteSpec.
Import ListNotations.

(** the qubits a word acts on, and the words that act on exactly the given qubits *)
Definition support (w : word) : list nat := map (fun o => o / 3) w.
Definition acts_on (sites : list nat) (w : word) : Prop := forall q, In q (support w) <-> In q sites.

(** [l] lists each canonical Pauli word on [n] qubits that satisfies [P], and nothing else; each with sign + and with its hash *)
Definition lists_words (n : nat) (P : word -> Prop) (l : list hseq) : Prop :=
  (forall s, In s l -> hs_sign s = SPos /\ hs_hash s = hash (N.of_nat (3 * n)) (hs_ops s)) /\
  (forall w, In w (map hs_ops l) <-> pauli_word n w /\ P w).
(** ... and none twice *)
Definition lists_once (n : nat) (P : word -> Prop) (l : list hseq) : Prop := lists_words n P l /\ NoDup (map hs_ops l).

(** chains: consecutive operators of the word at most [d] qubits apart; on a ring, so for some rotation of the word *)
Definition near (d : nat) (w : word) : Prop :=
  forall i, S i < length w -> nth (S i) (support w) 0 <= nth i (support w) 0 + d.
Definition ring_near (n d : nat) (w : word) : Prop := exists k w', chain_moved n k w w' /\ near d w'.

(** lattices of [ch] rows and [rw] columns: qubit number = column * ch + row *)
Definition row_of (ch q : nat) : nat := q mod ch.
Definition col_of (ch q : nat) : nat := q / ch.
(** one step down or one step right; on a torus with both directions closed *)
Definition below (ch rw a b : nat) : Prop := col_of ch b = col_of ch a /\ row_of ch b = row_of ch a + 1.
Definition right_of (ch rw a b : nat) : Prop := row_of ch b = row_of ch a /\ col_of ch b = col_of ch a + 1.
Definition torus_below (ch rw a b : nat) : Prop := col_of ch b = col_of ch a /\ row_of ch b = (row_of ch a + 1) mod ch.
Definition torus_right (ch rw a b : nat) : Prop := row_of ch b = row_of ch a /\ col_of ch b = (col_of ch a + 1) mod rw.
Definition neighbours (wrap : bool) (ch rw a b : nat) : Prop :=
  if wrap then torus_below ch rw a b \/ torus_right ch rw a b else below ch rw a b \/ right_of ch rw a b.
Definition neighbouring_pair (wrap : bool) (ch rw : nat) (w : word) : Prop :=
  exists a b, a <> b /\ neighbours wrap ch rw a b /\ acts_on [a; b] w.

(** shapes, as lists of (row, column); the sites of a shape moved by [r] rows and [k] columns, on the open lattice and on the torus *)
Definition open_place (ch rw : nat) (shape : list (nat * nat)) (r k : nat) : Prop :=
  forall i j, In (i, j) shape -> i + r < ch /\ j + k < rw.
Definition open_copy (ch : nat) (shape : list (nat * nat)) (r k : nat) : list nat :=
  map (fun x => (snd x + k) * ch + (fst x + r)) shape.
Definition torus_copy (ch rw : nat) (shape : list (nat * nat)) (r k : nat) : list nat :=
  map (fun x => (snd x + k) mod rw * ch + (fst x + r) mod ch) shape.
(** words that act on a copy of the shape *)
Definition on_copy (wrap : bool) (ch rw : nat) (shape : list (nat * nat)) (w : word) : Prop :=
  exists r k, (if wrap then r < ch /\ k < rw else open_place ch rw shape r k) /\
              acts_on (if wrap then torus_copy ch rw shape r k else open_copy ch shape r k) w.
(** the shape of a list of qubits *)
Definition coords (ch : nat) (sites : list nat) : list (nat * nat) := map (fun q => (row_of ch q, col_of ch q)) sites.
(** rows, columns, corners (named by the place of the corner) and squares *)
Definition row3 : list (nat * nat) := [(0, 0); (0, 1); (0, 2)].
Definition column3 : list (nat * nat) := [(0, 0); (1, 0); (2, 0)].
Definition top_left : list (nat * nat) := [(0, 0); (1, 0); (0, 1)].
Definition top_right : list (nat * nat) := [(0, 0); (0, 1); (1, 1)].
Definition bottom_left : list (nat * nat) := [(0, 0); (1, 0); (1, 1)].
Definition bottom_right : list (nat * nat) := [(1, 0); (0, 1); (1, 1)].
Definition square : list (nat * nat) := [(0, 0); (1, 0); (0, 1); (1, 1)].
(** the shapes the library documents: rows, columns and corners of three, squares of four *)
Definition in_triple (wrap : bool) (ch rw : nat) (w : word) : Prop :=
  exists shape, In shape [row3; column3; top_left; top_right; bottom_left; bottom_right] /\ on_copy wrap ch rw shape w.
(** ... without the corners at the bottom right *)
Definition in_some_triple (wrap : bool) (ch rw : nat) (w : word) : Prop :=
  exists shape, In shape [row3; column3; top_left; top_right; bottom_left] /\ on_copy wrap ch rw shape w.
