(** What the map of a derived matrix system is for. *)
From Coq Require Import List Arith Bool Sorted Permutation.
From Verif Require Import CoreModel FieldModel SymModel SymSpec PolyModel PolySpec DerModel.
Import ListNotations.

Section Spec.
  Context {R : rfield}.
  (** the number in row [r], column [c] *)
  Definition entry (x : input R) (r c : nat) : R := match x with Dense _ _ M => M r c | Sparse _ l => coeff (nth c l []) r end.
  (** sparse columns: ascending rows, within the matrix; one number is stored in the first column *)
  Definition well_formed (x : input R) : Prop :=
    match x with Dense _ _ _ => True | Sparse n l => length (nth 0 l []) = 1 /\ forall col, In col l -> StronglySorted lt (map fst col) /\ Forall (fun e => fst e < n) col end.
  Definition lsum (l : list nat) (f : nat -> cx R) : cx R := fold_right (fun i s => cadd (f i) s) c0 l.
  (** value of dictionary word number [i] if the symbols have values [v] *)
  Definition word_value (t : table) (v : nat -> cx R) (i : nat) : cx R :=
    match map_index t i with Some (id, cj) => if cj then cconj (v id) else v id | None => c0 end.
  (** the matrix applied to dictionary word number [c] *)
  Definition image (x : input R) (t : table) (v : nat -> cx R) (c : nat) : cx R := lsum (seq 0 (in_rows x)) (fun r => cmul (creal (entry x r c)) (word_value t v r)).
  (** the matrix is a map of words to sums of words: the identity goes to the identity, and words that are the same symbol have the same image *)
  Definition acts (x : input R) (t : table) (v : nat -> cx R) : Prop :=
    1 <= in_rows x /\ in_rows x <= in_cols x /\ (forall r, r < in_rows x -> entry x r 0 = if Nat.eqb r 0 then r1 R else r0 R) /\
    forall i j id, i < in_cols x -> j < in_cols x -> map_index t i = Some (id, false) -> map_index t j = Some (id, false) -> image x t v i = image x t v j.
  (** the dictionary words of the columns have symbols; word 0 is the identity *)
  Definition indexed (t : table) (n : nat) : Prop := map_index t 0 = Some (1, false) /\ forall i, i < n -> exists id cj, map_index t i = Some (id, cj) /\ id < length (t_syms t).
  Definition rsum (n : nat) (f : nat -> R) : R := fold_right (fun i s => radd R (f i) s) (r0 R) (seq 0 n).
  (** the processor writes a core as a product *)
  Definition factors (c : mapcore R) (s : solution R) : Prop :=
    check_solution c s = true /\ x_cols (so_map s) = so_out s /\
    forall a b, a < length (mc_cols c) -> b < length (mc_rows c) -> rsum (so_out s) (fun k => rmul R (x_at (so_map s) a k) (x_at (so_inv s) k b)) = nth b (nth a (mc_core c) []) (r0 R).
  (** what Eigen's FullPivLU promises for the matrix [A]: P A Q = L U *)
  Definition lu_contract (full_piv_lu : list (list R) -> nat * (nat -> nat -> R) * (nat -> nat) * (nat -> nat)) (A : list (list R)) (cols : nat) : Prop :=
    let '(rank, lu, p, q) := full_piv_lu A in
    forall i j, i < length A -> j < cols ->
      rsum rank (fun k => rmul R (if Nat.eqb (p i) k then r1 R else if Nat.ltb k (p i) then lu (p i) k else r0 R) (if Nat.leb k (q j) then lu k (q j) else r0 R)) = nth j (nth i A []) (r0 R).
  (** values of the new symbols if the old ones have values [v] *)
  Definition new_values (m : symmap R) (v : nat -> cx R) (j : nat) : cx R := value v (nth j (s_inv m) []).
  (** symbol [id] is that of a dictionary word the matrix acts on *)
  Definition covered (x : input R) (t : table) (id : nat) : Prop := id <> 0 /\ exists i, i < in_cols x /\ map_index t i = Some (id, false).
  (** the values do not change under the matrix *)
  Definition invariant (x : input R) (t : table) (v : nat -> cx R) : Prop := forall i id, i < in_cols x -> map_index t i = Some (id, false) -> image x t v i = word_value t v i.
  (** a processor that writes every core as a product *)
  Definition processes (solve : mapcore R -> option (solution R)) : Prop :=
    forall c, (forall row, In row (mc_core c) -> length row = length (mc_rows c)) -> length (mc_core c) = length (mc_cols c) -> exists s, solve c = Some s /\ factors c s.
  (** the setting: [srt] sorts, zero is not positive, the processor works, the matrix is stored properly, its words have symbols *)
  Record ready (positive : R -> bool) (srt : list (mono R) -> list (mono R)) (solve : mapcore R -> option (solution R)) (t : table) (x : input R) : Prop := mk_ready {
    rd_zero : positive (r0 R) = false;
    rd_sorts : forall s, sorts s id_less srt;
    rd_solve : processes solve;
    rd_stored : well_formed x;
    rd_words : indexed t (in_cols x);
    rd_table : starts t }.
  Definition csum {A} (l : list A) (f : A -> cx R) : cx R := fold_right (fun d s => cadd (f d) s) c0 l.
  (** the matrices act on [n] words; each multiplied from the right by [d] they are the same matrices again, in another order *)
  Definition product (n : nat) (e d : nat -> nat -> R) (r c : nat) : R := rsum n (fun k => rmul R (e r k) (d k c)).
  Definition permuted_by (n : nat) (mats : list (nat -> nat -> R)) (d : nat -> nat -> R) : Prop :=
    exists mats', Permutation mats mats' /\ Forall2 (fun e f => forall r c, r < n -> c < n -> product n e d r c = f r c) mats mats'.
End Spec.
