(** What an extended moment matrix is. *)
From Coq Require Import List ZArith Arith Bool Permutation.
From Verif Require Import CoreModel FieldModel AlgModel InfModel InfSpec TreeModel FTabModel FTabSpec ExtMatModel.
Import ListNotations.

(** [id] is a symbol for the product of the symbols [a] and [b] *)
Definition product_symbol (t : ftab) (id a b : nat) : Prop :=
  id < length (ft_syms t) /\ forall (R : rfield) (v : nat -> cx R), multiplicative t v -> v id = cmul (v a) (v b).
(** each new symbol is the only one with its factors *)
Definition fresh (t t' : ftab) : Prop := forall i j l, length (ft_syms t) <= i -> factors t' i l -> factors t' j l -> j = i.
(** The matrix with rows and columns [cols] extended by rows and columns [exts]: the old matrix and the products. *)
Record extended {A : Type} (mono : nat -> A) (t : ftab) (src : nat -> nat -> A) (cols exts : list nat) (m : nat -> nat -> A) : Prop := mk_extended {
  ex_old : forall i j, i < length cols -> j < length cols -> m i j = src i j;
  ex_side : forall i j a b, nth_error cols i = Some a -> nth_error exts j = Some b ->
    exists id, m i (length cols + j) = mono id /\ m (length cols + j) i = mono id /\ product_symbol t id a b;
  ex_corner : forall i j a b, nth_error exts i = Some a -> nth_error exts j = Some b ->
    exists id, m (length cols + i) (length cols + j) = mono id /\ m (length cols + j) (length cols + i) = mono id /\ product_symbol t id a b }.
(** the symbols of the generators *)
Definition generators (nt : network) (L : nat) (t : ftab) (words : list word) (cols : list nat) : Prop :=
  Forall2 (fun w k => simplified (inflate nt L) w /\ exists r, moment_of nt L w r /\ symbol_seq t k (Some r)) words cols.
(** lists of factors that workers look for; one that has no symbol yet may be a proper beginning of another *)
Definition asked (progs : list (list action)) (ks : list nat) : Prop := exists prog cells, In prog progs /\ In (AReq ks cells) prog.
Definition clash (t : ftab) (progs : list (list action)) : Prop :=
  exists a x r, asked progs a /\ asked progs (a ++ x :: r) /\ find_factors t a = None /\ find_factors t (a ++ x :: r) = None.
