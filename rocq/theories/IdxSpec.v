(** What a storage of indices is for: every index finds the matrix that was stored for it. *)
From Coq Require Import List NArith ZArith Arith.
From Verif Require Import CoreModel CoreSpec FieldModel PolyModel SymModel SymSpec PolySpec IdxModel.
Import ListNotations.

Section Spec.
  Context {K : Type} (ok : K -> Prop) (same : K -> K -> Prop) (S : storage K).
  (** offsets were stored for indices, one after the other *)
  Definition valid (hist : list (K * Z)) : Prop := forall k o, In (k, o) hist -> ok k /\ (0 <= o)%Z.
  Definition after (hist : list (K * Z)) : st_state S := fold_left (fun s e => fst (st_insert S s (fst e) (snd e))) hist (st_empty S).
  (** [o] is the first offset stored for the matrix that [k] stands for *)
  Definition stored (hist : list (K * Z)) (k : K) (o : Z) : Prop :=
    exists before k' later, hist = before ++ (k', o) :: later /\ same k' k /\ forall e, In e before -> ~ same (fst e) k.
  Definition missing (hist : list (K * Z)) (k : K) : Prop := forall e, In e hist -> ~ same (fst e) k.
  Record faithful : Prop := {
    fa_find : forall hist k o, valid hist -> ok k -> stored hist k o -> st_find S (after hist) k = o;
    fa_missing : forall hist k, valid hist -> ok k -> missing hist k -> st_find S (after hist) k = (-1)%Z;
    fa_contains : forall hist k, valid hist -> ok k -> (st_contains S (after hist) k = true <-> exists o, stored hist k o);
    fa_old : forall hist k o o', valid hist -> ok k -> stored hist k o -> (0 <= o')%Z -> snd (st_insert S (after hist) k o') = (o, false);
    fa_new : forall hist k o', valid hist -> ok k -> missing hist k -> (0 <= o')%Z -> snd (st_insert S (after hist) k o') = (o', true) }.
End Spec.

(** words over [r] operators, of at most [L] letters, with their hash; words of one sign *)
Definition hashed (r L : nat) (q : hseq) : Prop := over r (hs_ops q) /\ length (hs_ops q) <= L /\ hs_hash q = hash (N.of_nat r) (hs_ops q).
Definition unsigned (r L : nat) (q : hseq) : Prop := hashed r L q /\ hs_sign q = SPos.
Definition same_up_to_sign (a b : hseq) : Prop := hs_ops a = hs_ops b.
(** no condition; levels that fit 32 bits; polynomials over a table of symbols *)
Definition any {A} (x : A) : Prop := True.
Definition level_fits (k : ext_index) : Prop := (0 <= fst k < 2 ^ 32)%Z.
Definition poly_ok {R : rfield} {A} (t : table) (k : A * list (mono R)) : Prop := Forall (in_table t) (snd k).
