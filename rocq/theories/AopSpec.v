(** What sums, products and commutators of arrays of polynomials are. *)
From Coq Require Import List NArith Arith Bool.
From Verif Require Import CoreModel FieldModel SymModel PolyModel AlgModel PauliModel RawModel RawSpec AopModel.
Import ListNotations.
Local Open Scope list_scope.
Local Open Scope nat_scope.

Section Spec.
  Context {R : rfield}.
  Notation raw := (list (hseq * cx R)).
  Variable t : table.
  Variable srt : list (mono R) -> list (mono R).
  Variable unit : hseq.
  (** the operator polynomial that stands for an entry; numbers are multiples of the identity *)
  Definition stands (e : entries) (i : nat) (p : raw) : Prop :=
    match e with
    | ESymbols l => exists x, nth_error l i = Some x /\ raw_of_poly t (make_poly t srt x) = Some p
    | EOps l => nth_error l i = Some p
    | ENumbers _ l => exists w, nth_error l i = Some w /\ (w = c0 /\ p = [] \/ w <> c0 /\ p = [(unit, w)])
    end.
  (** an array with one entry has it everywhere *)
  Definition entry (e : entries) (i : nat) (p : raw) : Prop := stands e (if size e =? 1 then 0 else i) p.
  (** MATLAB arrays: as many entries as the shape says; cells are not empty (GEmpty is for these) *)
  Definition array_ok (g : given (R:=R)) : Prop :=
    match g with
    | GArray s e => size e = fold_right Nat.mul 1 s /\ match e with ENumbers _ _ => True | _ => size e <> 0 end
    | _ => True
    end.
  (** numbers come as matrices *)
  Definition plane (s : list nat) (e : entries (R:=R)) : Prop := match e with ENumbers _ _ => length s = 2 | _ => True end.
  (** two arrays fit if one has one entry or their shapes agree *)
  Definition fit (ls : list nat) (le : entries (R:=R)) (rs : list nat) (re : entries (R:=R)) : Prop := plane ls le /\ plane rs re /\ (size le = 1 \/ size re = 1 \/ ls = rs).
  (** the shape and size of the result *)
  Definition has_shape ls (le : entries (R:=R)) rs (re : entries (R:=R)) (shape : list nat) : Prop :=
    (size le = 1 -> size re = 1 -> shape = [1; 1]) /\ (size le = 1 -> size re <> 1 -> shape = rs) /\ (size le <> 1 -> shape = ls).
  Definition has_size (le re : entries (R:=R)) (n : nat) : Prop := (size le = 1 -> n = size re) /\ (size le <> 1 -> n = size le).
  (** every entry can be read *)
  Definition readable (e : entries (R:=R)) : Prop := forall i, i < size e -> exists p, stands e i p.
  (** the words in the entries *)
  Definition words_in (V : hseq -> Prop) (e : entries (R:=R)) : Prop := forall i p, stands e i p -> raw_wf V p.
  (** position by position *)
  Definition pointwise (rel : raw -> raw -> raw -> Prop) (lhs rhs : given (R:=R)) (out : list nat * list raw * bool) : Prop :=
    exists ls le rs re, lhs = GArray ls le /\ rhs = GArray rs re /\ fit ls le rs re /\
      has_shape ls le rs re (fst (fst out)) /\ has_size le re (length (snd (fst out))) /\
      (snd out = true <-> forall r, In r (snd (fst out)) -> length r <= 1) /\
      forall i r, nth_error (snd (fst out)) i = Some r -> exists p q, entry le i p /\ entry re i q /\ rel p q r.
  (** operands of an operation with words in [V], or not arrays *)
  Definition operand_in (V : hseq -> Prop) (g : given (R:=R)) : Prop := match g with GArray _ e => words_in V e | _ => True end.
  (** multiplication of polynomials with words in [V], giving words in [W], in an algebra *)
  Definition multiplies (A : cspace R) (V W : hseq -> Prop) (rep : hseq -> A) (tm : A -> A -> A) (mul : hseq -> hseq -> res hseq) : Prop :=
    forall p q, raw_wf V p -> raw_wf V q -> exists r, raw_multiply mul p q = Ret r /\ condensed W r /\ poly_in rep r = tm (poly_in rep p) (poly_in rep q).
  (** arrays with entries; operands that are computed; arrays that do not fit; a matrix with an array, or with a single polynomial *)
  Definition inhabited_array (g : given (R:=R)) : Prop := match g with GArray _ e => size e <> 0 | _ => True end.
  Definition acceptable (lhs rhs : given (R:=R)) : Prop := exists ls le rs re, lhs = GArray ls le /\ rhs = GArray rs re /\ fit ls le rs re /\ readable le /\ readable re.
  Definition unfit (lhs rhs : given (R:=R)) : Prop := exists ls le rs re, lhs = GArray ls le /\ rhs = GArray rs re /\ plane ls le /\ plane rs re /\ size le <> 1 /\ size re <> 1 /\ ls <> rs.
  Definition matrix_and_array (lhs rhs : given (R:=R)) : Prop := exists id s e, plane s e /\ size e <> 1 /\ (lhs = GInteger id /\ rhs = GArray s e \/ lhs = GArray s e /\ rhs = GInteger id).
  Definition matrix_and_single (lhs rhs : given (R:=R)) : Prop := exists id s e, plane s e /\ size e = 1 /\ (lhs = GInteger id /\ rhs = GArray s e \/ lhs = GArray s e /\ rhs = GInteger id).
End Spec.
