(** What arrays from MATLAB mean as polynomials. *)
From Coq Require Import NArith ZArith Arith Bool Ascii String List.
From Verif Require Import TextModel FieldModel SymModel PolyModel PolySpec MonModel MonSpec PioModel.
Import ListNotations.
Local Open Scope list_scope.

Section Spec.
  Context {R : rfield}.
  Notation term := (PolyModel.mono R).
  Variable scan : text -> option N.
  Variable scanb : text -> option bool.
  Variable negb_r : R -> bool.
  Variable trunc : R -> option N.
  Variable of_z : Z -> R.
  Variable stod : text -> option (R * nat).

  (** What is asked of numbers: whole numbers from 0 are not negative, and those below 2^64 are cast to themselves. *)
  Record casts : Prop := mk_casts {
    ca_pos : forall n, negb_r (of_z (Z.of_N n)) = false;
    ca_cast : forall n, (n < 2 ^ 64)%N -> trunc (of_z (Z.of_N n)) = Some n }.
  Definition not_minus (t : text) : Prop := forall r, t <> tx "-" ++ r.
  (** An array that is the number of a symbol. *)
  Inductive names : marray R -> nat -> Prop :=
  | names_int : forall n, names (MInts [Z.of_nat n]) n
  | names_real : forall n, (N.of_nat n < 2 ^ 64)%N -> names (MReals [of_z (Z.of_nat n)]) n
  | names_true : names (MBools [true]) 1
  | names_false : names (MBools [false]) 0
  | names_text : forall t n, not_minus t -> scan t = Some n -> names (MText [Some t]) (N.to_nat n).
  (** An array that is a factor. *)
  Inductive weighs : marray R -> cx R -> Prop :=
  | weighs_int : forall z, weighs (MInts [z]) (mk_cx (of_z z) (r0 R))
  | weighs_real : forall x, weighs (MReals [x]) (mk_cx x (r0 R))
  | weighs_cplx : forall c, weighs (MCplx [c]) c
  | weighs_true : weighs (MBools [true]) c1
  | weighs_false : weighs (MBools [false]) c0.
  (** An array that says if the symbol is conjugated: any number but zero does. *)
  Inductive flags : marray R -> bool -> Prop :=
  | flags_int : forall z, (0 < z)%Z -> flags (MInts [z]) true
  | flags_int0 : flags (MInts [0%Z]) false
  | flags_real : forall x, negb_r x = false -> x <> r0 R -> flags (MReals [x]) true
  | flags_real0 : negb_r (r0 R) = false -> flags (MReals [r0 R]) false
  | flags_bool : forall b, flags (MBools [b]) b
  | flags_text : forall t b, not_minus t -> scanb t = Some b -> flags (MText [Some t]) b.
  (** A term as a cell: symbol; symbol and factor; symbol, factor and conjugation. *)
  Inductive element : marray R -> term -> Prop :=
  | element_1 : forall i n, names i n -> element (MCell [i]) (PolyModel.mk_mono n false c1)
  | element_2 : forall i n f x, names i n -> weighs f x -> element (MCell [i; f]) (PolyModel.mk_mono n false x)
  | element_3 : forall i n f x c b, names i n -> weighs f x -> flags c b -> element (MCell [i; f; c]) (PolyModel.mk_mono n b x).
  (** A term as a text; a missing text is zero. *)
  Inductive text_term : option text -> term -> Prop :=
  | text_none : text_term None (PolyModel.mk_mono 0 false c0)
  | text_some : forall t m, 1 <= List.length t <= 32 -> reads (r0 R) (r1 R) (ropp R) stod t m ->
      text_term (Some t) (PolyModel.mk_mono (N.to_nat (mo_id m)) (mo_conj m) (mk_cx (mo_re m) (mo_im m))).
  (** A single term: a cell, a text, or an empty array of texts for zero. *)
  Inductive lone_term : marray R -> term -> Prop :=
  | lone_cell : forall a y, element a y -> lone_term a y
  | lone_text : forall t y, text_term t y -> lone_term (MText [t]) y
  | lone_empty : lone_term (MText []) (PolyModel.mk_mono 0 false c0).
  (** The sum of terms that an array stands for. *)
  Inductive denotes : marray R -> list term -> Prop :=
  | denotes_cell : forall l ts, Forall2 element l ts -> denotes (MCell l) ts
  | denotes_text : forall l ts, Forall2 text_term l ts -> denotes (MText l) ts.
  (** Arrays in which no symbol is numbered by a fraction, or by a number of 2^64 or more. *)
  Definition plain_real (x : R) : Prop := negb_r x = true \/ exists n, (n < 2 ^ 64)%N /\ x = of_z (Z.of_N n).
  Definition plain_element (a : marray R) : Prop := forall x r, a = MCell (MReals [x] :: r) -> plain_real x.
  Definition plain (a : marray R) : Prop := forall l, a = MCell l -> Forall plain_element l.
  (** An element that is no cell of one to three arrays. *)
  Definition misshapen (a : marray R) : Prop := forall l, a = MCell l -> List.length l = 0 \/ 3 < List.length l.
End Spec.
