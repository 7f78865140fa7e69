(** What cells of operator sequences mean as polynomials. *)
From Coq Require Import NArith ZArith Arith Bool Ascii String List.
From Verif Require Import CoreModel TextModel FieldModel SymModel SymSpec PolyModel PolySpec PioModel PioSpec StgModel.
Import ListNotations.
Local Open Scope list_scope.
Local Open Scope nat_scope.

Section Spec.
  Context {R : rfield}.
  Variable scan16 : text -> option Z.
  Variable trunc16 : R -> option Z.
  Variable of_z : Z -> R.

  Definition in16 (z : Z) : Prop := (- 2 ^ 15 <= z < 2 ^ 15)%Z.
  (** What is asked of numbers: whole numbers of 16 bits are cast to themselves. *)
  Definition casts16 : Prop := forall z, in16 z -> trunc16 (of_z z) = Some z.
  (** An array that is a sequence of operators, counted from 1 there and from 0 here. *)
  Inductive letters : marray R -> list nat -> Prop :=
  | letters_int : forall w, Forall (fun i => in16 (Z.of_nat i + 1)) w -> letters (MInts (map (fun i => Z.of_nat i + 1)%Z w)) w
  | letters_real : forall w, Forall (fun i => in16 (Z.of_nat i + 1)) w -> letters (MReals (map (fun i => of_z (Z.of_nat i + 1)) w)) w
  | letters_bool : forall n, letters (MBools (repeat true n)) (repeat 0 n)
  | letters_text : forall l w, Forall2 (fun t i => exists s, t = Some s /\ scan16 s = Some (Z.of_nat i + 1)%Z) l w -> letters (MText l) w.
  (** A term: a sequence, or a sequence and its factor. *)
  Inductive seq_term : marray R -> list nat * cx R -> Prop :=
  | seq_term_1 : forall v w, letters v w -> seq_term (MCell [v]) (w, c1)
  | seq_term_2 : forall v w f x, letters v w -> weighs of_z f x -> seq_term (MCell [v; f]) (w, x).
  Definition seq_denotes (a : marray R) (l : list (list nat * cx R)) : Prop := exists els, a = MCell els /\ Forall2 seq_term els l.
  (** Arrays in which all operator numbers are whole and fit in 16 bits. *)
  Definition plain_vector (v : marray R) : Prop :=
    (forall l, v = MInts l -> Forall in16 l) /\ (forall l, v = MReals l -> Forall (fun x => exists z, in16 z /\ x = of_z z) l).
  Definition plain_seq (a : marray R) : Prop := forall v r, a = MCell (v :: r) -> plain_vector v.
  Definition plain_cell (a : marray R) : Prop := forall l, a = MCell l -> Forall plain_seq l.

  (** a sum of words with weights, before symbols are looked up *)
  Definition staged (raw : list (hseq * cx R)) : list (sterm (R:=R)) := map (fun x => mk_sterm (fst x) (snd x) None false) raw.
  (** its value, phases of the words included *)
  Definition op_value (E : hseq -> cx R) (raw : list (hseq * cx R)) : cx R := fold_right (fun x s => cadd (cmul (snd x) (E (fst x))) s) c0 raw.
  Definition unphased (raw : list (hseq * cx R)) : Prop := Forall (fun x => hs_sign (fst x) = SPos) raw.
  (** the word has a symbol in the table *)
  Definition has_symbol (c : sctx) (t : table) (q : hseq) : Prop := exists id, lk_symbol (where_ c t q) = Some id.
  (** The polynomial made from staged terms [l] in the table [t] is the canonical one with the value of the sum [raw], where a word counts without its phase. *)
  Definition right_poly (E : hseq -> cx R) (lt : PolyModel.mono R -> PolyModel.mono R -> bool) (srt : list (PolyModel.mono R) -> list (PolyModel.mono R))
    (t : table) (l : list (sterm (R:=R))) (raw : list (hseq * cx R)) : Prop :=
    sorts t lt srt -> exists p, to_polynomial t srt l = Some p /\ (term_order t lt -> canonical t lt p) /\
      forall v, assignment t v -> agrees E t v -> value v p = raw_value E raw /\ (unphased raw -> value v p = op_value E raw).
End Spec.
