(** What a text of a symbol means. *)
From Coq Require Import NArith ZArith Arith Bool Ascii String List.
From Verif Require Import TextModel MonModel.
Import ListNotations.
Local Open Scope list_scope.

(** decimal digits and their value *)
Definition decimal_digit (c : ascii) : Prop := 48 <= nat_of_ascii c <= 57.
Fixpoint decimal_value (t : text) : Z :=
  match t with [] => 0 | c :: r => Z.of_nat (nat_of_ascii c - 48) * 10 ^ Z.of_nat (List.length r) + decimal_value r end%Z.
Definition blank (c : ascii) : Prop := 9 <= nat_of_ascii c <= 13 \/ nat_of_ascii c = 32.
(** an integer: blanks, a sign or none, digits; it must fit in 32 bits *)
Definition integer (t : text) (z : Z) : Prop :=
  exists blanks sign digits, t = blanks ++ sign ++ digits /\ Forall blank blanks /\ (sign = [] \/ sign = tx "+" \/ sign = tx "-") /\
    digits <> [] /\ Forall decimal_digit digits /\ z = (if text_eqb sign (tx "-") then - decimal_value digits else decimal_value digits)%Z /\
    (- 2 ^ 31 <= z < 2 ^ 31)%Z.
Definition has (c : ascii) (t : text) : Prop := In c t.

Section Spec.
  Variable K : Type.
  Variables k0 k1 : K.
  Variable kneg : K -> K.
  Variable stod : text -> option (K * nat).
  (** the whole text is a number *)
  Definition number (t : text) (x : K) : Prop := t <> [] /\ exists n, stod t = Some (x, n) /\ List.length t <= n.
  Definition star (conj : bool) : text := if conj then tx "*" else [].
  (** The meaning of a text:
      an integer n names the symbol n, and -n its negative; #n also names the symbol n; a number before # is a factor;
      a number with a point is a multiple of the identity (symbol 1); a star at the end conjugates. *)
  Inductive reads : text -> mono K -> Prop :=
  | reads_symbol : forall d z c, integer d z -> (0 <= z)%Z -> reads (d ++ star c) (mk_mono (Z.to_N z) k1 k0 c)
  | reads_minus : forall d z c, integer d z -> (- 2 ^ 31 < z < 0)%Z -> reads (d ++ star c) (mk_mono (Z.to_N (- z)) (kneg k1) k0 c)
  | reads_hash : forall d z c, integer d z -> (0 <= z)%Z -> reads (tx "#" ++ d ++ star c) (mk_mono (Z.to_N z) k1 k0 c)
  | reads_factor : forall f x d z c, number f x -> ~ has "#" f -> integer d z -> (0 <= z)%Z ->
      reads (f ++ tx "#" ++ d ++ star c) (mk_mono (Z.to_N z) x k0 c)
  | reads_number : forall f x, number f x -> ~ has "#" f -> has "." f -> reads f (mk_mono 1 x k0 false).
End Spec.
Arguments number {K}. Arguments reads {K}.

(** What is asked of numbers and their texts, for a set [exact] of numbers that are written without loss. *)
Record shown {K} (k0 k1 : K) (kneg : K -> K) (kpos : K -> bool) (keqb : K -> K -> bool) (show : K -> text) (exact : K -> Prop) : Prop := mk_shown {
  sh_eqb : forall x y, keqb x y = true <-> x = y;
  sh_one : kpos k1 = true /\ kpos (kneg k1) = false /\ k1 <> k0 /\ kneg k1 <> k0;
  sh_chars : forall x c, exact x -> In c (show x) -> decimal_digit c \/ In c (tx "+-.e");
  sh_some : forall x, exact x -> exists c r, show x = c :: r;
  sh_lone : forall x, exact x -> show x <> tx "-";
  sh_inj : forall x y, exact x -> exact y -> show x = show y -> x = y }.
(** What is asked of reading numbers: texts with a star, texts that end in a blank or an i, texts that begin with a bracket,
    and a lone minus, are not numbers. *)
Record reader {K} (stod : text -> option (K * nat)) : Prop := mk_reader {
  rd_star : forall t x, number stod t x -> ~ has "*" t;
  rd_end : forall t c x, number stod (t ++ [c]) x -> c <> " "%char /\ c <> "i"%char;
  rd_paren : forall t x, ~ number stod (tx "(" ++ t) x;
  rd_minus : forall x, ~ number stod (tx "-") x }.
(** the same moment: factor, symbol, and conjugation unless it is the identity *)
Definition same_mono {K} (m m' : mono K) : Prop :=
  mo_id m = mo_id m' /\ mo_re m = mo_re m' /\ mo_im m = mo_im m' /\ (mo_id m <> 1%N -> mo_conj m = mo_conj m').
Definition nonzero {K} (k0 : K) (m : mono K) : Prop := mo_id m <> 0%N /\ (mo_re m <> k0 \/ mo_im m <> k0).
Definition all_exact {K} (exact : K -> Prop) (m : mono K) : Prop := exact (mo_re m) /\ exact (mo_im m).
(** Symbols that are read back from their own text: those with factor 1, and, when they are written without #, those with factor -1. *)
Definition symbol_back {K} (k0 k1 : K) (kneg : K -> K) (hash : bool) (m : mono K) : Prop :=
  mo_id m <> 1%N /\ mo_im m = k0 /\ (mo_re m = k1 \/ (hash = false /\ mo_re m = kneg k1)).
(** Multiples of the identity that are read back: real ones, written with a point so that they are read as themselves, and 1 and -1. *)
Definition scalar_back {K} (k0 k1 : K) (kneg : K -> K) (show : K -> text) (stod : text -> option (K * nat)) (m : mono K) : Prop :=
  mo_id m = 1%N /\ mo_conj m = false /\ mo_im m = k0 /\
  ((has "." (show (mo_re m)) /\ number stod (show (mo_re m)) (mo_re m)) \/
   (integer (show (mo_re m)) 1 /\ mo_re m = k1) \/ (integer (show (mo_re m)) (-1) /\ mo_re m = kneg k1)).
