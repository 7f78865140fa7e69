(** Texts of symbols with factors: reading (Monomial's constructor from a string, symbolic/monomial.cpp:190-271) and writing
    (symbolic/monomial.cpp:27-57, utilities/format_factor.cpp:17-79).  A text is a list of characters.

    Numbers are abstract: [show] is operator<< for double, [stod] is std::stod (the value and how many characters were read; None: an exception).
    The tests approximately_real, approximately_zero and approximately_equal are exact. *)
From Coq Require Import NArith ZArith Arith Bool Ascii String List.
From Verif Require Import TextModel.
Import ListNotations.
Local Open Scope list_scope.

(** * std::stoi (strtol with base 10) *)
Definition is_space (c : ascii) : bool := between 9 13 c || Ascii.eqb c " ".
Fixpoint take_while (f : ascii -> bool) (t : text) : text := match t with [] => [] | c :: r => if f c then c :: take_while f r else [] end.
Fixpoint drop_while (f : ascii -> bool) (t : text) : text := match t with [] => [] | c :: r => if f c then drop_while f r else t end.
Definition digit_of (c : ascii) : Z := Z.of_N (N_of_ascii c) - 48.
Definition digits_value (t : text) : Z := fold_left (fun a c => 10 * a + digit_of c)%Z t 0%Z.
Inductive stoi_out := IntRead (z : Z) (how_much : nat) | IntInvalid | IntRange.
Definition int_min : Z := (- 2 ^ 31)%Z.
Definition int_max : Z := (2 ^ 31 - 1)%Z.
Definition stoi (t : text) : stoi_out :=
  let r := drop_while is_space t in
  let neg := match r with c :: _ => Ascii.eqb c "-" | [] => false end in
  let r' := match r with c :: r' => if Ascii.eqb c "-" || Ascii.eqb c "+" then r' else r | [] => [] end in
  match take_while is_digit r' with
  | [] => IntInvalid
  | ds => let v := if neg then (- digits_value ds)%Z else digits_value ds in
          if (v <? int_min)%Z || (int_max <? v)%Z then IntRange else IntRead v (List.length t - List.length (drop_while is_digit r'))
  end.
(** operator<< of a symbol id *)
Definition digit_char (n : N) : ascii := ascii_of_N (48 + n).
Fixpoint dec_loop (fuel : nat) (n : N) : text :=
  match fuel with O => [] | S f => if (n <? 10)%N then [digit_char n] else dec_loop f (n / 10) ++ [digit_char (n mod 10)] end.
Definition decN (n : N) : text := dec_loop (S (N.size_nat n)) n.

Section Mono.
  Variable K : Type.
  Variables k0 k1 : K.
  Variable kneg : K -> K.
  Variable kpos : K -> bool.           (* > 0 *)
  Variable keqb : K -> K -> bool.
  Variable show : K -> text.
  Variable stod : text -> option (K * nat).

  (** Monomial, monomial.h:43-46 *)
  Record mono := mk_mono { mo_id : N; mo_re : K; mo_im : K; mo_conj : bool }.
  Inductive mout := MRead (m : mono) | MBad | MUndef.
  (** std::string::find: the text before the first such character, and the rest after it *)
  Fixpoint split_at (c : ascii) (t : text) : option (text * text) :=
    match t with
    | [] => None
    | x :: r => if Ascii.eqb x c then Some ([], r) else option_map (fun p => (x :: fst p, snd p)) (split_at c r)
    end.
  Definition max_strlen : nat := 32.   (* monomial.h:126 *)
  (** 238-262: the symbol id, [t] being the text from read_from on *)
  Definition read_id (has_prefactor : bool) (factor : K) (t : text) : mout :=
    let conj := match rev t with c :: _ => Ascii.eqb c "*" | [] => false end in
    let body := if conj then removelast t else t in
    match stoi body with
    | IntInvalid | IntRange => MBad
    | IntRead z how_much =>
        if Nat.ltb how_much (List.length body) then MBad
        else if (z <? 0)%Z then
          if has_prefactor then MBad
          else if (z =? int_min)%Z then MUndef                        (* 255: - INT_MIN overflows *)
          else MRead (mk_mono (Z.to_N (- z)) (kneg k1) k0 conj)
        else MRead (mk_mono (Z.to_N z) factor k0 conj)
    end.
  (** 209-229: a factor; it must be the whole of the text *)
  Definition read_factor (t : text) : option K :=
    match t with
    | [] => Some k1
    | _ => match stod t with Some (x, how_much) => if Nat.ltb how_much (List.length t) then None else Some x | None => None end
    end.
  (** 190-271 *)
  Definition parse (t : text) : mout :=
    match t with
    | [] => MBad
    | _ =>
      if Nat.ltb max_strlen (List.length t) then MBad
      else match split_at "#" t with
           | Some (f, r) => match read_factor f with Some x => read_id true x r | None => MBad end
           | None =>
               match split_at "." t with
               | Some _ => match read_factor t with Some x => MRead (mk_mono 1 x k0 false) | None => MBad end
               | None => read_id false k1 t
               end
           end
    end.

  (** format_factor, format_factor.cpp:17-79: the text, and whether a space is needed *)
  Definition format_factor (re im : K) (is_scalar needs_plus : bool) : text * bool :=
    if keqb im k0 then
      if kpos re then
        let p := if needs_plus then tx " + " else [] in
        if is_scalar || negb (keqb re k1) then (p ++ show re, true) else (p, false)
      else if needs_plus then
        if is_scalar || negb (keqb re (kneg k1)) then (tx " - " ++ show (kneg re), true) else (tx " - ", false)
      else if is_scalar || negb (keqb re (kneg k1)) then (show re, true) else (tx "-", false)
    else if keqb re k0 then
      if kpos im then
        ((if needs_plus then tx " + " else []) ++ (if keqb im k1 then [] else show im) ++ tx "i", true)
      else if needs_plus then
        (tx " - " ++ (if keqb im (kneg k1) then [] else show (kneg im)) ++ tx "i", true)
      else ((if keqb im (kneg k1) then tx "-" else show im) ++ tx "i", true)
    else
      ((if needs_plus then tx " + " else []) ++ tx "(" ++ show re ++ tx " + " ++ show im ++ tx "i)", true).
  (** format_as_symbol_id_without_context, monomial.cpp:27-57 *)
  Definition write (show_plus show_hash : bool) (m : mono) : text :=
    if N.eqb (mo_id m) 0 || (keqb (mo_re m) k0 && keqb (mo_im m) k0) then (if show_plus then tx " + " else []) ++ tx "0"
    else
      let is_scalar := N.eqb (mo_id m) 1 in
      let (f, needs_space) := format_factor (mo_re m) (mo_im m) is_scalar show_plus in
      if is_scalar then f
      else f ++ (if needs_space then (if show_hash then tx " " else tx "*") else [])
             ++ (if show_hash then tx "#" else []) ++ decN (mo_id m) ++ (if mo_conj m then tx "*" else []).
End Mono.
Arguments mk_mono {K}. Arguments mo_id {K}. Arguments mo_re {K}. Arguments mo_im {K}. Arguments mo_conj {K}.
Arguments MRead {K}. Arguments MBad {K}. Arguments MUndef {K}.
Arguments read_id {K}. Arguments read_factor {K}. Arguments parse {K}. Arguments format_factor {K}. Arguments write {K}.
