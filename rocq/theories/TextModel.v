(** Texts of operators and words: names by letters (utilities/alphabetic_namer.cpp), tables of names (scenarios/algebraic/name_table.cpp), and
    format_sequence of the contexts.  A text is a list of characters. *)
From Coq Require Import NArith Arith Bool Ascii String DecimalString List.
From Verif Require Import CoreModel AlgModel LocModel InfModel.
Import ListNotations.
Local Open Scope list_scope.

Definition text := list ascii.
Definition tx (s : string) : text := list_ascii_of_string s.
(** operator<< of a non-negative integer *)
Definition dec (n : nat) : text := tx (NilZero.string_of_uint (Nat.to_uint n)).
(** pieces with something in between: the loops with done_once *)
Fixpoint join (sep : text) (l : list text) : text :=
  match l with [] => [] | [a] => a | a :: l' => a ++ sep ++ join sep l' end.

(** * AlphabeticNamer.  The code uses double; the model is exact (below about 10^14 the two agree). *)
Definition letter (upper : bool) (k : N) : ascii := ascii_of_N ((if upper then 65 else 97) + k).
(** floor (log x / log 26) *)
Fixpoint log26 (fuel : nat) (x : N) : nat := match fuel with 0 => 0 | S f => if (x <? 26)%N then 0 else S (log26 f (x / 26)) end.
(** strlen, alphabetic_namer.cpp:14-17 *)
Definition name_length (id : N) : nat := let x := ((id * 25 + 26) / 26)%N in 1 + log26 (N.size_nat x) x.
(** level_offset, 19-21 *)
Definition level_offset (level : nat) : N := (26 * (26 ^ N.of_nat level - 1) / 25)%N.
(** the loop at 36-40; the last letter first *)
Fixpoint letters (upper : bool) (len : nat) (beyond : N) : text :=
  match len with 0 => [] | S k => letters upper k (beyond / 26) ++ [letter upper (beyond mod 26)] end.
(** operator(), 23-43 *)
Definition alpha (upper : bool) (id : N) : text :=
  if (id <? 26)%N then [letter upper id]
  else let len := name_length id in letters upper len (id - level_offset (len - 1)).

(** * NameTable *)
Definition between (lo hi : nat) (c : ascii) : bool := Nat.leb lo (nat_of_ascii c) && Nat.leb (nat_of_ascii c) hi.
Definition is_letter (c : ascii) : bool := between 65 90 c || between 97 122 c.
Definition is_digit (c : ascii) : bool := between 48 57 c.
Definition in_name (c : ascii) : bool := is_letter c || is_digit c || existsb (Ascii.eqb c) ["_"; "."; "|"]%char.
(** validate_name, name_table.cpp:123-149: the pattern [A-Za-z][A-Za-z0-9_\.\|]* *)
Definition valid_name (n : text) : bool := match n with [] => false | c :: r => is_letter c && forallb in_name r end.
Definition text_eqb (a b : text) : bool := if list_eq_dec ascii_dec a b then true else false.
(** the map [index]; insert and emplace do nothing if the key is there *)
Definition index := list (text * nat).
Definition find_name (ix : index) (n : text) : option nat := option_map snd (find (fun p => text_eqb (fst p) n) ix).
Definition emplace (ix : index) (n : text) (k : nat) : index := match find_name ix n with Some _ => ix | None => ix ++ [(n, k)] end.
Record names := mk_names { nm_names : list text; nm_index : index; nm_single : bool }.
Section NameTable.
  (** what move assignment leaves behind in its source (a valid but unspecified string), and in a string assigned to itself (likewise; libstdc++: the empty string) *)
  Variables moved self_moved : text -> text.
  Variable mode : conj_mode.
  (** 37-60; [None]: invalid_argument *)
  Fixpoint enter (op : nat) (l : list text) (ix : index) : option index :=
    match l with
    | [] => Some ix
    | n :: l' =>
        if valid_name n then
          match find_name ix n with
          | Some _ => None
          | None => enter (S op) l' (emplace ix n (op * match mode with Interleaved => 2 | _ => 1 end))
          end
        else None
    end.
  Definition star (n : text) : text := n ++ ["*"%char].
  Definition put {X} (k : nat) (x : X) (l : list X) : list X := firstn k l ++ x :: skipn (S k) l.
  (** 64-70 *)
  Definition add_self (l : list text) (ix : index) : index := fold_left (fun ix p => emplace ix (star (snd p)) (fst p)) (List.combine (seq 0 (length l)) l) ix.
  (** 71-79 *)
  Definition add_bunched (l : list text) (ix : index) : list text * index :=
    fold_left (fun s n => let names' := fst s ++ [star n] in (names', emplace (snd s) (star n) (length names' - 1))) l (l, ix).
  (** 80-91: [k] operators are left, the last one is next *)
  Fixpoint add_interleaved (k : nat) (l : list text) (ix : index) : list text * index :=
    match k with
    | 0 => (l, ix)
    | S i =>
        let n := nth i l [] in
        let l1 := if Nat.eqb (2 * i) i then put i (self_moved n) l else put i (moved n) (put (2 * i) n l) in
        add_interleaved i (put (2 * i + 1) (star n) l1) (emplace ix (star n) (2 * i + 1))
    end.
  (** constructor, 23-93 *)
  Definition name_table (raw : nat) (l : list text) : option names :=
    if Nat.eqb (length l) raw then
      match enter 0 l [] with
      | None => None
      | Some ix =>
          let single := forallb (fun n => Nat.eqb (length n) 1) l in
          match mode with
          | SelfAdjoint => Some (mk_names l (add_self l ix) single)
          | Bunched => let r := add_bunched l ix in Some (mk_names (fst r) (snd r) single)
          | Interleaved => let r := add_interleaved (length l) (l ++ repeat [] (length l)) ix in Some (mk_names (fst r) (snd r) single)
          end
      end
    else None.
End NameTable.
(** default_string_names, 106-121 *)
Definition default_names (n : nat) : list text := map (fun i => tx "X" ++ dec (i + 1)) (seq 0 n).
(** find, 151-166; [None]: invalid_argument *)
Definition find_operator (t : names) (n : text) : option nat := match n with [] => None | _ => find_name (nm_index t) n end.
(** format_stream, 168-175 *)
Definition operator_text (t : names) (op : nat) : text :=
  if Nat.ltb op (length (nm_names t)) then nth op (nm_names t) [] else tx "[UNK:" ++ dec op ++ tx "]".

(** * Words *)
Definition sign_text (s : sign) : text := match s with SPos => [] | SIm => tx "i" | SNeg => tx "-" | SNegIm => tx "-i" end.
Definition in_braces (braces : bool) (t : text) : text := if braces then tx "<" ++ t ++ tx ">" else t.
(** AlgebraicContext::format_sequence, algebraic_context.cpp:166-216, of a word that is not zero; operators are in range *)
Definition alg_word_text (t : names) (w : word) : text :=
  if nm_single t then concat (map (fun o => nth o (nm_names t) []) w) else join (tx ";") (map (operator_text t) w).
Definition alg_text (t : names) (braces : bool) (s : sign) (w : word) : text :=
  match w with [] => tx "1" | _ => sign_text s ++ in_braces braces (alg_word_text t w) end.
(** PauliContext::format_sequence and format_raw_sequence, pauli_context.cpp:381-437, of a word that is not zero *)
Definition pauli_operator_text (o : nat) : text := (match o mod 3 with 0 => tx "X" | 1 => tx "Y" | _ => tx "Z" end) ++ dec (o / 3 + 1).
Definition pauli_text (braces : bool) (s : sign) (w : word) : text :=
  sign_text s ++ in_braces braces (match w with [] => tx "I" | _ => concat (map pauli_operator_text w) end).

(** NaturalLOFormatter and TraditionalLOFormatter, locality_operator_formatter.cpp:35-54 *)
Inductive formatter := Natural | Traditional.
Definition format_operator (f : formatter) (party mmt : text) (mmt_index outcome : nat) : text :=
  match f with
  | Natural => party ++ tx "." ++ mmt ++ dec outcome
  | Traditional => party ++ dec outcome ++ tx "|" ++ dec mmt_index
  end.
(** Party::format_operator, party.cpp:112-128, of an operator of the party; names as given by Party::MakeList, party.cpp:210-275 *)
Definition loc_operator_text (f : formatter) (sc : scenario) (o : nat) : text :=
  let p := party_of_op sc o in
  let local := o - op_offset sc p in
  let m := nth local (mmt_table 0 (the_party sc p)) 0 in
  format_operator f (alpha true (N.of_nat p)) (alpha false (N.of_nat m)) m (local - nth m (mmt_offsets 0 (the_party sc p)) 0).
(** do_format_sequence, locality_context.cpp:220-260, of a word that is not zero; operators are in range *)
Definition loc_text (f : formatter) (sc : scenario) (braces negated : bool) (w : word) : text :=
  match w with
  | [] => tx "1"
  | _ => (if negated then tx "-" else []) ++ in_braces braces (join (tx ";") (map (loc_operator_text f sc) w))
  end.

(** InflationContext::format_sequence, inflation_context.cpp:567-635, of a word that is not zero; operators are in range *)
Definition inf_operator_text (c : ictx) (o : nat) : text :=
  let needs_comma := Nat.ltb 9 (ic_level c) in
  let needs_braces := existsb (fun ob => Nat.ltb 2 (ob_outcomes ob)) (nt_obs (ic_net c)) in
  alpha true (N.of_nat (oi_obs (info c o))) ++
  (if Nat.ltb 2 (ob_outcomes (io_obs (obs_of c o))) then dec (oi_outcome (info c o)) else []) ++
  (if Nat.ltb 1 (ic_level c) then
     (if needs_braces then tx "[" else []) ++ join (if needs_comma then tx "," else []) (map dec (cp_indices (copy_of c o))) ++ (if needs_braces then tx "]" else [])
   else []).
Definition inf_text (c : ictx) (braces negated : bool) (w : word) : text :=
  match w with
  | [] => tx "1"
  | _ => (if negated then tx "-" else []) ++ in_braces braces (join (tx ";") (map (inf_operator_text c) w))
  end.
