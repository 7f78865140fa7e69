(** FactorTable, scenarios/inflation/factor_table.{h,cpp}, and InflationMatrixSystem::expand_rulebook.

    Simplifications: sequences are [None] (zero) or words; looking up a symbol by the hash of a sequence is looking up the sequence
    (hashes identify words: C01), conjugation does nothing in an inflation scenario; sequences handed to SymbolTable::where are canonical moments
    already, so its second search under the canonical moment is left out (C54_idempotent); the count of appearances is left out; symbol
    numbers are below 2^31.  The only part of the memory layout kept is the capacity of the vector of entries. *)
From Coq Require Import List ZArith Arith Bool.
From Verif Require Import CoreModel FieldModel AlgModel InfModel TreeModel SymModel PolyModel RuleModel.
Import ListNotations.

(** a value; an exception; std::terminate; undefined behaviour; not enough fuel *)
Inductive fout (A : Type) := FOk (a : A) | FThrow | FTerminate | FUndef | FFuel.
Arguments FOk {A}. Arguments FThrow {A}. Arguments FTerminate {A}. Arguments FUndef {A}. Arguments FFuel {A}.
Definition fbind {A B} (x : fout A) (f : A -> fout B) : fout B :=
  match x with FOk a => f a | FThrow => FThrow | FTerminate => FTerminate | FUndef => FUndef | FFuel => FFuel end.

(** FactorEntry, factor_table.h:47-76 *)
Record fentry := mk_fentry { fe_id : nat; fe_raw : list (option word); fe_seqs : list (option word); fe_syms : list nat }.
Definition fundamental (e : fentry) : bool := length (fe_seqs e) <=? 1.
(** The symbols (with or without a sequence), and the table: factor_table.h:78-84 *)
Record ftab := mk_ftab { ft_syms : list (option (option word)); ft_entries : list fentry; ft_cap : nat; ft_tree : itree nat }.

(** std::sort on symbol numbers *)
Fixpoint ninsert (x : nat) (l : list nat) : list nat :=
  match l with [] => [x] | y :: l' => if x <=? y then x :: l else y :: ninsert x l' end.
Definition nsort (l : list nat) : list nat := fold_right ninsert [] l.
(** std::merge *)
Fixpoint nmerge (l : list nat) : list nat -> list nat :=
  fix inner (r : list nat) : list nat :=
    match l, r with
    | [], _ => r
    | _, [] => l
    | x :: l', y :: r' => if y <? x then y :: inner r' else x :: nmerge l' r
    end.
Fixpoint drop_to (b : nat) (l : list nat) : list nat := match l with [] => [] | x :: l' => if x <=? b then drop_to b l' else l end.
(** combine_symbolic_factors, factor_table.cpp:352-389 *)
Definition combine_factors (l r : list nat) : list nat :=
  match l, r with
  | [], [] => [1]
  | _, _ =>
      match nmerge l r with
      | 0 :: m => (0 :: m) ++ [0]
      | [] => []
      | [x] => [x]
      | m => match drop_to 1 m with [] => [1] | m' => m' end
      end
  end.

(** look-up keys *)
Definition key (l : list nat) : list Z := map Z.of_nat l.
(** find_index_by_factors, factor_table.h:113-116 *)
Definition find_factors (t : ftab) (l : list nat) : option nat := t_find (key l) (ft_tree t).

Definition seq_eqb (a b : option word) : bool :=
  match a, b with
  | None, None => true
  | Some u, Some v => if list_eq_dec Nat.eq_dec u v then true else false
  | _, _ => false
  end.
(** SymbolTable::where, symbol_table.cpp:252-279; SymbolTable::hash_to_index, 293-304 *)
Fixpoint find_seq (q : option word) (l : list (option (option word))) : option nat :=
  match l with
  | [] => None
  | x :: l' => if match x with Some q' => seq_eqb q' q | None => false end then Some 0 else option_map S (find_seq q l')
  end.
(** Symbol::sequence, symbol.h:80-83: noexcept, so a missing sequence ends the program *)
Definition sequence_of (l : list (option (option word))) (id : nat) : fout (option word) :=
  match nth_error l id with Some (Some q) => FOk q | Some None => FTerminate | None => FUndef end.

Section Table.
  Variable c : ictx.
  (** fuel and initial scratch of simplify_as_moment; growth of a full vector *)
  Variables (fuel : nat) (scratch : list nat) (grow_to : nat -> nat).

  (** entries.emplace_back *)
  Definition push_entry (t : ftab) (e : fentry) : ftab :=
    mk_ftab (ft_syms t) (ft_entries t ++ [e]) (if length (ft_entries t) <? ft_cap t then ft_cap t else grow_to (ft_cap t)) (ft_tree t).
  Definition add_index (t : ftab) (l : list nat) (id : nat) : ftab :=
    mk_ftab (ft_syms t) (ft_entries t) (ft_cap t) (t_add (key l) id (ft_tree t)).
  Definition set_syms (t : ftab) (l : list (option (option word))) : ftab := mk_ftab l (ft_entries t) (ft_cap t) (ft_tree t).

  (** InflationContext::canonical_moment and factorize on sequences that may be zero *)
  Definition canonical_seq (q : option word) : fout (option word) :=
    match q with
    | None => FOk None
    | Some w => match canonical_moment c fuel scratch w with Ret r => FOk r | Err => FThrow | NoFuel => FFuel end
    end.
  Definition factorize_seq (q : option word) : list (option word) := match q with None => [None] | Some w => factorize c w end.

  (** the inner loop of check_for_new_factors, factor_table.cpp:94-109: symbols, canonical sequences, symbol numbers *)
  Fixpoint factor_symbols (syms : list (option (option word))) (raw : list (option word)) : fout (list (option (option word)) * list (option word) * list nat) :=
    match raw with
    | [] => FOk (syms, [], [])
    | q :: raw' =>
        fbind (canonical_seq q) (fun q' =>
        let '(syms', k) := match find_seq q' syms with Some k => (syms, k) | None => (syms ++ [Some q'], length syms) end in
        fbind (factor_symbols syms' raw') (fun x => let '(syms'', qs, ks) := x in FOk (syms'', q' :: qs, k :: ks)))
    end.
  (** one round of the first loop of check_for_new_factors, factor_table.cpp:81-115 *)
  Definition factor_one (t : ftab) (id : nat) : fout ftab :=
    fbind (sequence_of (ft_syms t) id) (fun q =>
    fbind (factor_symbols (ft_syms t) (factorize_seq q)) (fun x => let '(syms, qs, ks) := x in
    FOk (add_index (push_entry (set_syms t syms) (mk_fentry id (factorize_seq q) qs (nsort ks))) (nsort ks) id))).
  Fixpoint factor_all (t : ftab) (ids : list nat) : fout ftab :=
    match ids with [] => FOk t | id :: ids' => fbind (factor_one t id) (fun t' => factor_all t' ids') end.
  (** one round of the second loop, factor_table.cpp:118-127 *)
  Definition extra_one (t : ftab) (id : nat) : fout ftab :=
    fbind (sequence_of (ft_syms t) id) (fun q => FOk (add_index (push_entry t (mk_fentry id [q] [q] [id])) [id] id)).
  Fixpoint extra_all (t : ftab) (ids : list nat) : fout ftab :=
    match ids with [] => FOk t | id :: ids' => fbind (extra_one t id) (fun t' => extra_all t' ids') end.
  (** on_new_symbols_added and check_for_new_factors, factor_table.cpp:62-139 *)
  Definition update_factors (t : ftab) : fout ftab :=
    let next := length (ft_entries t) in
    let up_to := length (ft_syms t) in
    if next =? up_to then FOk t
    else fbind (factor_all t (seq next (up_to - next))) (fun t' => extra_all t' (seq up_to (length (ft_syms t') - up_to))).
  (** the symbol table and factor table of a new system, factor_table.cpp:57-60: zero and the identity *)
  Definition new_table : fout ftab := update_factors (mk_ftab [Some None; Some (Some [])] [] 0 t_root).
  (** new symbols for words, then on_new_symbols_registered, inflation_matrix_system.cpp:44-49 *)
  Definition add_words (t : ftab) (ws : list word) : fout ftab := update_factors (set_syms t (ft_syms t ++ map (fun w => Some (Some w)) ws)).

  (** sequences of the factors, in register_new, factor_table.cpp:147-151 *)
  Fixpoint sequences_of (l : list (option (option word))) (ks : list nat) : fout (list (option word)) :=
    match ks with
    | [] => FOk []
    | k :: ks' => fbind (sequence_of l k) (fun q => fbind (sequences_of l ks') (fun qs => FOk (q :: qs)))
    end.
  (** SymbolTable::create(true, false), symbol_table.cpp:39-58, then register_new, factor_table.cpp:141-156 *)
  Definition create_product (t : ftab) (ks : list nat) : fout (ftab * nat) :=
    let id := length (ft_syms t) in
    let syms := ft_syms t ++ [None] in
    fbind (sequences_of syms ks) (fun qs => FOk (add_index (push_entry (set_syms t syms) (mk_fentry id [] qs ks)) ks id, id)).
  (** combine_and_register_factors, extended_matrix.cpp:40-54 *)
  Definition combine_and_register (t : ftab) (l r : list nat) : fout (ftab * nat) :=
    let ks := combine_factors l r in
    match find_factors t ks with Some id => FOk (t, id) | None => create_product t ks end.

  (** register_new in bulk, factor_table.cpp:158-182; [defs] are the factors and their sequences, [tree] the index of the new entries;
      first SymbolTable::create(count, true, false), symbol_table.cpp:60-90 *)
  Fixpoint push_all (t : ftab) (defs : list (list nat * list (option word))) : ftab :=
    match defs with
    | [] => t
    | (ks, qs) :: defs' => push_all (push_entry t (mk_fentry (length (ft_entries t)) [] qs ks)) defs'
    end.
  Definition register_all (t : ftab) (defs : list (list nat * list (option word))) (tree : itree nat) : ftab :=
    match defs with
    | [] => t
    | _ => let t' := push_all (set_syms t (ft_syms t ++ repeat None (length defs))) defs in
           mk_ftab (ft_syms t') (ft_entries t') (ft_cap t') (t_merge (ft_tree t') tree)
    end.

  (** * Multiplication *)
  Definition entry_of (t : ftab) (id : nat) : fout fentry := match nth_error (ft_entries t) id with Some e => FOk e | None => FUndef end.
  (** try_multiply_canonical, factor_table.cpp:285-308 *)
  Definition multiply_canonical (t : ftab) (ks : list nat) : fout nat :=
    match find_factors t ks with
    | None => FThrow
    | Some k => if length (ft_entries t) <=? k then FThrow else fbind (entry_of t k) (fun e => FOk (fe_id e))
    end.
  (** the expansion of non-fundamental symbols, factor_table.cpp:252-275; expanding nothing if there are none is the same *)
  Fixpoint expand (t : ftab) (ks : list nat) : fout (list nat) :=
    match ks with
    | [] => FOk []
    | k :: ks' => fbind (entry_of t k) (fun e => fbind (expand t ks') (fun l => FOk (if fundamental e then k :: l else fe_syms e ++ l)))
    end.
  Definition multiply_plain (t : ftab) (ks : list nat) : fout nat := fbind (expand t ks) (fun l => multiply_canonical t (nsort l)).
  (** try_multiply(vector), factor_table.cpp:225-283 *)
  Definition multiply_list (t : ftab) (ks : list nat) : fout nat :=
    match ks with
    | [] => FOk 0
    | [k] => FOk k
    | _ =>
        if existsb (Nat.eqb 0) ks then FOk 0
        else if existsb (Nat.eqb 1) ks then
          match filter (fun k => negb (k =? 1)) ks with
          | [] => FOk 1
          | [k] => FOk k
          | ks' => multiply_plain t ks'
          end
        else multiply_plain t ks
    end.
  (** try_multiply(lhs, rhs), factor_table.cpp:185-222 *)
  Definition multiply_pair (t : ftab) (a b : nat) : fout nat :=
    if (a =? 0) || (b =? 0) then FOk 0
    else if a =? 1 then FOk b
    else if b =? 1 then FOk a
    else fbind (entry_of t a) (fun ea =>
         if negb (fundamental ea) then multiply_list t [a; b]
         else fbind (entry_of t b) (fun eb =>
              if negb (fundamental eb) then multiply_list t [a; b]
              else multiply_canonical t (if a <? b then [a; b] else [b; a]))).
End Table.

Section Polynomials.
  Context {R : rfield}.
  Notation mono := (mono R).
  Variable F : factory R.
  (** the double loop of try_multiply(factory, lhs, rhs), factor_table.cpp:328-343 *)
  Fixpoint multiply_row (t : ftab) (x : mono) (q : list mono) : fout (list mono) :=
    match q with
    | [] => FOk []
    | y :: q' =>
        if m_cj x || m_cj y then FThrow
        else fbind (multiply_pair t (m_id x) (m_id y)) (fun k =>
             fbind (multiply_row t x q') (fun l => FOk (mk_mono k false (cmul (m_f x) (m_f y)) :: l)))
    end.
  Fixpoint multiply_rows (t : ftab) (p q : list mono) : fout (list mono) :=
    match p with
    | [] => FOk []
    | x :: p' => fbind (multiply_row t x q) (fun l => fbind (multiply_rows t p' q) (fun l' => FOk (l ++ l')))
    end.
  (** try_multiply(factory, lhs, rhs), factor_table.cpp:310-348 *)
  Definition multiply_poly (t : ftab) (p q : list mono) : fout (list mono) :=
    let general := fbind (multiply_rows t p q) (fun l => FOk (make_poly (fa_table F) (fa_sort F) l)) in
    match q with
    | [] => FOk []
    | [y] => if m_id y =? 1 then FOk (scale (m_f y) p) else general
    | _ => general
    end.

  (** * expand_rulebook, inflation_matrix_system.cpp:116-185 *)
  (** get_as_poly, 155-161 *)
  Definition factor_poly (rules : list (rule R)) (k : nat) : list mono :=
    match find_rule rules k with Some r => ru_rhs r | None => poly_of_mono (mk_mono k false c1) end.
  (** 162-168: the product of the remaining factors *)
  Fixpoint multiply_rest (t : ftab) (rules : list (rule R)) (p : list mono) (ks : list nat) : fout (list mono) :=
    match ks with
    | [] => FOk p
    | k :: ks' => match p with [] => FOk [] | _ => fbind (multiply_poly t p (factor_poly rules k)) (fun p' => multiply_rest t rules p' ks') end
    end.
  (** one round of the loop, 134-175: the new raw rule, if any *)
  Definition expand_symbol (t : ftab) (rules : list (rule R)) (e : fentry) : fout (list (list mono)) :=
    if fundamental e then FOk []
    else match fe_syms e with
         | [] => FOk []
         | k :: ks =>
             if forallb (fun j => match find_rule rules j with Some _ => false | None => true end) (k :: ks) then FOk []
             else fbind (multiply_rest t rules (factor_poly rules k) ks) (fun p =>
                  FOk [append (fa_lt F) p (poly_of_mono (mk_mono (fe_id e) false (copp c1)))])
         end.
  Fixpoint expand_symbols (t : ftab) (rules : list (rule R)) (es : list fentry) : fout (list (list mono)) :=
    match es with
    | [] => FOk []
    | e :: es' => fbind (expand_symbol t rules e) (fun x => fbind (expand_symbols t rules es') (fun y => FOk (x ++ y)))
    end.
  (** The result and the rulebook afterwards.  [XThrow]: unknown_symbol or invalid_moment_rule is thrown; [XOther]: no square root or not enough
      fuel in complete, or undefined behaviour.  The number returned is a difference of signed numbers. *)
  Inductive xout := XDone (b : rulebook (R := R)) (n : Z) | XThrow (b : rulebook (R := R)) | XOther.
  Definition expand_rulebook (psrt : list (list mono) -> list (list mono)) (fuel : nat) (t : ftab) (from : nat) (b : rulebook (R := R)) : xout :=
    let b1 := enable_expansion b in
    if negb (rb_safe b) then XDone b1 0
    else match rb_rules b with
         | [] => XDone b1 0
         | _ =>
             match expand_symbols t (rb_rules b) (skipn from (ft_entries t)) with
             | FOk raw =>
                 match add_raw_rules b1 raw with
                 | RDone b2 _ =>
                     match complete F psrt fuel b2 with
                     | RDone b3 n => XDone (disable_expansion b3) (Z.of_nat n - Z.of_nat (length (rb_rules b)))
                     | RThrow b3 => XThrow b3
                     | _ => XOther
                     end
                 | RThrow b2 => XThrow b2
                 | _ => XOther
                 end
             | FThrow => XThrow b1
             | _ => XOther
             end
         end.
End Polynomials.
Arguments XDone {R}. Arguments XThrow {R}. Arguments XOther {R}.
