(** Symbols and the symbol table: symbolic/symbol.{h,cpp}, symbolic/symbol_table.{h,cpp}, dictionary/dictionary_map.cpp. *)
From Coq Require Import List NArith ZArith Arith Bool.
From Verif Require Import CoreModel.
Import ListNotations.

(** What the table asks of its context (virtual functions of Context). *)
Record sctx := mk_sctx {
  cx_conj : hseq -> hseq;       (* OperatorSequence::conjugate *)
  cx_alias : bool;              (* can_have_aliases *)
  cx_moment : hseq -> hseq;     (* simplify_as_moment *)
  cx_reducible : hseq -> bool;  (* can_be_simplified_as_moment *)
  cx_osg : nat -> list hseq     (* operator_sequence_generator(word_length) *)
}.
(** HashedSequence::set_sign *)
Definition set_sign (q : hseq) (s : sign) : hseq := mk_hseq (hs_hash q) (hs_ops q) s.

(** * Symbols, symbol.h:22-34.  Indices -1 are [None]. *)
Record symbol := mk_symbol { sy_id : nat; sy_seq : option hseq; sy_conj : option hseq; sy_herm : bool; sy_anti : bool;
                             sy_re : option nat; sy_im : option nat }.
Definition blank_symbol : symbol := mk_symbol 0 None None false false None None.
(** Symbol(OperatorSequence), symbol.h:39-41; id is -1 until registered, here 0 *)
Definition symbol_one (q : hseq) : symbol := mk_symbol 0 (Some q) None true false None None.
(** Symbol(construct_positive_tag, OperatorSequence), symbol.h:44-47 *)
Definition symbol_positive (q : hseq) : symbol := symbol_one (set_sign q SPos).
(** Symbol(sequence, conjSequence), symbol.cpp:14-31 *)
Definition symbol_pair (q c : hseq) : symbol :=
  let c' := set_sign c (smul (hs_sign c) (hs_sign q)) in
  let q' := set_sign q SPos in
  let compare := hs_compare_same_negation q' c' in
  mk_symbol 0 (Some q') (Some c') (Z.eqb compare 1) (negb (Z.eqb compare 1) && Z.eqb compare (-1)) None None.
(** Symbol::Zero and Identity, symbol.h:116-136 *)
Definition symbol_zero : symbol := mk_symbol 0 (Some (hseq_const true)) None true true None None.
Definition symbol_identity : symbol := mk_symbol 1 (Some (hseq_const false)) None true false (Some 0) None.
(** hash(), hash_conj(), symbol.h:61-74; [None] = undefined *)
Definition sy_hash (s : symbol) : option N := option_map hs_hash (sy_seq s).
Definition sy_hash_conj (s : symbol) : option N :=
  match sy_conj s with Some c => Some (hs_hash c) | None => option_map hs_hash (sy_seq s) end.

(** * Table, symbol_table.h:34-155 *)
Record table := mk_table {
  t_syms : list symbol;             (* unique_sequences *)
  t_hash : list (N * Z);            (* hash_table *)
  t_real : list nat;                (* Basis.real_symbols *)
  t_imag : list nat;                (* Basis.imaginary_symbols *)
  t_im_of_re : list (option nat);   (* Basis.im_of_real *)
  t_re_of_im : list (option nat);   (* Basis.re_of_imaginary *)
  t_map : list Z;                   (* OSGIndex.symbol_map *)
  t_map_len : nat                   (* OSGIndex.symbol_map_max_length *)
}.
(** std::map::find and emplace (no overwriting) *)
Fixpoint hfind (h : N) (m : list (N * Z)) : option Z :=
  match m with [] => None | (k, v) :: m' => if N.eqb k h then Some v else hfind h m' end.
Definition hemplace (h : N) (v : Z) (m : list (N * Z)) : list (N * Z) :=
  match hfind h m with Some _ => m | None => m ++ [(h, v)] end.

(** BasisView::push_back, symbol_table.cpp:379-395: new table and the two indices *)
Definition basis_push (t : table) (id : nat) (has_real has_im : bool) : table * option nat * option nat :=
  let re := if has_real then Some (length (t_real t)) else None in
  let im := if has_im then Some (length (t_imag t)) else None in
  (mk_table (t_syms t) (t_hash t)
     (if has_real then t_real t ++ [id] else t_real t)
     (if has_im then t_imag t ++ [id] else t_imag t)
     (if has_real then t_im_of_re t ++ [im] else t_im_of_re t)
     (if has_im then t_re_of_im t ++ [re] else t_re_of_im t)
     (t_map t) (t_map_len t), re, im).
Definition push_symbol (t : table) (s : symbol) : table :=
  mk_table (t_syms t ++ [s]) (t_hash t) (t_real t) (t_imag t) (t_im_of_re t) (t_re_of_im t) (t_map t) (t_map_len t).
Definition set_hash (t : table) (h : list (N * Z)) : table :=
  mk_table (t_syms t) h (t_real t) (t_imag t) (t_im_of_re t) (t_re_of_im t) (t_map t) (t_map_len t).
(** constructor, symbol_table.cpp:22-35; OSGIndex starts as [1], dictionary_map.cpp:19-23 *)
Definition table_start : table :=
  let t := mk_table [symbol_zero; symbol_identity] (hemplace 1 1 (hemplace 0 0 [])) [] [] [] [] [1%Z] 0 in
  fst (fst (basis_push t 1 true false)).

(** create(has_real, has_imaginary), symbol_table.cpp:39-58; returns the id *)
Definition create (t : table) (has_real has_im : bool) : table * nat :=
  let id := length (t_syms t) in
  let '(t1, re, im) := basis_push t id has_real has_im in
  (push_symbol t1 (mk_symbol id None None (negb has_im) (negb has_real) re im), id).
(** create(count, ...), symbol_table.cpp:60-90; returns the first id *)
Fixpoint create_loop (n : nat) (t : table) (has_real has_im : bool) : table :=
  match n with O => t | S n' => create_loop n' (fst (create t has_real has_im)) has_real has_im end.
Definition create_many (t : table) (n : nat) (has_real has_im : bool) : table * nat :=
  (create_loop n t has_real has_im, length (t_syms t)).

(** Outcomes: a result, an exception (the table keeps the changes made so far), undefined behaviour. *)
Inductive outcome (A : Type) := Done (t : table) (x : A) | Throw (t : table) | Undef.
Arguments Done {A}. Arguments Throw {A}. Arguments Undef {A}.

(** merge_in(Symbol), symbol_table.cpp:132-195.  Context::is_sequence_null is never overridden and says (false,false).  The
    check at 143-151 exists in debug builds only and is left out. *)
Definition merge_symbol (t : table) (s : symbol) : outcome nat :=
  match sy_hash s, sy_hash_conj s with
  | Some h, Some hc =>
      match hfind h (t_hash t) with
      | Some v => match nth_error (t_syms t) (Z.abs_nat v) with Some s' => Done t (sy_id s') | None => Undef end
      | None =>
          let id := length (t_syms t) in
          let '(t1, re, im) := basis_push t id (negb (sy_anti s)) (negb (sy_herm s)) in
          let m := hemplace h (Z.of_nat id) (t_hash t) in
          let m := if sy_herm s then m else hemplace hc (- Z.of_nat id)%Z m in
          Done (push_symbol (set_hash t1 m) (mk_symbol id (sy_seq s) (sy_conj s) (sy_herm s) (sy_anti s) re im)) id
      end
  | _, _ => Undef
  end.
(** merge_in(vector<Symbol>) 92-99 and merge_in(map iterators) 101-112; returns the ids in order *)
Fixpoint merge_symbols (t : table) (l : list symbol) : outcome (list nat) :=
  match l with
  | [] => Done t []
  | s :: l' => match merge_symbol t s with
               | Done t1 id => match merge_symbols t1 l' with Done t2 ids => Done t2 (id :: ids) | Throw t2 => Throw t2 | Undef => Undef end
               | Throw t1 => Throw t1
               | Undef => Undef
               end
  end.
(** merge_in(OperatorSequence), 116-130 *)
Definition merge_sequence (c : sctx) (t : table) (q : hseq) : outcome nat :=
  let q1 := set_sign q SPos in
  let q2 := if cx_alias c then cx_moment c q1 else q1 in
  merge_symbol t (symbol_pair q2 (cx_conj c q2)).

(** hash_to_index, 293-304: index and conjugated; [None] = not found *)
Definition hash_to_index (t : table) (h : N) : option (nat * bool) :=
  match hfind h (t_hash t) with
  | None => None
  | Some v => Some (if Z.leb 0 v then (Z.to_nat v, false) else (Z.to_nat (- v), true))
  end.
(** where, 251-279: found symbol's index, conjugated, aliased *)
Record lookup := mk_lookup { lk_symbol : option nat; lk_conj : bool; lk_alias : bool }.
Definition where_ (c : sctx) (t : table) (q : hseq) : lookup :=
  match hash_to_index t (hs_hash q) with
  | Some (id, cj) => mk_lookup (Some id) cj false
  | None =>
      if cx_alias c then
        let a := cx_moment c q in
        if N.eqb (hs_hash a) (hs_hash q) then mk_lookup None false false
        else match hash_to_index t (hs_hash a) with
             | Some (id, cj) => mk_lookup (Some id) cj true
             | None => mk_lookup None false true
             end
      else mk_lookup None false false
  end.
(** to_symbol, 282-290: (id, conjugated); an unknown word gives symbol 0 *)
Definition to_symbol (t : table) (q : hseq) : nat * bool :=
  match hash_to_index t (hs_hash q) with
  | Some (id, cj) => (match nth_error (t_syms t) id with Some s => sy_id s | None => 0 end, cj)
  | None => (0, false)
  end.

(** merge_in(bitsets), 199-248.  [re] and [im] are the bits; [Undef] = bits tested beyond the end of the bitset. *)
Fixpoint flag_loop (re im : list bool) (done todo : list symbol) (changes : bool) : list symbol * option bool * bool :=
  match todo with
  | [] => (done, Some changes, false)
  | s :: todo' =>
      let with_flags h a := mk_symbol (sy_id s) (sy_seq s) (sy_conj s) h a (sy_re s) (sy_im s) in
      if Nat.eqb (sy_id s) 0 then flag_loop re im (done ++ [with_flags true true]) todo' changes
      else match nth_error re (sy_id s), nth_error im (sy_id s) with
           | Some r, Some i =>
               if r then
                 if i then flag_loop re im (done ++ [s]) todo' changes
                 else let s' := with_flags true (sy_anti s) in
                      if sy_anti s then (done ++ s' :: todo', None, false)
                      else flag_loop re im (done ++ [s']) todo' (changes || negb (sy_herm s))
               else if i then
                 let s' := with_flags (sy_herm s) true in
                 if sy_herm s then (done ++ s' :: todo', None, false)
                 else flag_loop re im (done ++ [s']) todo' (changes || negb (sy_anti s))
               else (done ++ s :: todo', None, false)
           | _, _ => (done ++ s :: todo', None, true)
           end
  end.
Definition set_syms (t : table) (l : list symbol) : table :=
  mk_table l (t_hash t) (t_real t) (t_imag t) (t_im_of_re t) (t_re_of_im t) (t_map t) (t_map_len t).
(** renumerate_bases, 342-376 *)
Fixpoint renumber_loop (l : list symbol) (t : table) (done : list symbol) : table :=
  match l with
  | [] => set_syms t done
  | s :: l' =>
      let '(t1, re, im) := basis_push t (sy_id s) (negb (sy_anti s)) (negb (sy_herm s)) in
      renumber_loop l' t1 (done ++ [mk_symbol (sy_id s) (sy_seq s) (sy_conj s) (sy_herm s) (sy_anti s) re im])
  end.
Definition renumerate (t : table) : table :=
  renumber_loop (t_syms t) (mk_table (t_syms t) (t_hash t) [] [] [] [] (t_map t) (t_map_len t)) [].
Definition merge_bits (t : table) (re im : list bool) : outcome bool :=
  let n := length (t_syms t) in
  let t1 := if Nat.ltb n (length re) then fst (create_many t (length re - n) true true) else t in
  match flag_loop re im [] (t_syms t1) false with
  | (_, _, true) => Undef
  | (l, None, _) => Throw (set_syms t1 l)
  | (l, Some changes, _) => Done (renumerate (set_syms t1 l)) changes
  end.

(** fill_to_word_length, 306-339: number of words and of new symbols.  [build_unique] is a map ordered by hash, emplace does
    not overwrite. *)
Fixpoint map_emplace (h : N) (s : symbol) (m : list (N * symbol)) : list (N * symbol) :=
  match m with
  | [] => [(h, s)]
  | (k, v) :: m' => if N.ltb h k then (h, s) :: m else if N.eqb h k then m else (k, v) :: map_emplace h s m'
  end.
Definition fill_entry (c : sctx) (m : list (N * symbol)) (q : hseq) : list (N * symbol) :=
  if cx_alias c && cx_reducible c q then m
  else let cq := cx_conj c q in
       if N.eqb (hs_hash q) (hs_hash cq) then map_emplace (hs_hash q) (symbol_one q) m
       else if N.ltb (hs_hash q) (hs_hash cq) then map_emplace (hs_hash q) (symbol_pair q cq) m
       else m.
Definition fill_to_word_length (c : sctx) (t : table) (len : nat) : outcome (nat * nat) :=
  let osg := cx_osg c len in
  if Nat.ltb len (t_map_len t) then Done t (length osg, 0)
  else match merge_symbols t (map snd (fold_left (fill_entry c) osg [])) with
       | Done t' _ => Done t' (length osg, length (t_syms t') - length (t_syms t))
       | Throw t' => Throw t'
       | Undef => Undef
       end.

(** DictionaryMap::update_if_necessary, dictionary_map.cpp:25-58; [Undef] = word not found (assert, then null dereference) *)
Fixpoint map_entries (c : sctx) (t : table) (l : list hseq) : option (list Z) :=
  match l with
  | [] => Some []
  | q :: l' =>
      match lk_symbol (where_ c t q) with
      | None => None
      | Some id =>
          match nth_error (t_syms t) id with
          | None => None
          | Some s => match sy_seq s, map_entries c t l' with
                      | Some sq, Some r => Some ((if hs_eqb q sq then Z.of_nat (sy_id s) else - Z.of_nat (sy_id s))%Z :: r)
                      | _, _ => None
                      end
          end
      end
  end.
Definition update_map (c : sctx) (t : table) (len : nat) : outcome bool :=
  if Nat.leb len (t_map_len t) then Done t false
  else match map_entries c t (skipn (length (t_map t)) (cx_osg c len)) with
       | None => Undef
       | Some l => Done (mk_table (t_syms t) (t_hash t) (t_real t) (t_imag t) (t_im_of_re t) (t_re_of_im t) (t_map t ++ l) len) true
       end.
(** DictionaryMap::operator(), dictionary_map.cpp:61-75; [None] = std::range_error *)
Definition map_index (t : table) (i : nat) : option (nat * bool) :=
  match nth_error (t_map t) i with
  | None => None
  | Some v => Some (if Z.ltb v 0 then (Z.to_nat (- v), true) else (Z.to_nat v, false))
  end.

(** * Histories of calls *)
Inductive op :=
| ORegister (q : hseq)                       (* merge_in(OperatorSequence) *)
| OMerge (l : list symbol)                   (* merge_in(vector<Symbol>) or of a map *)
| OCreate (n : nat) (has_real has_im : bool)  (* create *)
| OBits (re im : list bool)                  (* merge_in(bitsets) *)
| OFill (len : nat)                          (* fill_to_word_length *)
| OUpdateMap (len : nat).                    (* OSGIndex.update_if_necessary *)
Definition forget {A} (o : outcome A) : outcome unit :=
  match o with Done t _ => Done t tt | Throw t => Throw t | Undef => Undef end.
Definition run_op (c : sctx) (t : table) (o : op) : outcome unit :=
  match o with
  | ORegister q => forget (merge_sequence c t q)
  | OMerge l => forget (merge_symbols t l)
  | OCreate n r i => let (t', _) := create_many t n r i in Done t' tt
  | OBits re im => forget (merge_bits t re im)
  | OFill len => forget (fill_to_word_length c t len)
  | OUpdateMap len => forget (update_map c t len)
  end.
(** all calls return normally *)
Fixpoint run_ops (c : sctx) (t : table) (l : list op) : outcome unit :=
  match l with
  | [] => Done t tt
  | o :: l' => match run_op c t o with Done t' _ => run_ops c t' l' | x => x end
  end.
(** exceptions are caught by the caller and the session goes on with the table as the exception left it; [None] = undefined *)
Fixpoint run_all (c : sctx) (t : table) (l : list op) : option table :=
  match l with
  | [] => Some t
  | o :: l' => match run_op c t o with Done t' _ | Throw t' => run_all c t' l' | Undef => None end
  end.
