(** What the symbol table is for. *)
From Coq Require Import List NArith ZArith Arith Bool Sorted.
From Verif Require Import CoreModel CoreSpec FieldModel SymModel.
Import ListNotations.

(** the word without its phase *)
Definition pos (q : hseq) : hseq := set_sign q SPos.
(** A context obeys these laws on the set [V] of its operator sequences: conjugation is an involution, antilinear in the
    phase; equal hash means equal word. *)
Record lawful (c : sctx) (V : hseq -> Prop) : Prop := mk_lawful {
  lw_pos : forall q, V q -> V (pos q);
  lw_conj : forall q, V q -> V (cx_conj c q);
  lw_invol : forall q, V q -> cx_conj c (cx_conj c q) = q;
  lw_phase : forall q, V q ->
    cx_conj c q = set_sign (cx_conj c (pos q)) (smul (sconj (hs_sign q)) (hs_sign (cx_conj c (pos q))));
  lw_hash : forall a b, V a -> V b -> hs_hash a = hs_hash b -> hs_ops a = hs_ops b;
  lw_zero : V (hseq_const true) /\ cx_conj c (hseq_const true) = hseq_const true;
  lw_one : V (hseq_const false) /\ cx_conj c (hseq_const false) = hseq_const false;
  lw_moment : forall q, V q -> V (cx_moment c q);
  lw_moment_phase : forall q, V q -> cx_moment c q = set_sign (cx_moment c (pos q)) (hs_sign q) }.
(** the dictionary of level [L] lies in [V] (its words are not too long for [V]) *)
Definition osg_ok (c : sctx) (V : hseq -> Prop) (L : nat) : Prop := forall q, In q (cx_osg c L) -> V q /\ hs_sign q = SPos.
(** symbols that callers may hand to the table: made from a word and its conjugate, or from a word whose conjugate is the
    same word up to a phase *)
Inductive symbol_ok (c : sctx) (V : hseq -> Prop) : symbol -> Prop :=
| so_zero : symbol_ok c V symbol_zero
| so_identity : symbol_ok c V symbol_identity
| so_one : forall q, V q -> hs_hash (cx_conj c q) = hs_hash q -> symbol_ok c V (symbol_one q)
| so_pair : forall q, V q -> symbol_ok c V (symbol_pair q (cx_conj c q)).
Definition op_ok (c : sctx) (V : hseq -> Prop) (o : op) : Prop :=
  match o with ORegister q => V q | OMerge l => Forall (symbol_ok c V) l | OFill L | OUpdateMap L => osg_ok c V L | _ => True end.
(** tables a session can reach (exceptions included) *)
Definition reachable (c : sctx) (V : hseq -> Prop) (t : table) : Prop :=
  exists l, Forall (op_ok c V) l /\ run_all c table_start l = Some t.
(** tables a session without exceptions can reach *)
Definition reachable_clean (c : sctx) (V : hseq -> Prop) (t : table) : Prop :=
  exists l, Forall (op_ok c V) l /\ run_ops c table_start l = Done t tt.
(** [t'] can come after [t] *)
Definition later (c : sctx) (V : hseq -> Prop) (t t' : table) : Prop :=
  exists l, Forall (op_ok c V) l /\ run_all c t l = Some t'.
(** the word symbol number [id] stands for *)
Definition symbol_word (t : table) (id : nat) : option hseq :=
  match nth_error (t_syms t) id with Some s => sy_seq s | None => None end.

(** Meaning: an expectation functional on operator sequences. *)
Definition sphase (R : rfield) (s : sign) : cx R :=
  match s with SPos => c1 | SIm => ci | SNeg => copp c1 | SNegIm => copp ci end.
Record expectation (c : sctx) (V : hseq -> Prop) (R : rfield) (E : hseq -> cx R) : Prop := mk_expectation {
  ex_conj : forall q, V q -> E (cx_conj c q) = cconj (E q);
  ex_phase : forall q, V q -> E q = cmul (sphase R (hs_sign q)) (E (pos q));
  ex_zero : E (hseq_const true) = c0;
  ex_moment : cx_alias c = true -> forall q, V q -> E (cx_moment c q) = E q }.
(** Conjugating a word without phase gives a word without phase, or the same word (perhaps with a phase). *)
Definition unsigned_conj (c : sctx) (V : hseq -> Prop) : Prop :=
  forall q, V q -> hs_sign (cx_conj c (pos q)) = SPos \/ pos (cx_conj c q) = pos q.
(** two sequences have the same word *)
Definition same_word (a b : hseq) : Prop := pos a = pos b.
(** ... or conjugate words *)
Definition conj_words (c : sctx) (a b : hseq) : Prop := same_word (cx_conj c a) b.
(** what a lookup answer (symbol [id], conjugated or not) claims about [q]: the symbol's word is q's, or the conjugate of it *)
Definition answers (c : sctx) (t : table) (q : hseq) (id : nat) (cj : bool) : Prop :=
  exists w, symbol_word t id = Some w /\ if cj then conj_words c w q /\ ~ same_word w q else same_word w q.
(** what a registered sequence is entered as: its word, or the representative of its moment *)
Definition table_entry (c : sctx) (q : hseq) : hseq := if cx_alias c then cx_moment c (pos q) else pos q.
(** minus a word *)
Definition neg (q : hseq) : hseq := set_sign q (sneg (hs_sign q)).
(** sessions in which the Hermiticity flags are decided by registration only: no later updates, and symbols merged directly
    were built from a word with its conjugate, or from one word that is self-conjugate and has a real phase; bulk fill only
    meets words that are not minus their conjugate nor +-i times it *)
Definition flags_ok (c : sctx) (o : op) : Prop :=
  match o with
  | OMerge l => forall s, In s l -> (exists q, s = symbol_pair q (cx_conj c q)) \/
                  (exists q, s = symbol_one q /\ cx_conj c q = q /\ (hs_sign q = SPos \/ hs_sign q = SNeg)) \/ s = symbol_zero \/ s = symbol_identity
  | OBits _ _ => False
  | OFill L => forall q, In q (cx_osg c L) -> same_word (cx_conj c q) q -> cx_conj c q = q
  | _ => True
  end.
Definition flagged (c : sctx) (t : table) : Prop := forall id s w, nth_error (t_syms t) (S id) = Some s -> sy_seq s = Some w ->
  (sy_herm s = true <-> cx_conj c (pos w) = pos w) /\ (sy_anti s = true <-> cx_conj c (pos w) = neg (pos w)).
(** value of symbol [id] (conjugated if [cj]) *)
Definition symbol_value {R : rfield} (E : hseq -> cx R) (t : table) (id : nat) (cj : bool) : option (cx R) :=
  option_map (fun w => if cj then cconj (E (pos w)) else E (pos w)) (symbol_word t id).

(** Basis numbering: the ids (= positions) of symbols with a real (imaginary) part, in order. *)
Definition positions {A} (p : A -> bool) (l : list A) : list nat :=
  map fst (filter (fun x => p (snd x)) (combine (seq 0 (length l)) l)).
Definition has_re (s : symbol) : bool := negb (sy_anti s).
Definition has_im (s : symbol) : bool := negb (sy_herm s).
Record numbered (t : table) : Prop := mk_numbered {
  nb_real : t_real t = positions has_re (t_syms t);
  nb_imag : t_imag t = positions has_im (t_syms t);
  nb_re : forall id s k, nth_error (t_syms t) id = Some s -> (sy_re s = Some k <-> nth_error (t_real t) k = Some id);
  nb_im : forall id s k, nth_error (t_syms t) id = Some s -> (sy_im s = Some k <-> nth_error (t_imag t) k = Some id);
  nb_im_of_re : length (t_im_of_re t) = length (t_real t) /\
    forall k id s, nth_error (t_real t) k = Some id -> nth_error (t_syms t) id = Some s -> nth_error (t_im_of_re t) k = Some (sy_im s);
  nb_re_of_im : length (t_re_of_im t) = length (t_imag t) /\
    forall k id s, nth_error (t_imag t) k = Some id -> nth_error (t_syms t) id = Some s -> nth_error (t_re_of_im t) k = Some (sy_re s) }.
(** The dictionary of the context: level 0 is the identity, and levels extend one another. *)
Definition osg_nested (c : sctx) : Prop :=
  cx_osg c 0 = [hseq_const false] /\ forall L L', L <= L' -> exists more, cx_osg c L' = cx_osg c L ++ more.
(** ... and contain the conjugates of their words *)
Definition osg_conjugates (c : sctx) : Prop := forall L q, In q (cx_osg c L) -> exists q', In q' (cx_osg c L) /\ conj_words c q q'.
Definition plain_words (t : table) : Prop := forall id w, symbol_word t id = Some w -> hs_sign w = SPos.
(** the index of dictionary words agrees with the table *)
Definition map_agrees (c : sctx) (t : table) : Prop := forall i id cj, map_index t i = Some (id, cj) ->
  exists q, nth_error (cx_osg c (t_map_len t)) i = Some q /\ exists w, symbol_word t id = Some w /\
    if cj then conj_words c w q else same_word w q.
(** Hermitian and anti-Hermitian flag of a symbol; a symbol that does not exist yet has neither *)
Definition flags_at (t : table) (id : nat) : bool * bool :=
  match nth_error (t_syms t) id with Some s => (sy_herm s, sy_anti s) | None => (false, false) end.
