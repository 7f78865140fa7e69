(** C22, C23, C24: the symbol table.
    [c] is a context, [V] the set of its operator sequences; [lawful c V] are the laws of conjugation the code relies on, and
    is proved below for locality, Pauli and algebraic contexts. *)
From Coq Require Import List NArith ZArith Arith Bool.
From Verif Require Import CoreModel CoreSpec AlgModel AlgSpec PauliModel PauliSpec LocModel LocSpec FieldModel FieldProofs SymModel SymSpec SymInstModel ChshProofs
  SymProofs SymFinalProofs SymInstProofs SymWitnessProofs SymMoreProofs.
Import ListNotations.

(* ------------------------------------------------------------------------------------------------ the contexts *)
Theorem C22_locality_context : forall sc L osg, loc_safe sc L -> lawful (loc_sctx sc osg) (loc_wf sc L).
Proof. exact loc_lawful. Qed.
Print Assumptions C22_locality_context.

Theorem C22_pauli_context : forall n L osg, pauli_safe n L -> lawful (pauli_sctx osg) (pauli_wf n L).
Proof. exact pauli_lawful. Qed.
Print Assumptions C22_pauli_context.

(** Complete algebraic contexts, with enough fuel; conjugation returns there. *)
Theorem C22_algebraic_context : forall L M c ctx fc osg, decidable_context L M c ctx -> is_complete fc (ac_rules ctx) true = Ret true ->
  pc_mode (rb_pc (ac_rules ctx)) = SelfAdjoint \/ c = true -> exists n, forall fuel, n <= fuel ->
   lawful (alg_sctx fuel ctx osg) (alg_words L c ctx) /\
   forall q, alg_words L c ctx q -> conjugate fuel ctx q = Ret (cx_conj (alg_sctx fuel ctx osg) q).
Proof. exact alg_lawful. Qed.
Print Assumptions C22_algebraic_context.

Theorem C22_locality_unsigned : forall sc L osg, loc_safe sc L -> unsigned_conj (loc_sctx sc osg) (loc_wf sc L).
Proof. exact loc_unsigned. Qed.
Print Assumptions C22_locality_unsigned.

Theorem C22_pauli_unsigned : forall n L osg, unsigned_conj (pauli_sctx osg) (pauli_wf n L).
Proof. exact pauli_unsigned. Qed.
Print Assumptions C22_pauli_unsigned.

(* ------------------------------------------------------------------------------------------------ C22 *)
(** Symbols 0 and 1 are zero and the identity; identifiers are consecutive. *)
Theorem C22_shape : forall c V, lawful c V -> forall t, reachable c V t ->
  symbol_word t 0 = Some (hseq_const true) /\ symbol_word t 1 = Some (hseq_const false) /\
  (forall i s, nth_error (t_syms t) i = Some s -> sy_id s = i).
Proof. exact table_shape. Qed.
Print Assumptions C22_shape.

(** An identifier never changes meaning. *)
Theorem C22_meaning_kept : forall c V, lawful c V -> forall t t' id, reachable c V t -> later c V t t' -> id < length (t_syms t) ->
  symbol_word t' id = symbol_word t id.
Proof. exact words_kept. Qed.
Print Assumptions C22_meaning_kept.

(** Lookup finds [q] exactly if its word, or the conjugate of it, has been entered; the flag says which. *)
Theorem C22_lookup_exact : forall c V, lawful c V -> forall t q id cj, reachable c V t -> V q ->
  (hash_to_index t (hs_hash q) = Some (id, cj) <-> answers c t q id cj).
Proof. exact lookup_answers. Qed.
Print Assumptions C22_lookup_exact.

(** Once found, always found, with the same answer. *)
Theorem C22_lookup_kept : forall c V, lawful c V -> forall t t' q id cj, reachable c V t -> later c V t t' -> V q ->
  hash_to_index t (hs_hash q) = Some (id, cj) -> hash_to_index t' (hs_hash q) = Some (id, cj).
Proof. exact lookup_kept. Qed.
Print Assumptions C22_lookup_kept.

Theorem C22_to_symbol : forall c V, lawful c V -> forall t q id cj, reachable c V t ->
  hash_to_index t (hs_hash q) = Some (id, cj) -> to_symbol t q = (id, cj).
Proof. exact to_symbol_found. Qed.
Print Assumptions C22_to_symbol.

(** Registration, direct merge, creation and bulk fill never fail. *)
Theorem C22_registration_total : forall c V, lawful c V -> forall t o, reachable c V t -> op_ok c V o ->
  match o with OBits _ _ | OUpdateMap _ => True | _ => exists t', run_op c t o = Done t' tt end.
Proof. exact never_undefined. Qed.
Print Assumptions C22_registration_total.

(** A registered sequence looks up, ever after, to the identifier its registration returned. *)
Theorem C22_registered : forall c V, lawful c V -> forall t q t' id, reachable c V t -> V q -> merge_sequence c t q = Done t' id ->
  exists cj, forall t'', later c V t' t'' ->
    hash_to_index t'' (hs_hash (table_entry c q)) = Some (id, cj) /\ answers c t'' (table_entry c q) id cj.
Proof. exact register_lookup. Qed.
Print Assumptions C22_registered.

Theorem C22_where_finds : forall c V, lawful c V -> forall t q t' id t'', reachable c V t -> V q -> merge_sequence c t q = Done t' id ->
  later c V t' t'' -> exists i, lk_symbol (where_ c t'' q) = Some i /\ (cx_alias c = false -> i = id).
Proof. exact where_found. Qed.
Print Assumptions C22_where_finds.

(** Registering again changes nothing and returns the same identifier. *)
Theorem C22_again : forall c V, lawful c V -> forall t q id cj, reachable c V t -> V q ->
  hash_to_index t (hs_hash (table_entry c q)) = Some (id, cj) -> merge_sequence c t q = Done t id.
Proof. exact register_again. Qed.
Print Assumptions C22_again.

(** Two sequences share an identifier exactly if their words are equal or conjugate. *)
Theorem C22_shared_identifier : forall c V, lawful c V -> forall t a b ia ib ca cb, reachable c V t -> V a -> V b ->
  hash_to_index t (hs_hash a) = Some (ia, ca) -> hash_to_index t (hs_hash b) = Some (ib, cb) ->
  (ia = ib <-> same_word a b \/ conj_words c a b).
Proof. exact same_symbol. Qed.
Print Assumptions C22_shared_identifier.

(** Meaning: under every expectation functional, the value of the symbol found (conjugated if flagged) is the expectation of
    the word looked up - provided conjugation does not turn a word into minus another word. *)
Theorem C22_lookup_value : forall c V, lawful c V -> forall (R : rfield) (E : hseq -> cx R) t q id, reachable c V t -> V q ->
  expectation c V R E -> unsigned_conj c V -> lk_symbol (where_ c t q) = Some id ->
  symbol_value E t id (lk_conj (where_ c t q)) = Some (E (pos q)).
Proof. exact where_value. Qed.
Print Assumptions C22_lookup_value.

Theorem C22_hash_lookup_value : forall c V, lawful c V -> forall (R : rfield) (E : hseq -> cx R) t q id cj, reachable c V t -> V q ->
  expectation c V R E -> unsigned_conj c V -> answers c t q id cj -> symbol_value E t id cj = Some (E (pos q)).
Proof. exact answers_value. Qed.
Print Assumptions C22_hash_lookup_value.

Theorem C22_registered_value : forall c V, lawful c V -> forall (R : rfield) (E : hseq -> cx R) t q t' id t'', reachable c V t -> V q ->
  expectation c V R E -> unsigned_conj c V -> merge_sequence c t q = Done t' id -> later c V t' t'' ->
  exists cj, symbol_value E t'' id cj = Some (E (pos q)).
Proof. exact register_value. Qed.
Print Assumptions C22_registered_value.

(** All of it holds of a CHSH session in which A0 A1 and - A0 B0 were registered, and the behaviour with every outcome certain. *)
Example C22_values_nonvacuous : lawful chsh_sctx chsh_words /\ unsigned_conj chsh_sctx chsh_words /\ expectation chsh_sctx chsh_words Qc_rfield flat_E /\
  reachable chsh_sctx chsh_words chsh_table /\ (let q := hseq_make 4 [1;0] SPos in chsh_words q /\ lk_symbol (where_ chsh_sctx chsh_table q) = Some 2 /\ lk_conj (where_ chsh_sctx chsh_table q) = true).
Proof.
  split; [exact chsh_lawful|]. split; [exact chsh_unsigned|]. split; [exact chsh_expectation|]. split; [exact chsh_reach|]. cbv zeta.
  split; [apply chsh_word; [reflexivity|cbn; repeat constructor]|]. split; vm_compute; reflexivity.
Qed.

(** Without that proviso the value is wrong: in an anticommuting algebra the lookup of Z X Y after registering X Y Z has the
    wrong sign (DESIGN.md, findings). *)
Theorem C22_signed_conjugate_refuted : exists c V (R : rfield) (E : hseq -> cx R) t q id cj, lawful c V /\ expectation c V R E /\ reachable c V t /\ V q /\
  hash_to_index t (hs_hash q) = Some (id, cj) /\ symbol_value E t id cj <> Some (E (pos q)).
Proof. exact signed_conjugate_refuted. Qed.
Print Assumptions C22_signed_conjugate_refuted.

(** What [where] reports, exactly: the word itself if it is known; otherwise, in a context with aliases, the representative of
    its moment; and nothing only if neither is known. *)
Theorem C22_where_exact : forall c V, lawful c V -> forall t q, reachable c V t -> V q ->
  match lk_symbol (where_ c t q) with
  | Some id => if lk_alias (where_ c t q)
               then cx_alias c = true /\ (forall i cj, ~ answers c t q i cj) /\ ~ same_word (cx_moment c q) q /\ answers c t (cx_moment c q) id (lk_conj (where_ c t q))
               else answers c t q id (lk_conj (where_ c t q))
  | None => (forall i cj, ~ answers c t q i cj) /\ (cx_alias c = true -> forall i cj, ~ answers c t (cx_moment c q) i cj)
  end.
Proof. exact where_exact. Qed.
Print Assumptions C22_where_exact.

(** Creating [n] symbols appends [n] symbols with the given parts and without words, and returns the first identifier. *)
Theorem C22_create : forall t n hr hi, exists t' l, create_many t n hr hi = (t', length (t_syms t)) /\ t_syms t' = t_syms t ++ l /\ length l = n /\
  (forall s, In s l -> sy_herm s = negb hi /\ sy_anti s = negb hr /\ sy_seq s = None) /\ t_hash t' = t_hash t.
Proof. exact create_spec. Qed.
Print Assumptions C22_create.

(** Bulk fill reports the size of the dictionary and the number of new symbols. *)
Theorem C22_fill_counts : forall c t L t' n k, fill_to_word_length c t L = Done t' (n, k) ->
  n = length (cx_osg c L) /\ length (t_syms t') = length (t_syms t) + k.
Proof. exact fill_count. Qed.
Print Assumptions C22_fill_counts.

(** The index from dictionary positions to symbols agrees with the table (contexts without aliases, words entered without
    phase), and covers the dictionary it was built for. *)
Theorem C22_dictionary_index : forall c V, lawful c V -> cx_alias c = false -> osg_nested c -> forall t, reachable c V t -> plain_words t ->
  map_agrees c t /\ length (t_map t) = length (cx_osg c (t_map_len t)).
Proof. exact map_correct. Qed.
Print Assumptions C22_dictionary_index.

(** After a bulk fill to a word length the index can be built. *)
Theorem C22_fill_then_index : forall c V, lawful c V -> cx_alias c = false -> forall t L t1 n k, reachable c V t -> osg_ok c V L -> osg_conjugates c ->
  fill_to_word_length c t L = Done t1 (n, k) -> exists t2 b, update_map c t1 L = Done t2 b.
Proof. exact fill_then_map. Qed.
Print Assumptions C22_fill_then_index.

Example C22_nonvacuous : lawful anti3_sctx anti3_words /\ anti3_words xyz /\ anti3_words zxy /\ expectation anti3_sctx anti3_words Qc_rfield anti3_E /\
  run_op anti3_sctx table_start (ORegister xyz) = Done (table_after anti3_sctx [ORegister xyz]) tt /\
  hash_to_index (table_after anti3_sctx [ORegister xyz]) (hs_hash xyz) = Some (2, false) /\ osg_ok anti3_sctx anti3_words 2 /\
  length (t_syms (table_after anti3_sctx [OFill 2; ORegister xyz; ORegister zxy; OUpdateMap 2])) = 12 /\
  map_index (table_after anti3_sctx [OFill 2; OUpdateMap 2]) 8 = Some (9, false) /\ map_index (table_after anti3_sctx [OFill 2; OUpdateMap 2]) 9 = Some (7, true).
Proof.
  split; [exact anti3_lawful|]. split; [apply anti3_in; vm_compute; reflexivity|]. split; [apply anti3_in; vm_compute; reflexivity|].
  split; [exact anti3_expectation|]. split; [vm_compute; reflexivity|]. split; [vm_compute; reflexivity|]. split; [apply anti3_osg_ok; vm_compute; reflexivity|].
  split; [vm_compute; reflexivity|]. split; vm_compute; reflexivity.
Qed.

(* ------------------------------------------------------------------------------------------------ C23 *)
(** After any session without exceptions, the basis numbering enumerates in order exactly the symbols with a real (imaginary)
    part, and all the index tables agree. *)
Theorem C23_numbering : forall c V t, lawful c V -> reachable_clean c V t -> numbered t.
Proof. exact clean_numbered. Qed.
Print Assumptions C23_numbering.

(** ... which makes it a bijection. *)
Theorem C23_bijection : forall t, numbered t -> (forall i s, nth_error (t_syms t) i = Some s -> sy_id s = i) ->
  (forall id s, nth_error (t_syms t) id = Some s ->
    (has_re s = true <-> exists k, sy_re s = Some k) /\ (has_im s = true <-> exists k, sy_im s = Some k)) /\
  NoDup (t_real t) /\ NoDup (t_imag t).
Proof. exact numbered_bijection. Qed.
Print Assumptions C23_bijection.

(** Without Hermiticity updates basis indices never change. *)
Theorem C23_stable : forall c l t t', Forall (fun o => match o with OBits _ _ => False | _ => True end) l -> run_ops c t l = Done t' tt ->
  (forall id s, nth_error (t_syms t) id = Some s -> nth_error (t_syms t') id = Some s) /\
  (forall k id, nth_error (t_real t) k = Some id -> nth_error (t_real t') k = Some id) /\
  (forall k id, nth_error (t_imag t) k = Some id -> nth_error (t_imag t') k = Some id).
Proof. exact basis_stable. Qed.
Print Assumptions C23_stable.

(** A Hermiticity update that returns has made Hermitian exactly the symbols that cannot be imaginary (besides those that were),
    anti-Hermitian those that cannot be real, has created the symbols that were missing, and reports whether it changed any. *)
Theorem C23_update : forall c V, lawful c V -> forall t re im t' b, reachable c V t -> merge_bits t re im = Done t' b ->
  length (t_syms t') = Nat.max (length (t_syms t)) (length re) /\
  (forall id, S id < length (t_syms t') -> exists r i, nth_error re (S id) = Some r /\ nth_error im (S id) = Some i /\ r || i = true /\
     flags_at t' (S id) = (fst (flags_at t (S id)) || negb i, snd (flags_at t (S id)) || negb r)) /\
  (b = true <-> exists id, flags_at t' (S id) <> flags_at t (S id)).
Proof. exact update_flags. Qed.
Print Assumptions C23_update.

(** A Hermiticity update that throws half way leaves the numbering wrong. *)
Theorem C23_after_exception_refuted : exists c V t, lawful c V /\ reachable c V t /\ ~ numbered t.
Proof. exact exception_numbering_refuted. Qed.
Print Assumptions C23_after_exception_refuted.

(** Bit sets shorter than the table are read beyond their end. *)
Theorem C23_short_bitset_refuted : exists c V t re im, lawful c V /\ reachable c V t /\ length re = length im /\ merge_bits t re im = Undef.
Proof. exact short_bits_refuted. Qed.
Print Assumptions C23_short_bitset_refuted.

Example C23_nonvacuous :
  let t := table_after anti3_sctx [ORegister xyz; OCreate 2 true true; ORegister (hseq_make 3 [0;1] SPos); OBits [true;true;true;true;true;false] [true;false;true;false;true;true]] in
  reachable_clean anti3_sctx anti3_words t /\ t_real t = [1;2;3;4] /\ t_imag t = [2;4;5] /\ t_im_of_re t = [None; Some 0; None; Some 1].
Proof.
  split; [|vm_compute; auto].
  exists [ORegister xyz; OCreate 2 true true; ORegister (hseq_make 3 [0;1] SPos); OBits [true;true;true;true;true;false] [true;false;true;false;true;true]].
  split; [|vm_compute; reflexivity].
  constructor; [apply anti3_in; vm_compute; reflexivity|]. constructor; [exact I|]. constructor; [apply anti3_in; vm_compute; reflexivity|].
  constructor; [exact I|]. constructor.
Qed.

(* ------------------------------------------------------------------------------------------------ C24 *)
(** The flags are right in every session that (i) makes no later Hermiticity updates, (ii) merges directly only symbols built
    from word and conjugate, or from a self-conjugate word with a real phase, (iii) bulk fills only word lengths whose
    dictionary has no word that is its own conjugate up to a nontrivial phase. *)
Theorem C24_flags : forall c V, lawful c V -> forall l t, Forall (op_ok c V) l -> Forall (flags_ok c) l -> run_all c table_start l = Some t -> flagged c t.
Proof. exact session_flagged. Qed.
Print Assumptions C24_flags.

(** What the flags mean for values. *)
Theorem C24_flags_mean : forall c V, lawful c V -> forall (R : rfield) (E : hseq -> cx R) t id s w, reachable c V t -> expectation c V R E -> flagged c t ->
  nth_error (t_syms t) (S id) = Some s -> sy_seq s = Some w ->
  (sy_herm s = true -> cim (E (pos w)) = r0 R) /\ (sy_anti s = true -> cre (E (pos w)) = r0 R).
Proof. exact flags_mean. Qed.
Print Assumptions C24_flags_mean.

(** (iii) is needed: bulk fill flags as Hermitian a word that is minus its conjugate. *)
Theorem C24_fill_refuted : exists c V l t id s w, lawful c V /\ Forall (op_ok c V) l /\ l = [OFill 2] /\ run_all c table_start l = Some t /\
  nth_error (t_syms t) (S id) = Some s /\ sy_seq s = Some w /\ sy_herm s = true /\ cx_conj c (pos w) = neg (pos w).
Proof. exact fill_flags_refuted. Qed.
Print Assumptions C24_fill_refuted.

(** (ii) is needed: registering i X Y, which is Hermitian, as a symbol flags the word X Y (anti-Hermitian) as Hermitian. *)
Theorem C24_phase_refuted : exists c V q t s, lawful c V /\ op_ok c V (OMerge [symbol_one q]) /\ cx_conj c q = q /\ run_all c table_start [OMerge [symbol_one q]] = Some t /\
  nth_error (t_syms t) 2 = Some s /\ sy_herm s = true /\ cx_conj c (pos q) = neg (pos q).
Proof. exact phase_flags_refuted. Qed.
Print Assumptions C24_phase_refuted.

Example C24_nonvacuous :
  let l := [ORegister (hseq_make 3 [0;1] SIm); OFill 1; ORegister xyz; OMerge [symbol_one (hseq_make 3 [0;2;0] SNeg)]] in
  Forall (op_ok anti3_sctx anti3_words) l /\ Forall (flags_ok anti3_sctx) l /\
  map (fun s => (sy_herm s, sy_anti s)) (t_syms (table_after anti3_sctx l)) =
    [(true, true); (true, false); (false, true); (true, false); (true, false); (true, false); (false, false); (true, false)].
Proof.
  split; [|split; [|vm_compute; reflexivity]].
  - constructor; [apply anti3_in; vm_compute; reflexivity|]. constructor; [apply anti3_osg_ok; vm_compute; reflexivity|].
    constructor; [apply anti3_in; vm_compute; reflexivity|]. constructor; [|constructor]. constructor; [|constructor].
    apply so_one; [apply anti3_in; vm_compute; reflexivity|vm_compute; reflexivity].
  - constructor; [exact I|]. constructor.
    + intros q H. vm_compute in H. destruct H as [<-|[<-|[<-|[<-|[]]]]]; intros _; vm_compute; reflexivity.
    + constructor; [exact I|]. constructor; [|constructor]. intros s [<-|[]]. right. left. eexists. split; [reflexivity|].
      split; [vm_compute; reflexivity|right; reflexivity].
Qed.
