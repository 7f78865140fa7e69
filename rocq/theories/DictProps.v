(** C16, C17, C44: dictionaries of operator words and the cache of dictionary levels. *)
From Coq Require Import List NArith Arith Bool Lia Sorted.
From Verif Require Import CoreModel CoreSpec AlgModel AlgSpec AlgWitnessProofs LocModel LocSpec EnumModel EnumSpec DictModel DictSpec
  DictProofs DictLocProofs DictInstProofs CacheModel CacheProofs.
Import ListNotations.

(* ------------------------------------------------------------------------------------------------ C16 *)
(** Any context: if the canonical test answers [P] on words over the operators, the dictionary of level [L] lists exactly
    the words of length at most [L] with [P], each once, in shortlex order. *)
Theorem C16_generic : forall fuel num canon (P : word -> Prop) L, canon_ok num canon P L -> P [] -> num ^ L <= fuel ->
  exists d, build_generic fuel num canon L = Ret d /\ is_dictionary num shortlex_lt (fun w => over num w /\ P w) L d.
Proof. exact generic_dictionary. Qed.
Print Assumptions C16_generic.

(** Algebraic contexts: exactly the irreducible words; the hashes increase along the list. *)
Theorem C16_algebraic : forall fuel L ctx, context_ok L ctx -> no_empty_lhs ctx -> pc_num (rb_pc (ac_rules ctx)) ^ L <= fuel ->
  exists d, build_generic fuel (pc_num (rb_pc (ac_rules ctx))) (fun w => Ret (get_if_canonical ctx w)) L = Ret d /\
    is_dictionary (pc_num (rb_pc (ac_rules ctx))) shortlex_lt (fun w => over (pc_num (rb_pc (ac_rules ctx))) w /\ irreducible (rb_rules (ac_rules ctx)) w) L d /\
    StronglySorted (fun a b => (hs_hash a < hs_hash b)%N) d.
Proof. exact alg_dictionary. Qed.
Print Assumptions C16_algebraic.

(** The generic construction in a locality scenario. *)
Theorem C16_locality_generic : forall fuel L sc, loc_safe sc L -> total_opers sc ^ L <= fuel ->
  exists d, build_generic fuel (total_opers sc) (loc_get_if_canonical sc) L = Ret d /\
    is_dictionary (total_opers sc) shortlex_lt (fun w => over (total_opers sc) w /\ loc_canonical sc w) L d.
Proof. exact loc_generic. Qed.
Print Assumptions C16_locality_generic.

Theorem C16_identity_first : forall r (P : word -> Prop) L d, P [] -> is_dictionary r shortlex_lt P L d -> nth_error d 0 = Some (hseq_const false).
Proof. exact generic_first. Qed.
Print Assumptions C16_identity_first.

(** A lower level is an initial segment of a higher one; what follows is longer. *)
Theorem C16_levels_nest : forall fuel L M ctx, L <= M -> context_ok M ctx -> no_empty_lhs ctx -> pc_num (rb_pc (ac_rules ctx)) ^ M <= fuel ->
  exists d e, build_generic fuel (pc_num (rb_pc (ac_rules ctx))) (fun w => Ret (get_if_canonical ctx w)) L = Ret d /\
    build_generic fuel (pc_num (rb_pc (ac_rules ctx))) (fun w => Ret (get_if_canonical ctx w)) M = Ret (d ++ e) /\ (forall q, In q e -> L < length (hs_ops q)).
Proof. exact alg_dictionary_prefix. Qed.
Print Assumptions C16_levels_nest.

(** The conjugate dictionary holds the conjugates, in the same order, and records the longest length (at least [n]). *)
Theorem C16_conjugate : forall conj l n r, osg_conjugate conj l n = Ret r ->
  Forall2 (fun q c => conj q = Ret c) l (fst r) /\ snd r = fold_left (fun a c => Nat.max a (length (hs_ops c))) (fst r) n.
Proof. exact osg_conjugate_spec. Qed.
Print Assumptions C16_conjugate.

(** The description determines the list. *)
Theorem C16_description_unique : forall sc L d e, is_dictionary (total_opers sc) (loc_before sc) (loc_canonical sc) L d ->
  is_dictionary (total_opers sc) (loc_before sc) (loc_canonical sc) L e -> d = e.
Proof. exact locality_dictionary_unique. Qed.
Print Assumptions C16_description_unique.

Example C16_nonvacuous : context_ok 8 (mk_actx false projectors) /\ no_empty_lhs (mk_actx false projectors) /\
  option_map (map hs_ops) (match build_generic 16 2 (fun w => Ret (get_if_canonical (mk_actx false projectors) w)) 3 with Ret d => Some d | _ => None end)
  = Some [[]; [0]; [1]; [0;1]; [1;0]].
Proof. split; [exact projectors_ok|]. split; [exact (proj1 (interreducedb_ok (rb_rules projectors) eq_refl))|reflexivity]. Qed.

(* ------------------------------------------------------------------------------------------------ C17 *)
(** For every scenario and level the fast dictionary exists and lists exactly the canonical words of length at most [L],
    each once, ordered by length, then by how the length is shared out among the parties, then alphabetically. *)
Theorem C17_dictionary : forall sc L, exists d, eventually (fun fuel => locality_osg fuel sc L) d /\
  is_dictionary (total_opers sc) (loc_before sc) (loc_canonical sc) L d.
Proof. exact locality_dictionary. Qed.
Print Assumptions C17_dictionary.

Theorem C17_identity_first : forall sc L d, is_dictionary (total_opers sc) (loc_before sc) (loc_canonical sc) L d -> nth_error d 0 = Some (hseq_const false).
Proof. exact locality_first. Qed.
Print Assumptions C17_identity_first.

Theorem C17_levels_nest : forall sc L M, L <= M -> exists d e, eventually (fun fuel => locality_osg fuel sc L) d /\
  eventually (fun fuel => locality_osg fuel sc M) (d ++ e) /\ (forall q, In q e -> L < length (hs_ops q)).
Proof. exact locality_prefix. Qed.
Print Assumptions C17_levels_nest.

(** Every product of at most [L] operators is zero or, up to its phase, in the dictionary. *)
Theorem C17_covers_products : forall sc L d w s q, is_dictionary (total_opers sc) (loc_before sc) (loc_canonical sc) L d ->
  length w <= L -> loc_sequence sc w s = Ret q -> q = hseq_const true \/ In (mk_hseq (hs_hash q) (hs_ops q) SPos) d.
Proof. exact locality_covers. Qed.
Print Assumptions C17_covers_products.

Theorem C17_conjugate : forall sc L d, loc_safe sc L -> is_dictionary (total_opers sc) (loc_before sc) (loc_canonical sc) L d ->
  exists c n, osg_conjugate (loc_conjugate sc) d 0 = Ret (c, n) /\ Forall2 (fun q c => loc_conjugate sc q = Ret c) d c.
Proof. exact locality_conjugate. Qed.
Print Assumptions C17_conjugate.

(** The list is not in order of hash, unlike the generic one. *)
Theorem C17_hash_order_refuted : exists sc L d, eventually (fun fuel => locality_osg fuel sc L) d /\ loc_safe sc L /\
  ~ StronglySorted (fun a b => (hs_hash a < hs_hash b)%N) d.
Proof. exact locality_order_refuted. Qed.
Print Assumptions C17_hash_order_refuted.

Example C17_nonvacuous :
  option_map (map hs_ops) (match locality_osg 50 [[2;2];[2;2]] 2 with Ret d => Some d | _ => None end)
  = Some [[]; [0];[1];[2];[3]; [0;1];[1;0];[0;2];[0;3];[1;2];[1;3];[2;3];[3;2]] /\
  option_map (map hs_ops) (match locality_osg 50 [[3];[];[2]] 3 with Ret d => Some d | _ => None end)
  = Some [[]; [0];[1];[2]; [0;2];[1;2]].
Proof. split; reflexivity. Qed.

(* ------------------------------------------------------------------------------------------------ C44 *)
(** Whatever the threads and their interleaving, a call that returns gives the list made for the level it asked for. *)
Theorem C44_any_schedule : forall sched levels c' ts' i l o, run_schedule sched cache_start (map CRead levels) = (c', ts') ->
  nth_error ts' i = Some (CDone l o) -> nth_error levels i = Some l /\ nth_error (c_osgs c') o = Some l.
Proof. exact cache_result. Qed.
Print Assumptions C44_any_schedule.

(** If no two of the threads ask for the same level, no call goes wrong, under any interleaving. *)
Theorem C44_distinct_levels : forall sched levels c' ts' l, NoDup levels ->
  run_schedule sched cache_start (map CRead levels) = (c', ts') -> ~ In (CUndefined l) ts'.
Proof. exact cache_distinct. Qed.
Print Assumptions C44_distinct_levels.

(** One thread, any history of calls: every call returns its level's list. *)
Theorem C44_one_thread : forall ls c' ts, call_all cache_start ls = (c', ts) ->
  Forall2 (fun l t => exists o, t = CDone l o /\ nth_error (c_osgs c') o = Some l) ls ts.
Proof. exact cache_history. Qed.
Print Assumptions C44_one_thread.

(** Two threads asking for the same new level: one of them can dereference a past-the-end iterator. *)
Theorem C44_same_level_refuted : exists sched c' ts', run_schedule sched cache_start (map CRead [2; 2]) = (c', ts') /\ In (CUndefined 2) ts'.
Proof. exact cache_race. Qed.
Print Assumptions C44_same_level_refuted.

Example C44_nonvacuous : run_schedule [0;1;0;2;1;0;2;1;2] cache_start (map CRead [2;3;0]) =
    (mk_cache [0;2;3;0] [(2,1);(3,2);(0,3)], [CDone 2 1; CDone 3 2; CDone 0 3]) /\
  call_all cache_start [2;3;2;0;0] = (mk_cache [0;2;3;0] [(2,1);(3,2);(0,3)], [CDone 2 1; CDone 3 2; CDone 2 1; CDone 0 3; CDone 0 3]).
Proof. split; reflexivity. Qed.
