(** Dictionaries of algebraic and locality contexts; conjugate dictionaries. *)
From Coq Require Import List NArith Arith Bool Lia Sorted.
From Verif Require Import CoreModel CoreSpec CoreProofs AlgModel AlgSpec AlgContextProofs AlgWitnessProofs LocModel LocSpec LocNumberProofs LocProofs EnumModel EnumSpec DictModel DictSpec DictProofs DictLocProofs.
Import ListNotations.

Lemma alg_canon_ok L ctx : context_ok L ctx -> no_empty_lhs ctx ->
  canon_ok (pc_num (rb_pc (ac_rules ctx))) (fun w => Ret (get_if_canonical ctx w)) (irreducible (rb_rules (ac_rules ctx))) L.
Proof.
  intros C NE w O E. destruct (get_if_canonical_spec L ctx w C O ltac:(lia) NE) as [A B].
  pose proof (can_reduce_spec _ L _ w (context_rb_ok L ctx C) O ltac:(lia) NE) as S.
  destruct (can_reduce (ac_rules ctx) w).
  - right. assert (N : ~ irreducible (rb_rules (ac_rules ctx)) w) by (intro Q; apply S in Q; discriminate). split; [exact N|]. now rewrite B.
  - left. assert (I : irreducible (rb_rules (ac_rules ctx)) w) by now apply S. split; [exact I|]. now rewrite A.
Qed.
Lemma irreducible_nil m : irreducible m [].
Proof. intros k rl _ NE (p & q & E). symmetry in E. apply app_eq_nil in E as [_ E]. apply app_eq_nil in E as [E _]. contradiction. Qed.
Lemma alg_dictionary fuel L ctx : context_ok L ctx -> no_empty_lhs ctx -> pc_num (rb_pc (ac_rules ctx)) ^ L <= fuel ->
  exists d, build_generic fuel (pc_num (rb_pc (ac_rules ctx))) (fun w => Ret (get_if_canonical ctx w)) L = Ret d /\
    is_dictionary (pc_num (rb_pc (ac_rules ctx))) shortlex_lt (fun w => over (pc_num (rb_pc (ac_rules ctx))) w /\ irreducible (rb_rules (ac_rules ctx)) w) L d /\
    StronglySorted (fun a b => (hs_hash a < hs_hash b)%N) d.
Proof.
  intros C NE Hf. destruct (generic_dictionary fuel _ _ _ L (alg_canon_ok L ctx C NE) (irreducible_nil _) Hf) as (d & E & D).
  exists d. split; [exact E|]. split; [exact D|]. eapply hash_sorted; [|exact D|auto]. apply C.
Qed.
Lemma alg_dictionary_prefix fuel L M ctx : L <= M -> context_ok M ctx -> no_empty_lhs ctx -> pc_num (rb_pc (ac_rules ctx)) ^ M <= fuel ->
  exists d e, build_generic fuel (pc_num (rb_pc (ac_rules ctx))) (fun w => Ret (get_if_canonical ctx w)) L = Ret d /\
    build_generic fuel (pc_num (rb_pc (ac_rules ctx))) (fun w => Ret (get_if_canonical ctx w)) M = Ret (d ++ e) /\ (forall q, In q e -> L < length (hs_ops q)).
Proof. intros H C NE Hf. eapply generic_prefix; [exact H|apply (alg_canon_ok M ctx C NE)|exact Hf]. Qed.
Lemma loc_canon_ok L sc : loc_safe sc L -> canon_ok (total_opers sc) (loc_get_if_canonical sc) (loc_canonical sc) L.
Proof.
  intros S w O E. destruct (loc_get_if_canonical_spec sc L w S ltac:(lia) O) as (x & R & A & B). destruct x as [q|].
  - left. destruct (A q eq_refl) as [C ->]. split; [exact C|exact R].
  - right. split; [now apply B|exact R].
Qed.
Lemma loc_generic fuel L sc : loc_safe sc L -> total_opers sc ^ L <= fuel ->
  exists d, build_generic fuel (total_opers sc) (loc_get_if_canonical sc) L = Ret d /\
    is_dictionary (total_opers sc) shortlex_lt (fun w => over (total_opers sc) w /\ loc_canonical sc w) L d.
Proof. intros S Hf. apply (generic_dictionary fuel _ _ _ L (loc_canon_ok L sc S) (canonical_nil sc) Hf). Qed.
(** the conjugate list *)
Lemma osg_conjugate_spec conj l : forall n r, osg_conjugate conj l n = Ret r ->
  Forall2 (fun q c => conj q = Ret c) l (fst r) /\ snd r = fold_left (fun a c => Nat.max a (length (hs_ops c))) (fst r) n.
Proof.
  induction l as [|q l IH]; intros n x E; cbn [osg_conjugate] in E.
  - injection E as <-. split; [constructor|reflexivity].
  - destruct (conj q) as [c| |] eqn:C; [|discriminate|discriminate]. cbn [bind] in E.
    destruct (osg_conjugate conj l _) as [y| |] eqn:R; [|discriminate|discriminate]. cbn [bind] in E. injection E as <-.
    apply IH in R as [A B]. cbn [fst snd]. split; [constructor; assumption|]. cbv zeta in B. rewrite B. cbn [fold_left]. replace (if Nat.ltb n (length (hs_ops c)) then length (hs_ops c) else n) with (Nat.max n (length (hs_ops c))); [reflexivity|].
    destruct (Nat.ltb_spec n (length (hs_ops c))); lia.
Qed.
Lemma osg_conjugate_total conj l : (forall q, In q l -> exists c, conj q = Ret c) -> forall n, exists x, osg_conjugate conj l n = Ret x.
Proof.
  induction l as [|q l IH]; intros H n; [eexists; reflexivity|]. destruct (H q (or_introl eq_refl)) as [c C]. cbn. rewrite C. cbn.
  edestruct IH as [y Y]; [intros; apply H; now right|]. rewrite Y. cbn. eexists; reflexivity.
Qed.
Lemma dictionary_wf sc L d : is_dictionary (total_opers sc) (loc_before sc) (loc_canonical sc) L d -> forall q, In q d -> loc_wf sc L q.
Proof.
  intros (ws & -> & _ & M) q H. apply in_map_iff in H as (w & <- & H). apply M in H as [C Lw]. right. cbn. auto.
Qed.
Lemma locality_conjugate sc L d : loc_safe sc L -> is_dictionary (total_opers sc) (loc_before sc) (loc_canonical sc) L d ->
  exists c n, osg_conjugate (loc_conjugate sc) d 0 = Ret (c, n) /\ Forall2 (fun q c => loc_conjugate sc q = Ret c) d c.
Proof.
  intros S D. destruct (osg_conjugate_total (loc_conjugate sc) d) with (n := 0) as [[c n] E].
  - intros q Hq. pose proof (dictionary_wf sc L d D q Hq) as W. pose proof (loc_conjugate_involutive sc L q S W) as I.
    destruct (loc_conjugate sc q) as [x| |]; [now exists x|discriminate|discriminate].
  - exists c, n. split; [exact E|]. apply osg_conjugate_spec in E. apply E.
Qed.
(** every product of operators is zero or (up to sign) in the dictionary *)
Lemma locality_covers sc L d (w : word) s q : is_dictionary (total_opers sc) (loc_before sc) (loc_canonical sc) L d ->
  length w <= L -> loc_sequence sc w s = Ret q -> q = hseq_const true \/ In (mk_hseq (hs_hash q) (hs_ops q) SPos) d.
Proof.
  intros (ws & -> & _ & M) Lw E. apply loc_sequence_inv in E as [O ->].
  pose proof (fun u => nf_canonical sc w u O) as N. destruct (LocSortProofs.gnf (party_of_op sc) (loc_exclusive sc) (Some w)) as [u|]; [|left; reflexivity].
  right. unfold mkseq, hseq_make. cbn [hs_hash hs_ops]. apply in_map_iff. exists u. split; [reflexivity|]. apply M.
  destruct (N u eq_refl) as [C Lu]. split; [exact C|lia].
Qed.
Lemma lex_irrefl u : ~ lex_lt u u.
Proof. induction u as [|x u IH]; intro H; inversion H; subst; [lia|now apply IH]. Qed.
Lemma lex_trans u v w : lex_lt u v -> lex_lt v w -> lex_lt u w.
Proof. intro H. revert w. induction H; intros w H2; inversion H2; subst; try (apply lex_head; lia); [apply lex_tail; now apply IHlex_lt]. Qed.
Lemma before_irrefl sc u : ~ loc_before sc u u.
Proof. intros [H|[_ [H|[_ H]]]]; [lia|now apply lex_irrefl in H|now apply lex_irrefl in H]. Qed.
Lemma before_trans sc u v w : loc_before sc u v -> loc_before sc v w -> loc_before sc u w.
Proof.
  intros [A|[A [B|[B C]]]] [D|[D [E|[E F]]]]; try (left; lia); right; (split; [lia|]).
  - left. eapply lex_trans; eassumption.
  - left. rewrite E in B. exact B.
  - left. rewrite <- B in E. exact E.
  - right. split; [congruence|eapply lex_trans; eassumption].
Qed.
Lemma locality_dictionary_unique sc L d e : is_dictionary (total_opers sc) (loc_before sc) (loc_canonical sc) L d ->
  is_dictionary (total_opers sc) (loc_before sc) (loc_canonical sc) L e -> d = e.
Proof. apply dictionary_unique; [apply before_irrefl|apply before_trans]. Qed.
Lemma locality_first sc L d : is_dictionary (total_opers sc) (loc_before sc) (loc_canonical sc) L d -> nth_error d 0 = Some (hseq_const false).
Proof.
  intros (ws & -> & S & M). assert (I : In [] ws) by (apply M; split; [apply canonical_nil|cbn; lia]).
  destruct S as [|w ws S F]; [destruct I|]. destruct I as [->|I]; [reflexivity|]. rewrite Forall_forall in F. specialize (F [] I).
  exfalso. destruct F as [F|[F [G|[_ G]]]]; [cbn in F; lia| |].
  - apply length_zero_iff_nil in F. subst w. now apply lex_irrefl in G.
  - inversion G.
Qed.
Lemma generic_first r (P : word -> Prop) L d : P [] -> is_dictionary r shortlex_lt P L d -> nth_error d 0 = Some (hseq_const false).
Proof.
  intros P0 (ws & -> & S & M). assert (I : In [] ws) by (apply M; split; [exact P0|cbn; lia]).
  destruct S as [|w ws S F]; [destruct I|]. destruct I as [->|I]; [reflexivity|]. rewrite Forall_forall in F. specialize (F [] I).
  exfalso. destruct F as [F|[F G]]; [cbn in F; lia|]. inversion G.
Qed.
Lemma alg_first ctx L d : is_dictionary (pc_num (rb_pc (ac_rules ctx))) shortlex_lt
   (fun w => over (pc_num (rb_pc (ac_rules ctx))) w /\ irreducible (rb_rules (ac_rules ctx)) w) L d -> nth_error d 0 = Some (hseq_const false).
Proof. apply generic_first. split; [intros o []|apply irreducible_nil]. Qed.
Fixpoint sorted_b (l : list N) : bool := match l with a :: (b :: _) as l' => N.ltb a b && sorted_b l' | _ => true end.
Lemma sorted_b_ok d : StronglySorted (fun a b => (hs_hash a < hs_hash b)%N) d -> sorted_b (map hs_hash d) = true.
Proof.
  induction 1 as [|a l S IH F]; [reflexivity|]. destruct l as [|b l]; [reflexivity|]. cbn [map sorted_b] in *.
  inversion F as [|? ? H]; subst. apply N.ltb_lt in H. rewrite H. exact IH.
Qed.
Lemma locality_order_refuted : exists sc L d, eventually (fun fuel => locality_osg fuel sc L) d /\ loc_safe sc L /\
  ~ StronglySorted (fun a b => (hs_hash a < hs_hash b)%N) d.
Proof.
  exists [[2;2];[2;2]], 2, (map (entry (total_opers [[2;2];[2;2]])) (loc_words [[2;2];[2;2]] 2)). split; [apply locality_osg_ev|]. split; [reflexivity|].
  intro S. apply sorted_b_ok in S. vm_compute in S. discriminate.
Qed.
