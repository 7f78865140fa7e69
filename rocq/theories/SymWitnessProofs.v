(** Witnesses and counterexamples for the symbol table. *)
From Coq Require Import List NArith ZArith Arith Bool Lia.
From Verif Require Import CoreModel CoreSpec CoreProofs AlgModel AlgSpec AlgProofs AlgTheoryProofs AlgCompleteProofs AlgConfluenceProofs AlgNormalProofs
  AlgContextProofs AlgFinalProofs AlgWitnessProofs PauliModel PauliSpec LocModel LocSpec LocSortProofs LocProofs EnumModel DictModel SymModel SymSpec SymInstModel SymProofs SymFinalProofs SymInstProofs FieldModel FieldProofs.
Import ListNotations.
(* ------------------------------------------------------------------ counterexamples *)
Fixpoint words_upto (r L : nat) : list word :=
  match L with O => [[]] | S L' => [] :: flat_map (fun w => map (fun x => x :: w) (seq 0 r)) (words_upto r L') end.
Lemma in_words r L : forall w : word, over r w -> length w <= L -> In w (words_upto r L).
Proof.
  induction L as [|L IH]; intros [|x w] O Len; cbn in *; try lia; auto. right. apply in_flat_map. exists w. split.
  - apply IH; [intros y Hy; apply O; now right|lia].
  - apply in_map_iff. exists x. split; [reflexivity|]. apply in_seq. pose proof (O x (or_introl eq_refl)). lia.
Qed.
Definition all_seqs (r L : nat) : list hseq :=
  hseq_const true :: flat_map (fun w => map (hseq_make (N.of_nat r) w) [SPos; SIm; SNeg; SNegIm]) (words_upto r L).
Lemma in_seqs L ctx q : canonical L ctx q -> In q (all_seqs (pc_num (rb_pc (ac_rules ctx))) L).
Proof.
  intros (W & _ & Z). destruct W as [[H _]|(W1 & W2 & W3)]; [left; symmetry; now apply Z|]. right. apply in_flat_map. exists (hs_ops q). split; [now apply in_words|].
  apply in_map_iff. exists (hs_sign q). split; [unfold hseq_make; rewrite <- W1; now destruct q|]. destruct (hs_sign q); cbn; auto.
Qed.
Definition canonicalb (ctx : acontext) (q : hseq) : bool :=
  hs_eqb q (hseq_const true) || (negb (N.eqb (hs_hash q) 0) && forallb (fun kr => negb (occursb (hs_ops (rl_lhs (snd kr))) (hs_ops q))) (rb_rules (ac_rules ctx))).
Lemma occurs_true u w : occurs u w -> occursb u w = true.
Proof.
  intros (p & q & ->). unfold occursb. apply existsb_exists. exists (length p). split; [apply in_seq; rewrite !app_length; lia|].
  rewrite skipn_app, skipn_all, Nat.sub_diag. cbn. clear p. induction u as [|x u IH]; cbn; [reflexivity|]. now rewrite Nat.eqb_refl.
Qed.
(** three self-adjoint operators X, Y, Z with Y X -> - X Y *)
Definition anti3 : acontext :=
  mk_actx false (recalculate (mk_rb (mk_pc 3 SelfAdjoint) [mk3 3 [1;0] (Some (SNeg, [0;1]))] 0)).
Lemma anti3_decidable : decidable_context 4 2 false anti3.
Proof. apply (decidable_by_test 4 2 false 20). vm_compute. reflexivity. Qed.
Lemma anti3_complete : is_complete 20 (ac_rules anti3) true = Ret true.
Proof. vm_compute. reflexivity. Qed.
Definition anti3_osg (L : nat) : list hseq := match build_generic 100 3 (fun w => Ret (get_if_canonical anti3 w)) L with Ret d => d | _ => [] end.
Definition anti3_sctx : sctx := alg_sctx 20 anti3 anti3_osg.
Definition anti3_words : hseq -> Prop := alg_words 4 false anti3.
Lemma anti3_lawful : lawful anti3_sctx anti3_words.
Proof.
  apply (alg_lawful_at 4 2 false anti3 20 anti3_osg anti3_decidable anti3_complete (or_introl eq_refl) 20).
  assert (K : forallb (fun q => match conjugate 20 anti3 q with Ret _ => true | _ => false end) (all_seqs 3 4) = true) by (vm_compute; reflexivity).
  intros q C. rewrite forallb_forall in K. specialize (K q (in_seqs 4 anti3 q C)). destruct (conjugate 20 anti3 q); [eauto|discriminate..].
Qed.
Lemma anti3_in q : wf_seqb 3 4 q = true -> canonicalb anti3 q = true -> anti3_words q.
Proof.
  intros W C. split; [|left; reflexivity]. unfold canonicalb in C. apply orb_true_iff in C as [C|C].
  - unfold hs_eqb in C. cbn in C. destruct (N.eqb_spec (hs_hash q) 0) as [Z|]; [|discriminate]. apply wf_seqb_ok in W. split; [exact W|].
    destruct W as [[_ E]|(W1 & W2 & W3)]; [|exfalso; apply (hash_nonzero 3 4 (hs_ops q)); [vm_compute; reflexivity|assumption|assumption|congruence]].
    split; [rewrite E; apply irreducible_nil|]. intros _. destruct q as [h o s]. cbn in *. subst. destruct s; try discriminate. reflexivity.
  - apply andb_true_iff in C as [Z C]. apply wf_seqb_ok in W. split; [exact W|]. split.
    + intros k rl Hin _ Oc. rewrite forallb_forall in C. specialize (C _ Hin). cbn [snd] in C. rewrite (occurs_true _ _ Oc) in C. discriminate.
    + intro H. rewrite H in Z. discriminate.
Qed.
(** an expectation: E(X Y Z) = 1, so E(Z X Y) = - E(conjugate of X Y Z) = -1 *)
Definition anti3_value (w : word) : cx Qc_rfield :=
  if list_eq_dec Nat.eq_dec w [0;1;2] then c1 else if list_eq_dec Nat.eq_dec w [2;0;1] then copp c1 else c0.
Definition anti3_E (q : hseq) : cx Qc_rfield := cmul (sphase Qc_rfield (hs_sign q)) (anti3_value (hs_ops q)).
Lemma anti3_expectation : expectation anti3_sctx anti3_words Qc_rfield anti3_E.
Proof.
  split.
  - assert (K : forallb (fun q => implb (canonicalb anti3 q) (ceqb (anti3_E (cx_conj anti3_sctx q)) (cconj (anti3_E q)))) (all_seqs 3 4) = true) by (vm_compute; reflexivity).
    intros q [C _]. rewrite forallb_forall in K. specialize (K q (in_seqs 4 anti3 q C)).
    assert (X : canonicalb anti3 q = true).
    { unfold canonicalb. destruct C as (W & I & Z). destruct (N.eqb_spec (hs_hash q) 0) as [H|H]; [rewrite (Z H); reflexivity|].
      apply orb_true_iff. right. cbn [negb andb]. apply forallb_forall. intros [k rl] Hin. cbn [snd]. destruct (occursb (hs_ops (rl_lhs rl)) (hs_ops q)) eqn:Oc; [|reflexivity]. exfalso.
      destruct Hin as [Hin|[]]. apply (I k rl); [left; exact Hin| |].
      - injection Hin as <- <-. discriminate.
      - unfold occursb in Oc. apply existsb_exists in Oc as (i & _ & P). clear - P. exists (firstn i (hs_ops q)).
        assert (G : forall u w, is_prefix u w = true -> exists v, w = u ++ v).
        { induction u as [|x u IH]; intros w H; [now exists w|]. destruct w as [|y w]; [discriminate|]. cbn in H. apply andb_true_iff in H as [H1 H2]. apply Nat.eqb_eq in H1 as ->.
          destruct (IH w H2) as [v ->]. now exists v. }
        destruct (G _ _ P) as [v E]. exists v. rewrite <- E. symmetry. apply firstn_skipn. }
    rewrite X in K. cbn [implb] in K. now apply ceqb_spec in K.
  - intros q _. unfold anti3_E. cbn. pose proof (cx_ring Qc_rfield) as CR. rewrite (Rmul_1_l CR). reflexivity.
  - vm_compute. reflexivity.
  - discriminate.
Qed.
Definition xyz : hseq := hseq_make 3 [0;1;2] SPos.
Definition zxy : hseq := hseq_make 3 [2;0;1] SPos.
Definition table_after (c : sctx) (l : list op) : table := match run_all c table_start l with Some t => t | None => table_start end.
Lemma signed_conjugate_refuted : exists c V (R : rfield) (E : hseq -> cx R) t q id cj, lawful c V /\ expectation c V R E /\ reachable c V t /\ V q /\
  hash_to_index t (hs_hash q) = Some (id, cj) /\ symbol_value E t id cj <> Some (E (pos q)).
Proof.
  exists anti3_sctx, anti3_words, Qc_rfield, anti3_E, (table_after anti3_sctx [ORegister xyz]), zxy, 2, true.
  split; [exact anti3_lawful|]. split; [exact anti3_expectation|]. split; [|split; [apply anti3_in; vm_compute; reflexivity|split; [vm_compute; reflexivity|]]].
  - exists [ORegister xyz]. split; [|vm_compute; reflexivity]. constructor; [|constructor]. apply anti3_in; vm_compute; reflexivity.
  - intro H. assert (X : ceqb (match symbol_value anti3_E (table_after anti3_sctx [ORegister xyz]) 2 true with Some v => v | None => c0 end) (anti3_E (pos zxy)) = false) by (vm_compute; reflexivity).
    rewrite H in X. rewrite ceqb_refl in X. discriminate.
Qed.
Definition seqs_in (L : nat) : bool := forallb (fun q => wf_seqb 3 4 q && canonicalb anti3 q && sign_eqb (hs_sign q) SPos) (anti3_osg L).
Lemma anti3_osg_ok L : seqs_in L = true -> osg_ok anti3_sctx anti3_words L.
Proof.
  intros K q H. unfold seqs_in in K. rewrite forallb_forall in K. specialize (K q H). apply andb_true_iff in K as [K K3]. apply andb_true_iff in K as [K1 K2].
  split; [now apply anti3_in|now destruct (hs_sign q)].
Qed.
(** bulk fill to length 2 flags X Y Hermitian, although its conjugate is minus itself *)
Lemma fill_flags_refuted : exists c V l t id s w, lawful c V /\ Forall (op_ok c V) l /\ l = [OFill 2] /\ run_all c table_start l = Some t /\
  nth_error (t_syms t) (S id) = Some s /\ sy_seq s = Some w /\ sy_herm s = true /\ cx_conj c (pos w) = neg (pos w).
Proof.
  exists anti3_sctx, anti3_words, [OFill 2], (table_after anti3_sctx [OFill 2]), 5.
  do 2 eexists. split; [exact anti3_lawful|]. split; [constructor; [apply anti3_osg_ok; vm_compute; reflexivity|constructor]|].
  split; [reflexivity|]. split; [vm_compute; reflexivity|]. split; [vm_compute; reflexivity|]. split; [vm_compute; reflexivity|]. split; vm_compute; reflexivity.
Qed.
(** registering i X Y (which is Hermitian) as one symbol flags the word X Y Hermitian *)
Lemma phase_flags_refuted : exists c V q t s, lawful c V /\ op_ok c V (OMerge [symbol_one q]) /\ cx_conj c q = q /\ run_all c table_start [OMerge [symbol_one q]] = Some t /\
  nth_error (t_syms t) 2 = Some s /\ sy_herm s = true /\ cx_conj c (pos q) = neg (pos q).
Proof.
  exists anti3_sctx, anti3_words, (hseq_make 3 [0;1] SIm), (table_after anti3_sctx [OMerge [symbol_one (hseq_make 3 [0;1] SIm)]]).
  eexists. split; [exact anti3_lawful|]. split; [|split; [vm_compute; reflexivity|split; [vm_compute; reflexivity|split; [vm_compute; reflexivity|split; vm_compute; reflexivity]]]].
  constructor; [|constructor]. apply so_one; [apply anti3_in; vm_compute; reflexivity|vm_compute; reflexivity].
Qed.
(** a Hermiticity update that throws leaves the bases out of date *)
Lemma exception_numbering_refuted : exists c V t, lawful c V /\ reachable c V t /\ ~ numbered t.
Proof.
  exists anti3_sctx, anti3_words, (table_after anti3_sctx [OCreate 2 true true; OBits [true;true;true;false] [false;false;false;false]]).
  split; [exact anti3_lawful|]. split.
  - exists [OCreate 2 true true; OBits [true;true;true;false] [false;false;false;false]]. split; [repeat constructor|vm_compute; reflexivity].
  - intro H. pose proof (nb_imag _ H) as X. vm_compute in X. discriminate.
Qed.
(** bit sets shorter than the table are read beyond their end *)
Lemma short_bits_refuted : exists c V t re im, lawful c V /\ reachable c V t /\ length re = length im /\ merge_bits t re im = Undef.
Proof.
  exists anti3_sctx, anti3_words, (table_after anti3_sctx [OCreate 1 true true]), [true;true], [false;false].
  split; [exact anti3_lawful|]. split; [|split; vm_compute; reflexivity].
  exists [OCreate 1 true true]. split; [repeat constructor|vm_compute; reflexivity].
Qed.
