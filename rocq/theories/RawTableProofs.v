(** From polynomials of symbols to polynomials of operators and back. *)
From Coq Require Import List NArith ZArith Arith Bool Sorted Lia.
From Verif Require Import CoreModel CoreProofs FieldModel FieldProofs SymModel SymSpec SymProofs PolyModel PolySpec PolyProofs PolyTableProofs PolyFinalProofs RawModel RawSpec RawProofs.
Import ListNotations.

Section Table.
  Variables (c : sctx) (V : hseq -> Prop).
  Hypothesis LW : lawful c V.
  (** what symbols keep about their conjugates *)
  Definition keeps (s : symbol) : Prop := forall q, sy_seq s = Some q -> (sy_conj s = None /\ sy_herm s = true) \/ (hs_sign q = SPos /\ sy_conj s = Some (cx_conj c q)).
  Definition more (s s' : symbol) : Prop := sy_seq s' = sy_seq s /\ sy_conj s' = sy_conj s /\ (sy_herm s = true -> sy_herm s' = true).
  Lemma more_keeps s s' : more s s' -> keeps s -> keeps s'.
  Proof. intros (A & B & C) K q Q. rewrite A in Q. destruct (K q Q) as [[D E]|[D E]]; [left|right]; split; congruence || auto. Qed.
  Lemma more_refl s : more s s. Proof. split; auto. Qed.
  Lemma all_more l l' : Forall2 more l l' -> Forall keeps l -> Forall keeps l'.
  Proof. induction 1; intro F; constructor; inversion F; subst; auto. eapply more_keeps; eauto. Qed.
  Lemma more_all l : Forall2 more l l. Proof. induction l; constructor; auto using more_refl. Qed.
  Lemma ok_keeps s : symbol_ok c V s -> keeps s.
  Proof.
    intros [| |q Vq E|q Vq] w W; cbn in W; injection W as <-; try (left; split; reflexivity). right. split; [reflexivity|]. cbn [symbol_pair sy_conj]. f_equal. change (SymModel.set_sign q SPos) with (pos q).
    rewrite (lw_phase c V LW q Vq). unfold SymModel.set_sign. cbn [hs_sign hs_hash hs_ops]. destruct (cx_conj c (pos q)) as [h o sg]. cbn. f_equal. destruct (hs_sign q), sg; reflexivity.
  Qed.
  Lemma merge_keeps t s t' id : keeps s -> merge_symbol t s = Done t' id -> Forall keeps (t_syms t) -> Forall keeps (t_syms t').
  Proof.
    intros K E F. unfold merge_symbol in E. destruct (sy_hash s), (sy_hash_conj s); try discriminate. destruct (hfind _ _).
    - destruct (nth_error _ _); [|discriminate]. now injection E as <- _.
    - cbn [basis_push] in E. injection E as <- _. cbn [push_symbol t_syms set_hash]. apply Forall_app. split; [exact F|]. constructor; [|constructor]. eapply more_keeps; [|exact K]. split; auto.
  Qed.
  Lemma merges_keep l : forall t t' ids, Forall keeps l -> merge_symbols t l = Done t' ids -> Forall keeps (t_syms t) -> Forall keeps (t_syms t').
  Proof.
    induction l as [|s l IH]; intros t t' ids K E F; cbn in E; [now injection E as <- _|]. inversion K; subst. destruct (merge_symbol t s) as [t1 id| |] eqn:M; try discriminate.
    destruct (merge_symbols t1 l) as [t2 ids'| |] eqn:M2; try discriminate. injection E as <- _. eapply IH; eauto. eapply merge_keeps; eauto.
  Qed.
  Lemma create_keeps n : forall t r i, Forall keeps (t_syms t) -> Forall keeps (t_syms (create_loop n t r i)).
  Proof.
    induction n as [|n IH]; intros t r i F; [exact F|]. cbn [create_loop]. apply IH. unfold create. cbn [basis_push fst push_symbol t_syms]. apply Forall_app. split; [exact F|].
    constructor; [|constructor]. intros q Q. discriminate.
  Qed.
  Lemma flag_more re im todo : forall done ch l x u, flag_loop re im done todo ch = (l, x, u) -> exists todo', l = done ++ todo' /\ Forall2 more todo todo'.
  Proof.
    induction todo as [|s todo IH]; intros done ch l x u E; cbn in E.
    - injection E as <- _ _. exists []. split; [now rewrite app_nil_r|constructor].
    - assert (G : forall s' d, more s s' -> flag_loop re im (done ++ [s']) todo d = (l, x, u) -> exists todo', l = done ++ todo' /\ Forall2 more (s :: todo) todo').
      { intros s' d M H. destruct (IH _ _ _ _ _ H) as [todo' [-> F]]. exists (s' :: todo'). split; [now rewrite <- app_assoc|]. now constructor. }
      assert (G' : forall s', more s s' -> (done ++ s' :: todo, None (A := bool), false) = (l, x, u) \/ (done ++ s' :: todo, None (A := bool), true) = (l, x, u) -> exists todo', l = done ++ todo' /\ Forall2 more (s :: todo) todo').
      { intros s' M [H|H]; injection H as <- _ _; exists (s' :: todo); (split; [reflexivity|constructor; [exact M|apply more_all]]). }
      destruct (Nat.eqb (sy_id s) 0); [eapply G; [|exact E]; repeat split|]. destruct (nth_error re _) as [r|]; [|eapply G'; [apply more_refl|auto]]. destruct (nth_error im _) as [i|]; [|eapply G'; [apply more_refl|auto]].
      destruct r.
      + destruct i; [eapply G; [apply more_refl|exact E]|]. destruct (sy_anti s).
        * eapply (G' (mk_symbol (sy_id s) (sy_seq s) (sy_conj s) true true (sy_re s) (sy_im s))); [repeat split|left; exact E].
        * eapply (G (mk_symbol (sy_id s) (sy_seq s) (sy_conj s) true false (sy_re s) (sy_im s))); [repeat split|exact E].
      + destruct i; [|eapply G'; [apply more_refl|auto]]. destruct (sy_herm s) eqn:H.
        * eapply (G' (mk_symbol (sy_id s) (sy_seq s) (sy_conj s) true true (sy_re s) (sy_im s))); [repeat split|left; exact E].
        * eapply (G (mk_symbol (sy_id s) (sy_seq s) (sy_conj s) false true (sy_re s) (sy_im s))); [repeat split; congruence|exact E].
  Qed.
  Lemma renumber_more l : forall t done, exists l', t_syms (renumber_loop l t done) = done ++ l' /\ Forall2 more l l'.
  Proof.
    induction l as [|s l IH]; intros t done; cbn.
    - exists []. split; [now rewrite app_nil_r|constructor].
    - edestruct IH as (l' & E & S). rewrite E. eexists. split; [rewrite <- app_assoc; reflexivity|]. constructor; [repeat split; auto|exact S].
  Qed.
  Lemma bits_keep t re im t' : (merge_bits t re im = Throw t' \/ exists x, merge_bits t re im = Done t' x) -> Forall keeps (t_syms t) -> Forall keeps (t_syms t').
  Proof.
    intros E F. unfold merge_bits in E. cbv zeta in E. set (t1 := if Nat.ltb _ _ then _ else t) in *. assert (F1 : Forall keeps (t_syms t1)) by (subst t1; destruct (Nat.ltb _ _); [apply create_keeps|]; exact F).
    clearbody t1. destruct (flag_loop re im [] (t_syms t1) false) as [[l x] u] eqn:FL in E. destruct (flag_more _ _ _ _ _ _ _ _ FL) as (l' & L & S). cbn in L. subst l'.
    apply (all_more _ _ S) in F1. destruct u, x as [b|]; destruct E as [E|[y E]]; try discriminate; injection E as <-; cbn [set_syms t_syms].
    - unfold renumerate. destruct (renumber_more (t_syms (set_syms t1 l)) (mk_table (t_syms (set_syms t1 l)) (t_hash (set_syms t1 l)) [] [] [] [] (t_map (set_syms t1 l)) (t_map_len (set_syms t1 l))) []) as (l' & -> & S'). cbn [app]. apply (all_more _ _ S'). exact F1.
    - exact F1.
  Qed.
  Lemma op_keeps t o t' : hinv c V t -> op_ok c V o -> run_op c t o = Throw t' \/ run_op c t o = Done t' tt -> Forall keeps (t_syms t) -> Forall keeps (t_syms t').
  Proof.
    intros I O E F. destruct o as [q|l|n r i|re im|L|L]; cbn [run_op op_ok] in *.
    - destruct (merge_sequence_symbol c V LW t q O) as (q' & M & Vq & _). rewrite M in E. destruct (symbol_ok_of c V LW _ (so_pair c V q' Vq)) as [w S].
      destruct (merge_symbol_total c V t _ w I S) as (t1 & id & D). rewrite D in E. cbn in E. destruct E as [E|E]; [discriminate|]. injection E as <-. eapply merge_keeps; eauto. apply ok_keeps. now constructor.
    - destruct (merge_symbols_step c V LW l t I O) as (t1 & ids & D & _). rewrite D in E. cbn in E. destruct E as [E|E]; [discriminate|]. injection E as <-. apply (merges_keep l t t1 ids); [|exact D|exact F]. eapply Forall_impl; [|exact O]. apply ok_keeps.
    - cbn in E. destruct E as [E|E]; [discriminate|]. injection E as <-. now apply create_keeps.
    - apply (bits_keep t re im t'); [|exact F]. destruct (merge_bits t re im) as [t1 x|t1|]; cbn in E; destruct E as [E|E]; try discriminate; injection E as <-; eauto.
    - unfold fill_to_word_length in E. destruct (Nat.ltb _ _); [cbn in E; destruct E as [E|E]; [discriminate|]; now injection E as <-|].
      pose proof (fill_symbols_ok c V L O) as FO. destruct (merge_symbols_step c V LW _ t I FO) as (t1 & ids & D & _). rewrite D in E. cbn in E. destruct E as [E|E]; [discriminate|]. injection E as <-.
      eapply merges_keep; [|exact D|exact F]. eapply Forall_impl; [|exact FO]. apply ok_keeps.
    - unfold update_map in E. destruct (Nat.leb _ _); [cbn in E; destruct E as [E|E]; [discriminate|]; now injection E as <-|]. destruct (map_entries _ _ _); cbn in E; destruct E as [E|E]; try discriminate. now injection E as <-.
  Qed.
  Lemma reachable_keeps t : reachable c V t -> Forall keeps (t_syms t).
  Proof.
    intros (l & FO & E). assert (G : forall l t0, hinv c V t0 -> Forall keeps (t_syms t0) -> Forall (op_ok c V) l -> forall t', run_all c t0 l = Some t' -> Forall keeps (t_syms t')).
    { clear - LW. intro l. induction l as [|o l IH]; intros t0 I F FO t' E; cbn in E; [now injection E as <-|]. inversion FO; subst. destruct (run_op c t0 o) as [t1 []|t1|] eqn:RO; [| |discriminate].
      - eapply (IH t1); eauto; [eapply run_op_hinv; eauto|eapply op_keeps; eauto].
      - eapply (IH t1); eauto; [eapply run_op_hinv; eauto|eapply op_keeps; eauto]. }
    eapply (G l table_start); eauto; [now apply start_hinv|]. repeat constructor; intros q Q; cbn in Q; injection Q as <-; left; split; reflexivity.
  Qed.

  Variable R : rfield.
  Add Field RfT : (r_field R).
  Add Field CfT : (cx_field R).
  Notation mono := (mono R).
  Lemma raw_term_spec t (x : mono) s q : reachable c V t -> nth_error (t_syms t) (m_id x) = Some s -> sy_seq s = Some q ->
    exists y, raw_term t x = Some y /\ y = raw_elem (if m_cj x && negb (sy_herm s) then cx_conj c q else q) (m_f x).
  Proof.
    intros RT N Q. pose proof (reachable_keeps t RT) as F. rewrite Forall_forall in F. pose proof (F s (nth_error_In _ _ N) q Q) as K. unfold raw_term. rewrite N, Q.
    destruct (m_cj x && negb (sy_herm s)) eqn:B; [|eauto]. apply andb_true_iff in B. destruct B as [_ B]. destruct K as [[_ H]|[_ H]]; [rewrite H in B; discriminate|]. rewrite H. cbn. eauto.
  Qed.
  (** fails exactly on unknown symbols and symbols without a word *)
  Lemma raw_fails t (p : list mono) : reachable c V t -> (raw_of_poly t p = None <-> exists x, In x p /\ symbol_word t (m_id x) = None).
  Proof.
    intro RT. induction p as [|x p IH]; cbn [raw_of_poly]; [split; [discriminate|intros [x [[] _]]]|]. destruct (symbol_word t (m_id x)) as [q|] eqn:W.
    - pose proof W as W'. unfold symbol_word in W'. destruct (nth_error (t_syms t) (m_id x)) as [s|] eqn:N; [|discriminate]. destruct (raw_term_spec t x s q RT N W') as [y [-> _]]. destruct (raw_of_poly t p).
      + split; [discriminate|]. intros [z [[<-|H] Z]]; [congruence|]. assert (Some l = None) by (apply IH; eauto). discriminate.
      + split; [|reflexivity]. intros _. destruct (proj1 IH eq_refl) as [z [H Z]]. exists z. split; [now right|exact Z].
    - assert (raw_term t x = None) as ->; [|split; [|reflexivity]; intros _; exists x; split; [now left|exact W]]. unfold raw_term, symbol_word in *. destruct (nth_error _ _) as [s|]; [|reflexivity]. cbn in W. now rewrite W.
  Qed.
  Lemma raw_wf_of t (p : list mono) r : reachable c V t -> raw_of_poly t p = Some r -> raw_wf V r.
  Proof.
    intros RT. revert r. induction p as [|x p IH]; intros r E; cbn [raw_of_poly] in E; [injection E as <-; constructor|]. destruct (raw_term t x) as [y|] eqn:T; [|discriminate]. destruct (raw_of_poly t p) as [r'|]; [|discriminate].
    injection E as <-. constructor; [|now apply IH]. unfold raw_term in T. destruct (nth_error (t_syms t) (m_id x)) as [s|] eqn:N; [|discriminate]. destruct (sy_seq s) as [q|] eqn:Q; [|discriminate].
    destruct (raw_term_spec t x s q RT N Q) as [y' [T' Y]]. unfold raw_term in T'. rewrite N, Q in T'. rewrite T in T'. injection T' as ->. subst y'.
    assert (Vq : V q) by (apply (hi_seq c V t (reachable_hinv c V LW t RT) (m_id x)); unfold symbol_word; now rewrite N).
    destruct (raw_elem_pos R (if m_cj x && negb (sy_herm s) then cx_conj c q else q) (m_f x)) as [P1 P2]. split; [|exact P2]. rewrite P1. destruct (_ && _); [apply (lw_pos c V LW), (lw_conj c V LW)|apply (lw_pos c V LW)]; exact Vq.
  Qed.
  Lemma raw_value_of (E : hseq -> cx R) t v (p : list mono) r : expectation c V R E -> reachable c V t -> plain_words t -> assignment t v -> agrees E t v -> raw_of_poly t p = Some r ->
    raw_value E r = value v p.
  Proof.
    intros EX RT PW AS AG. revert r. induction p as [|x p IH]; intros r Er; cbn [raw_of_poly] in Er; [injection Er as <-; reflexivity|]. destruct (raw_term t x) as [y|] eqn:T; [|discriminate].
    destruct (raw_of_poly t p) as [r'|]; [|discriminate]. injection Er as <-. cbn [raw_value value fold_right]. change (fold_right _ c0 r') with (raw_value E r'). change (fold_right _ c0 p) with (value v p). rewrite (IH r' eq_refl). f_equal.
    unfold raw_term in T. destruct (nth_error (t_syms t) (m_id x)) as [s|] eqn:N; [|discriminate]. destruct (sy_seq s) as [q|] eqn:Q; [|discriminate].
    destruct (raw_term_spec t x s q RT N Q) as [y' [T' Y]]. unfold raw_term in T'. rewrite N, Q in T'. rewrite T in T'. injection T' as ->. subst y'. assert (W : symbol_word t (m_id x) = Some q) by (unfold symbol_word; now rewrite N).
    assert (Vq : V q) by (apply (hi_seq c V t (reachable_hinv c V LW t RT) (m_id x)); exact W). pose proof (AG _ _ W) as AV. rewrite (RawProofs.pos_same q (PW _ _ W)) in AV.
    assert (G : forall z, V z -> cmul (snd (raw_elem z (m_f x))) (E (pos (fst (raw_elem z (m_f x))))) = cmul (m_f x) (E z)).
    { intros z Vz. destruct (raw_elem_pos R z (m_f x)) as [P1 P2]. rewrite P1. change (pos (pos z)) with (pos z). rewrite (ex_phase c V R E EX z Vz). unfold raw_elem. destruct (hs_sign z); cbn [snd sphase]; ring. }
    rewrite G by (destruct (_ && _); [now apply (lw_conj c V LW)|exact Vq]). unfold term_value. f_equal. destruct (m_cj x); cbn [andb]; [|now symmetry]. destruct (sy_herm s) eqn:H; cbn [negb].
    - rewrite <- AV. pose proof (as_herm t v AS _ _ N H) as I. apply cx_ext; cbn; [reflexivity|rewrite I; ring].
    - rewrite (ex_conj c V R E EX q Vq). now rewrite AV.
  Qed.
  (** round trip *)
  Lemma raw_round_trip (lt : mono -> mono -> bool) srt t (p : list mono) r : unsigned_conj c V -> real_phases c t -> reachable c V t -> plain_words t -> flagged c t -> starts t -> no_null t ->
    term_order t lt -> sorts t lt srt -> canonical t lt p -> raw_of_poly t p = Some r -> construct_raw c t srt r = Some p.
  Proof.
    intros UC RP RT PW FL ST NN TO SO CP Er. unfold construct_raw. assert (storage_from_raw c t r = Some p) as ->; [|cbn; f_equal; now apply (fixed_spec R t lt srt p)].
    pose proof (cp_terms t lt p CP) as CT. clear CP. revert r Er. induction p as [|x p IH]; intros r Er; cbn [raw_of_poly] in Er; [injection Er as <-; reflexivity|].
    destruct (raw_term t x) as [y|] eqn:T; [|discriminate]. destruct (raw_of_poly t p) as [r'|]; [|discriminate]. injection Er as <-. specialize (IH (fun x Hx => CT x (or_intror Hx)) r' eq_refl).
    destruct (CT x (or_introl eq_refl)) as [IT [NZ [N0 HC]]]. unfold raw_term in T. destruct (nth_error (t_syms t) (m_id x)) as [s|] eqn:N; [|discriminate]. destruct (sy_seq s) as [q|] eqn:Q; [|discriminate].
    destruct (raw_term_spec t x s q RT N Q) as [y' [T' Y]]. unfold raw_term in T'. rewrite N, Q in T'. rewrite T in T'. injection T' as ->. subst y'. assert (W : symbol_word t (m_id x) = Some q) by (unfold symbol_word; now rewrite N).
    destruct (hi_seq c V t (reachable_hinv c V LW t RT) (m_id x) q W) as [Vq [H1 H2]]. unfold ch in H2. pose proof (PW _ _ W) as SQ. unfold herm, anti, sym_of in HC. rewrite (nth_error_nth _ _ _ N) in HC. destruct (m_id x) as [|i] eqn:EI; [easy|].
    destruct (FL i s q N Q) as [FH FA]. rewrite (RawProofs.pos_same q SQ) in FH, FA. destruct (m_cj x) eqn:CJ.
    - destruct (sy_herm s) eqn:SH; [now specialize (HC (or_introl eq_refl))|]. destruct (sy_anti s) eqn:SA; [now specialize (HC (or_intror eq_refl))|]. cbn [andb negb].
      assert (D : pos (cx_conj c q) <> pos q). { intro D. destruct (RP _ q W D) as [K|K]; rewrite (RawProofs.pos_same q SQ) in K; [apply FH in K|apply FA in K]; discriminate. }
      destruct (UC q Vq) as [U|U]; [|contradiction]. rewrite (RawProofs.pos_same q SQ) in U. unfold raw_elem. rewrite U. cbn [storage_from_raw]. unfold where_, hash_to_index. rewrite H2.
      destruct (N.eqb_spec (hs_hash (cx_conj c q)) (hs_hash q)) as [EH|EH].
      { exfalso. apply D. apply hseq_ext; [exact EH| |reflexivity]. apply (lw_hash c V LW (cx_conj c q) q); auto. now apply (lw_conj c V LW). }
      destruct (Z.leb_spec 0 (- Z.of_nat (S i))) as [Z1|Z1]; [lia|]. cbn [lk_symbol lk_conj]. rewrite IH. cbn [option_map]. do 2 f_equal. destruct x as [xi xc xf]. cbn in *. subst. f_equal. lia.
    - cbn [andb]. unfold raw_elem. rewrite SQ. cbn [storage_from_raw]. unfold where_, hash_to_index. rewrite H1. destruct (Z.leb_spec 0 (Z.of_nat (S i))) as [Z1|Z1]; [|lia]. cbn [lk_symbol lk_conj]. rewrite IH. cbn [option_map].
      do 2 f_equal. destruct x as [xi xc xf]. cbn in *. subst. f_equal. lia.
  Qed.
End Table.
