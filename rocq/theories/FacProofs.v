(** Proofs about finding and registering the symbols of a matrix. *)
From Coq Require Import List NArith ZArith Arith Bool Lia Ring Field.
From Verif Require Import CoreModel CoreSpec FieldModel FieldProofs SymModel SymSpec SymProofs SymFinalProofs PolyModel ParModel ParProofs MatModel MatProofs FacModel FacSpec.
Import ListNotations.

Section Symbols.
  Variable c : sctx.
  Variable V : hseq -> Prop.
  Hypothesis LW : lawful c V.
  Notation ch := (ch c).
  Notation hinv := (hinv c V).

  Lemma found_hash t q : reachable c V t -> V q -> (found c t q <-> hfind (hs_hash q) (t_hash t) <> None).
  Proof.
    intros Rt Vq. unfold found. split.
    - intros (id & cj & A). apply (lookup_answers c V LW t q id cj Rt Vq) in A. unfold hash_to_index in A. destruct (hfind (hs_hash q) (t_hash t)); congruence.
    - intro H. destruct (hash_to_index t (hs_hash q)) as [[id cj]|] eqn:E.
      + exists id, cj. now apply (lookup_answers c V LW t q id cj Rt Vq).
      + unfold hash_to_index in E. destruct (hfind (hs_hash q) (t_hash t)); congruence.
  Qed.
  Lemma found_conj t q : hinv t -> V q -> hfind (hs_hash q) (t_hash t) <> None -> hfind (ch q) (t_hash t) <> None.
  Proof.
    intros I Vq F G. apply F. assert (Vc : V (cx_conj c q)) by now apply (lw_conj c V LW).
    pose proof (new_conj_new c V LW t (cx_conj c q) I Vc G) as K. unfold SymProofs.ch in K. now rewrite (lw_invol c V LW) in K.
  Qed.

  (** * What a list of symbols covers *)
  Definition covers (l : list symbol) (h : N) : Prop := exists w, In (Some (hs_hash w)) (map sy_hash l) /\ V w /\ (h = hs_hash w \/ h = ch w).
  Lemma covers_incl l l' h : incl (map sy_hash l) (map sy_hash l') -> covers l h -> covers l' h.
  Proof. intros I (w & H & K). exists w. split; [now apply I|exact K]. Qed.
  Lemma covers_conj l q : V q -> covers l (ch q) -> covers l (hs_hash q).
  Proof.
    intros Vq (w & H & Vw & [E|E]); exists w; split; [exact H|split; [exact Vw|right; symmetry; now apply (ch_invol c V LW)]|exact H|split; [exact Vw|left]].
    symmetry in E. pose proof (ch_congr c V LW (cx_conj c w) (cx_conj c q)) as K. unfold SymProofs.ch in *. rewrite !(lw_invol c V LW) in K by assumption. symmetry. apply K; [now apply (lw_conj c V LW)..|exact E].
  Qed.
  Lemma covers_back l q : V q -> covers l (hs_hash q) -> covers l (ch q).
  Proof.
    intros Vq H. assert (Vc : V (cx_conj c q)) by now apply (lw_conj c V LW). apply (covers_conj l (cx_conj c q) Vc). unfold SymProofs.ch. now rewrite (lw_invol c V LW).
  Qed.
  (** symbols made from the elements of [m] *)
  Variable m : list hseq.
  Hypothesis VM : Forall V m.
  (** an element of the matrix or the conjugate of one *)
  Definition mine (q : hseq) : Prop := V q /\ exists a, In a m /\ (a = q \/ q = cx_conj c a).
  Definition built (s : symbol) : Prop := exists q, mine q /\ (s = symbol_pair q (cx_conj c q) \/ (s = symbol_one q /\ cx_conj c q = q) \/ (s = symbol_positive q /\ same_word (cx_conj c q) q)).
  Definition from (s : symbol) : Prop := symbol_ok c V s /\
    (s = symbol_zero \/ s = symbol_identity \/ (built s /\ exists a w, In a m /\ sy_seq s = Some w /\ (same_word a w \/ conj_words c a w))).
  Lemma from_ok l : Forall from l -> Forall (symbol_ok c V) l.
  Proof. apply Forall_impl. intros s H. apply H. Qed.
  Lemma vm q : In q m -> V q. Proof. rewrite Forall_forall in VM. apply VM. Qed.

  Lemma compare_hash a b : Z.eqb (hs_compare_same_negation a b) 1 = true -> hs_hash a = hs_hash b.
  Proof. unfold hs_compare_same_negation. destruct (N.eqb_spec (hs_hash a) (hs_hash b)); [auto|discriminate]. Qed.
  Lemma compare_eq q : V q -> Z.eqb (hs_compare_same_negation q (cx_conj c q)) 1 = true -> cx_conj c q = q.
  Proof.
    intros Vq H. pose proof (compare_hash _ _ H) as Hh. assert (O : hs_ops q = hs_ops (cx_conj c q)) by (apply (lw_hash c V LW); [exact Vq|now apply (lw_conj c V LW)|exact Hh]).
    unfold hs_compare_same_negation in H. rewrite Hh, N.eqb_refl in H. cbn [negb] in H. destruct (cx_conj c q) as [h1 o1 s1], q as [h2 o2 s2]. cbn in *. subst. f_equal.
    unfold hs_imaginary, hs_negated in H. cbn in H. destruct s1, s2; try reflexivity; discriminate.
  Qed.
  Lemma mine_in q : In q m -> mine q.
  Proof. intro H. split; [now apply vm|]. exists q. auto. Qed.
  Lemma mine_conj q : mine q -> mine (cx_conj c q).
  Proof.
    intros [Vq (a & H & [->| ->])]; (split; [now apply (lw_conj c V LW)|]); [exists q; auto|]. exists a. split; [exact H|left]. symmetry. apply (lw_invol c V LW). now apply vm.
  Qed.
  Lemma mine_from q s : mine q -> symbol_ok c V s -> built s -> sy_seq s = Some q \/ sy_seq s = Some (pos q) -> from s.
  Proof.
    intros [Vq (a & H & D)] K B W. split; [exact K|]. right. right. split; [exact B|]. exists a. destruct W as [W|W]; [exists q|exists (pos q)]; (split; [exact H|split; [exact W|]]); unfold same_word, conj_words, same_word; destruct D as [->| ->]; auto.
  Qed.
  Lemma one_from q : mine q -> cx_conj c q = q -> from (symbol_one q) /\ sy_hash (symbol_one q) = Some (hs_hash q).
  Proof. intros H E. split; [|reflexivity]. apply (mine_from q); [exact H|apply so_one; [apply H|now rewrite E]|exists q; auto|now left]. Qed.
  Lemma pair_from q : mine q -> from (symbol_pair q (cx_conj c q)) /\ sy_hash (symbol_pair q (cx_conj c q)) = Some (hs_hash q).
  Proof. intro H. split; [|reflexivity]. apply (mine_from q); [exact H|apply so_pair; apply H|exists q; auto|now right]. Qed.
  Lemma pair_from' q : mine q -> from (symbol_pair (cx_conj c q) q) /\ sy_hash (symbol_pair (cx_conj c q) q) = Some (ch q).
  Proof.
    intro H. pose proof (pair_from _ (mine_conj q H)) as K. rewrite (lw_invol c V LW) in K by apply H. exact K.
  Qed.

  (** * Single-threaded *)
  Definition st_inv (st : list N * list symbol) : Prop := (forall h, known h (fst st) = true -> covers (snd st) h) /\ Forall from (snd st).
  Lemma start_inv : st_inv st_start.
  Proof.
    split.
    - intros h H. destruct (lw_zero c V LW) as [Z0 _]. destruct (lw_one c V LW) as [O0 _]. cbn in H. rewrite orb_false_r in H. apply orb_true_iff in H as [H|H]; apply N.eqb_eq in H; subst h.
      + exists (hseq_const true). split; [now left|]. split; [exact Z0|now left].
      + exists (hseq_const false). split; [right; now left|]. split; [exact O0|now left].
    - constructor; [split; [constructor|auto]|]. constructor; [split; [constructor|auto]|constructor].
  Qed.
  Lemma known_cons h x l : known h (x :: l) = true -> h = x \/ known h l = true.
  Proof. cbn. intro H. apply orb_true_iff in H as [H|H]; [left; now apply N.eqb_eq in H|now right]. Qed.
  Lemma incl_snoc {A B} (f : A -> B) l x : incl (map f l) (map f (l ++ [x])).
  Proof. intros y H. rewrite map_app. apply in_or_app. now left. Qed.
  Lemma covers_new l s w h : sy_hash s = Some (hs_hash w) -> V w -> h = hs_hash w \/ h = ch w -> covers (l ++ [s]) h.
  Proof. intros E Vw H. exists w. split; [rewrite map_app; apply in_or_app; right; cbn; auto|auto]. Qed.
  Lemma note_inv st q : st_inv st -> mine q ->
    st_inv (note st q (cx_conj c q)) /\ covers (snd (note st q (cx_conj c q))) (hs_hash q) /\ incl (map sy_hash (snd st)) (map sy_hash (snd (note st q (cx_conj c q)))).
  Proof.
    intros [K F] M. pose proof (proj1 M) as Vq. unfold note. destruct (Z.eqb (hs_compare_same_negation q (cx_conj c q)) 1) eqn:EH; cbn [negb andb].
    - rewrite orb_false_r. destruct (known (hs_hash q) (fst st)) eqn:Kn.
      + split; [split; assumption|]. split; [now apply K|apply incl_refl].
      + apply (compare_eq q Vq) in EH. destruct (one_from q M EH) as [F1 H1]. cbn [fst snd]. split; [split|].
        * cbn [fst snd]. intros h H. apply known_cons in H as [->| H]; [apply (covers_new _ _ q); auto|]. apply (covers_incl (snd st)); [apply incl_snoc|now apply K].
        * cbn [fst snd]. apply Forall_app. split; [exact F|constructor; [exact F1|constructor]].
        * split; [apply (covers_new _ _ q); auto|apply incl_snoc].
    - destruct (known (hs_hash q) (fst st)) eqn:Kn; cbn [orb].
      + split; [split; assumption|]. split; [now apply K|apply incl_refl].
      + destruct (known (hs_hash (cx_conj c q)) (fst st)) eqn:Kc.
        * split; [split; assumption|]. split; [apply covers_conj; [exact Vq|now apply K]|apply incl_refl].
        * cbn [fst snd]. set (s := if N.ltb (hs_hash q) (hs_hash (cx_conj c q)) then symbol_pair q (cx_conj c q) else symbol_pair (cx_conj c q) q).
          assert (S : from s /\ exists w, sy_hash s = Some (hs_hash w) /\ V w /\ (hs_hash q = hs_hash w \/ hs_hash q = ch w)).
          { unfold s. destruct (N.ltb (hs_hash q) (hs_hash (cx_conj c q))).
            - destruct (pair_from q M) as [A B]. split; [exact A|]. exists q. auto.
            - destruct (pair_from' q M) as [A B]. split; [exact A|]. exists (cx_conj c q). split; [exact B|]. split; [now apply (lw_conj c V LW)|right]. unfold SymProofs.ch. now rewrite (lw_invol c V LW). }
          destruct S as [Fs (w & Hs & Vw & Dw)]. assert (Cq : covers (snd st ++ [s]) (hs_hash q)) by (apply (covers_new _ _ w); auto).
          split; [split|split; [exact Cq|apply incl_snoc]]; cbn [fst snd].
          -- intros h H. apply known_cons in H as [->| H]; [now apply (covers_back _ q)|]. apply known_cons in H as [->| H]; [exact Cq|].
             apply (covers_incl (snd st)); [apply incl_snoc|now apply K].
          -- apply Forall_app. split; [exact F|constructor; [exact Fs|constructor]].
  Qed.
  Lemma note_positive_inv st q : st_inv st -> mine q -> same_word (cx_conj c q) q ->
    st_inv (note_positive st q) /\ covers (snd (note_positive st q)) (hs_hash q) /\ incl (map sy_hash (snd st)) (map sy_hash (snd (note_positive st q))).
  Proof.
    intros [K F] M S. pose proof (proj1 M) as Vq. unfold note_positive. destruct (known (hs_hash q) (fst st)) eqn:Kn.
    - split; [split; assumption|]. split; [now apply K|apply incl_refl].
    - assert (H1 : sy_hash (symbol_positive q) = Some (hs_hash q)) by reflexivity.
      assert (F1 : from (symbol_positive q)).
      { apply (mine_from q); [exact M| |exists q; auto|now right]. apply so_one; [now apply (lw_pos c V LW)|]. change (hs_hash (set_sign q SPos)) with (hs_hash q).
        change (set_sign q SPos) with (pos q). pose proof (conj_phase_hash c V LW q Vq) as P. unfold SymProofs.ch in P. rewrite <- P. now apply same_word_hash in S. }
      split; [split|split; [apply (covers_new _ _ q); auto|apply incl_snoc]]; cbn [fst snd].
      + intros h H. apply known_cons in H as [->| H]; [apply (covers_new _ _ q); auto|]. apply (covers_incl (snd st)); [apply incl_snoc|now apply K].
      + apply Forall_app. split; [exact F|constructor; [exact F1|constructor]].
  Qed.
  Lemma notes_inv (f : list N * list symbol -> hseq -> list N * list symbol) (P : hseq -> Prop) :
    (forall st q, st_inv st -> P q -> st_inv (f st q) /\ covers (snd (f st q)) (hs_hash q) /\ incl (map sy_hash (snd st)) (map sy_hash (snd (f st q)))) ->
    forall l st, st_inv st -> Forall P l -> let st' := fold_left f l st in
      st_inv st' /\ (forall q, In q l -> covers (snd st') (hs_hash q)) /\ incl (map sy_hash (snd st)) (map sy_hash (snd st')).
  Proof.
    intro St. induction l as [|q l IH]; intros st I F; cbn.
    - split; [exact I|]. split; [intros q []|apply incl_refl].
    - inversion F as [|? ? Pq F']; subst. destruct (St st q I Pq) as (I1 & C1 & N1). destruct (IH _ I1 F') as (I2 & C2 & N2). split; [exact I2|]. split.
      + intros x [<-|H]; [eapply covers_incl; [exact N2|exact C1]|auto].
      + eapply incl_tran; eassumption.
  Qed.
  Lemma pick_some l : (forall o, In o l -> o < length m) -> exists r, pick m l = Some r /\ (forall q, In q r <-> exists o, In o l /\ nth_error m o = Some q).
  Proof.
    induction l as [|o l IH]; intro B; [exists []; split; [reflexivity|]; intro q; split; [intros []|intros (o & [] & _)]|].
    destruct IH as (r & E & D); [intros; apply B; now right|]. cbn. destruct (nth_error m o) as [q|] eqn:Q.
    - rewrite E. exists (q :: r). split; [reflexivity|]. intro x. cbn. rewrite D. split.
      + intros [<-|(o' & A & B')]; [exists o; auto|exists o'; auto].
      + intros (o' & [<-|A] & B'); [left; congruence|right; eauto].
    - exfalso. apply nth_error_None in Q. specialize (B o (or_introl eq_refl)). lia.
  Qed.

  (** * Merging *)
  Lemma merged_iff l : forall t t' ids, hinv t -> Forall (symbol_ok c V) l -> merge_symbols t l = Done t' ids ->
    forall h, hfind h (t_hash t') <> None <-> hfind h (t_hash t) <> None \/ exists s w, In s l /\ symbol_of c V s w /\ (h = hs_hash w \/ h = ch w).
  Proof.
    induction l as [|s l IH]; intros t t' ids I F E h; cbn in E.
    - injection E as <- <-. split; [auto|]. intros [H|(s & w & [] & _)]; exact H.
    - inversion F as [|? ? Fs F']; subst. destruct (symbol_ok_of c V LW s Fs) as (w & S). destruct (merge_symbol_total c V t s w I S) as (t1 & id & E1). rewrite E1 in E.
      destruct (merge_symbols t1 l) as [t2 ids2| |] eqn:E2; try discriminate. injection E as <- <-.
      destruct (merge_symbol_hinv c V LW t s w t1 id I S E1) as [I1 _]. rewrite (IH t1 t2 ids2 I1 F' E2 h).
      assert (K : hfind h (t_hash t1) <> None <-> hfind h (t_hash t) <> None \/ (h = hs_hash w \/ h = ch w)).
      { pose proof S as S0. destruct S0 as (Q & Vw & _). destruct (hfind (hs_hash w) (t_hash t)) as [v|] eqn:Fw.
        - rewrite (merge_symbol_found c V t s w v I S Fw) in E1. injection E1 as <- <-. split; [auto|]. intros [H|[-> | ->]]; [exact H|congruence|apply (found_conj t w I Vw); congruence].
        - destruct (merge_symbol_new c V t s w t1 id I S Fw E1) as (_ & _ & Hk). rewrite Hk. destruct (hfind h (t_hash t)) eqn:Fh; [split; [left; congruence|congruence]|].
          destruct (N.eqb_spec (hs_hash w) h) as [<-|D1]; [split; [auto|discriminate]|]. destruct (N.eqb_spec (ch w) h) as [<-|D2]; [split; [auto|discriminate]|].
          split; [intro X; now elim X|]. intros [X|[X|X]]; [now elim X|congruence|congruence]. }
      rewrite K. split.
      + intros [[H|H]|(s' & w' & A & B)]; [now left|right; exists s, w; split; [now left|auto]|right; exists s', w'; split; [now right|exact B]].
      + intros [H|(s' & w' & [->|A] & B & D)]; [auto| |right; eauto 6]. assert (w' = w) as -> by (destruct B as [B _]; destruct S as [S _]; congruence). left. auto.
  Qed.
  Lemma covers_symbol_of l h : Forall (symbol_ok c V) l -> covers l h -> exists s w, In s l /\ symbol_of c V s w /\ (h = hs_hash w \/ h = ch w).
  Proof.
    intros F (w & H & Vw & D). apply in_map_iff in H as (s & E & Is). rewrite Forall_forall in F. destruct (symbol_ok_of c V LW s (F s Is)) as (w' & S). exists s, w'. split; [exact Is|]. split; [exact S|].
    destruct S as (_ & Vw' & Hs & _). assert (X : hs_hash w = hs_hash w') by congruence. rewrite <- X, <- (ch_congr c V LW w w' Vw Vw' X). exact D.
  Qed.
  Lemma merge_registers l t : reachable c V t -> Forall from l -> (forall q, In q m -> covers l (hs_hash q)) ->
    exists t' ids, merge_symbols t l = Done t' ids /\ registered c V t t' m /\ reachable c V t' /\ (forall q, In q m -> found c t' q).
  Proof.
    intros Rt F C. pose proof (from_ok l F) as Fo. pose proof (reachable_hinv c V LW t Rt) as I. destruct (merge_symbols_step c V LW l t I Fo) as (t' & ids & E & I' & G).
    assert (L : later c V t t') by (exists [OMerge l]; split; [constructor; [exact Fo|constructor]|cbn; now rewrite E]).
    assert (Rt' : reachable c V t') by (eapply reachable_later; eassumption).
    pose proof (merged_iff l t t' ids I Fo E) as MI. exists t', ids. split; [exact E|].
    assert (Fm : forall q, In q m -> found c t' q).
    { intros q Hq. apply (found_hash t' q Rt' (vm q Hq)). apply MI. right. apply covers_symbol_of; [exact Fo|now apply C]. }
    split; [|split; assumption]. split; [exact L|]. intros q Vq. rewrite (found_hash t' q Rt' Vq), (found_hash t q Rt Vq), MI. split.
    - intros [H|(s & w & Is & S & D)]; [now left|]. rewrite Forall_forall in F. destruct (F s Is) as [_ [->|[->|(_ & a & w' & Ia & W & Da)]]].
      + left. apply (found_hash t q Rt Vq). assert (Ew : w = hseq_const true) by (destruct S as [S _]; cbn in S; congruence). subst w. exists 0.
        assert (X : hs_hash q = hs_hash (hseq_const true)) by (unfold SymProofs.ch in D; destruct (lw_zero c V LW) as [_ Z]; rewrite Z in D; now destruct D).
        exists false, (hseq_const true). split; [apply (hi_zero c V t I)|]. apply (same_pos c V LW); [apply (lw_zero c V LW)|exact Vq|now symmetry].
      + left. apply (found_hash t q Rt Vq). assert (Ew : w = hseq_const false) by (destruct S as [S _]; cbn in S; congruence). subst w. exists 1.
        assert (X : hs_hash q = hs_hash (hseq_const false)) by (unfold SymProofs.ch in D; destruct (lw_one c V LW) as [_ Z]; rewrite Z in D; now destruct D).
        exists false, (hseq_const false). split; [apply (hi_one c V t I)|]. apply (same_pos c V LW); [apply (lw_one c V LW)|exact Vq|now symmetry].
      + right. exists a. split; [exact Ia|]. destruct S as (S & Vw & _). assert (w' = w) as -> by congruence. pose proof (vm a Ia) as Va.
        assert (Dq : same_word w q \/ conj_words c w q).
        { destruct D as [D|D]; [left; now apply (same_pos c V LW)|right]. apply (same_pos c V LW); [now apply (lw_conj c V LW)|exact Vq|now symmetry]. }
        unfold conj_words in *. destruct Da as [Da|Da], Dq as [Dq|Dq].
        * left. unfold same_word in *. congruence.
        * right. pose proof (conj_congr c V LW a w Va Vw Da) as K. unfold same_word in *. congruence.
        * right. unfold same_word in *. congruence.
        * left. pose proof (conj_congr c V LW _ w (lw_conj c V LW a Va) Vw Da) as K. rewrite (lw_invol c V LW a Va) in K. unfold same_word in *. congruence.
    - intros [H|(a & Ia & D)]; [now left|]. apply MI. pose proof (proj1 (found_hash t' a Rt' (vm a Ia)) (Fm a Ia)) as Ha. destruct D as [D|D]; apply same_word_hash in D; rewrite <- D; [exact Ha|].
      apply (found_conj t' a I' (vm a Ia) Ha).
  Qed.

  (** * Values *)
  Section Values.
    Variable R : rfield.
    Variable E : hseq -> cx R.
    Variable p : cx R.
    Hypothesis EX : expectation c V R E.
    Hypothesis UC : unsigned_conj c V.
    Add Field Rf : (r_field R). Add Field Cf : (cx_field R).
    Lemma find_entry_found t q : reachable c V t -> V q -> found c t q -> exists s id cj, find_entry t q = Some (s, cj) /\ nth_error (t_syms t) id = Some s /\ sy_id s = id /\ answers c t q id cj.
    Proof.
      intros Rt Vq (id & cj & A). pose proof (proj2 (lookup_answers c V LW t q id cj Rt Vq) A) as L. unfold find_entry. rewrite L. pose proof A as (w & W & _). unfold symbol_word in W.
      destruct (nth_error (t_syms t) id) as [s|] eqn:N; [|discriminate]. exists s, id, cj. split; [reflexivity|]. split; [exact N|]. split; [|exact A]. now apply (hi_id c V t (reachable_hinv c V LW t Rt)).
    Qed.
    Lemma direct_stands t q : reachable c V t -> V q -> found c t q -> exists e, direct p t q = Some e /\ stands_for E t p q e.
    Proof.
      intros Rt Vq Fq. destruct (find_entry_found t q Rt Vq Fq) as (s & id & cj & F & N & Id & A). unfold direct. rewrite F. eexists. split; [reflexivity|]. unfold stands_for. cbn [m_id m_cj m_f]. rewrite Id.
      exists (E (pos q)). split; [now apply (answers_value c V LW R E t q id cj Rt Vq EX UC)|]. rewrite (ex_phase c V R E EX q Vq). change (@to_scalar R (hs_sign q)) with (sphase R (hs_sign q)). ring.
    Qed.
    Lemma cconj_mul (x y : cx R) : cconj (cmul x y) = cmul (cconj x) (cconj y).
    Proof. destruct x, y. apply cx_ext; cbn; ring. Qed.
    Lemma cconj_twice (x : cx R) : cconj (cconj x) = x.
    Proof. destruct x. apply cx_ext; cbn; ring. Qed.
    Lemma mirror_stands t q : reachable c V t -> V q -> found c t q -> real_symbols E t -> exists e, mirror p t q = Some e /\ stands_for E t p (cx_conj c q) e.
    Proof.
      intros Rt Vq Fq RS. destruct (find_entry_found t q Rt Vq Fq) as (s & id & cj & F & N & Id & A). unfold mirror. rewrite F. eexists. split; [reflexivity|]. unfold stands_for. cbn [m_id m_cj m_f]. rewrite Id.
      exists (cconj (E (pos q))). assert (SV : symbol_value E t id cj = Some (E (pos q))) by now apply (answers_value c V LW R E t q id cj Rt Vq EX UC). split.
      - unfold symbol_value in *. pose proof A as (w & W & _). rewrite W in *. cbn in *. injection SV as SV. f_equal. rewrite <- SV. destruct (sy_herm s) eqn:Hs.
        + assert (Wr : cconj (E (pos w)) = E (pos w)). { unfold symbol_word in W. rewrite N in W. now apply (RS id s w). }
          destruct cj; rewrite ?Wr; now rewrite ?Wr.
        + destruct cj; cbn; [now rewrite cconj_twice|reflexivity].
      - rewrite (ex_conj c V R E EX q Vq), (ex_phase c V R E EX q Vq), cconj_mul. change (@to_scalar R (hs_sign q)) with (sphase R (hs_sign q)). ring.
    Qed.
  End Values.
  Lemma direct_some {R} (p : cx R) t q : reachable c V t -> V q -> found c t q -> exists e, direct p t q = Some e.
  Proof.
    intros Rt Vq (id & cj & A). pose proof (proj2 (lookup_answers c V LW t q id cj Rt Vq) A) as L. unfold direct, find_entry. rewrite L. pose proof A as (w & W & _). unfold symbol_word in W.
    destruct (nth_error (t_syms t) id) as [s|] eqn:N; [eauto|discriminate].
  Qed.
  Lemma mirror_some {R} (p : cx R) t q : reachable c V t -> V q -> found c t q -> exists e, mirror p t q = Some e.
  Proof.
    intros Rt Vq (id & cj & A). pose proof (proj2 (lookup_answers c V LW t q id cj Rt Vq) A) as L. unfold mirror, find_entry. rewrite L. pose proof A as (w & W & _). unfold symbol_word in W.
    destruct (nth_error (t_syms t) id) as [s|] eqn:N; [eauto|discriminate].
  Qed.

  (** * Flags *)
  Lemma mine_plain q : plain_self_conjugates c m -> mine q -> same_word (cx_conj c q) q -> cx_conj c (pos q) = pos q.
  Proof.
    intros PS [Vq (a & Ia & [->| ->])] H; [now apply PS|]. pose proof (vm a Ia) as Va. rewrite (lw_invol c V LW a Va) in H.
    assert (S : same_word (cx_conj c a) a) by now symmetry. pose proof (PS a Ia S) as P. unfold same_word in S. now rewrite S.
  Qed.
  Lemma built_flags s : plain_self_conjugates c m -> built s -> (exists q, s = symbol_pair q (cx_conj c q)) \/
    (exists q, s = symbol_one q /\ cx_conj c q = q /\ (hs_sign q = SPos \/ hs_sign q = SNeg)).
  Proof.
    intros PS (q & M & [-> |[[-> Cq]|[-> S]]]); [left; eauto|right; exists q|right; exists (pos q)].
    - split; [reflexivity|]. split; [exact Cq|]. pose proof (proj1 M) as Vq. assert (S : same_word (cx_conj c q) q) by now rewrite Cq.
      pose proof (mine_plain q PS M S) as P. pose proof (lw_phase c V LW q Vq) as L. rewrite P, Cq in L. apply (f_equal hs_sign) in L. cbn in L. destruct (hs_sign q); auto; discriminate.
    - split; [reflexivity|]. split; [now apply mine_plain|now left].
  Qed.
  Lemma from_flags l : plain_self_conjugates c m -> Forall from l -> flags_ok c (OMerge l).
  Proof.
    intros PS F s Is. rewrite Forall_forall in F. destruct (F s Is) as [_ [->|[->|[B _]]]]; [auto..|]. destruct (built_flags s PS B) as [H|H]; auto.
  Qed.
  Lemma merge_flags l t t' ids : reachable c V t -> flagged c t -> plain_self_conjugates c m -> Forall from l -> merge_symbols t l = Done t' ids -> flagged c t'.
  Proof.
    intros Rt Ft PS F E. apply (run_op_flagged c V LW t (OMerge l) t' (reachable_hinv c V LW t Rt)); [now apply from_ok|now apply from_flags|exact Ft|right; cbn; now rewrite E].
  Qed.
  Section Real.
  Variable R : rfield.
  Add Field Rf2 : (r_field R).
  Lemma flagged_real (E : hseq -> cx R) t : reachable c V t -> expectation c V R E -> flagged c t -> real_symbols E t.
  Proof.
    intros Rt EX Ft id s w N Hs W. destruct id as [|id].
    - pose proof (proj1 (table_shape c V LW t Rt)) as Z. unfold symbol_word in Z. rewrite N, W in Z. injection Z as ->. change (pos (hseq_const true)) with (hseq_const true). rewrite (ex_zero c V R E EX). apply cx_ext; cbn; [reflexivity|]. ring.
    - destruct (Ft id s w N W) as [[H _] _]. specialize (H Hs). rewrite <- (ex_conj c V R E EX); [now rewrite H|]. apply (lw_pos c V LW).
      apply (hi_seq c V t (reachable_hinv c V LW t Rt) (S id)). unfold symbol_word. now rewrite N.
  Qed.
  End Real.
End Symbols.
