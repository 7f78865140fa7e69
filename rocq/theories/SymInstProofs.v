(** The concrete contexts obey the laws the symbol table relies on. *)
From Coq Require Import List NArith ZArith Arith Bool Lia.
From Verif Require Import CoreModel CoreSpec CoreProofs AlgModel AlgSpec AlgProofs AlgTheoryProofs AlgCompleteProofs AlgConfluenceProofs AlgNormalProofs
  AlgContextProofs AlgFinalProofs AlgWitnessProofs PauliModel PauliSpec LocModel LocSpec LocSortProofs LocProofs EnumModel DictModel SymModel SymSpec SymInstModel SymProofs SymFinalProofs FieldModel FieldProofs.
Import ListNotations.
Notation setsign := SymModel.set_sign.

(* ------------------------------------------------------------------ Pauli *)
Definition wf_like (r L : nat) (q : hseq) : Prop :=
  q = hseq_const true \/ (hs_hash q = hash (N.of_nat r) (hs_ops q) /\ over r (hs_ops q) /\ length (hs_ops q) <= L).
Lemma wf_like_hash r L a b : hash_safe r L -> wf_like r L a -> wf_like r L b -> hs_hash a = hs_hash b -> hs_ops a = hs_ops b.
Proof.
  intros S A B E. destruct A as [->|(A1 & A2 & A3)], B as [->|(B1 & B2 & B3)]; [reflexivity| | |].
  - exfalso. cbn in E. rewrite B1 in E. now apply (hash_nonzero r L (hs_ops b) S B2 B3).
  - exfalso. cbn in E. rewrite A1 in E. now apply (hash_nonzero r L (hs_ops a) S A2 A3).
  - apply (hash_inj r L); try assumption. congruence.
Qed.
Lemma pauli_lawful n L osg : pauli_safe n L -> lawful (pauli_sctx osg) (pauli_wf n L).
Proof.
  intro S. assert (POS : forall q s, pauli_wf n L q -> hs_hash q <> 0%N -> pauli_wf n L (setsign q s)).
  { intros q s [->|H] N; [now destruct N|]. right. exact H. }
  split; cbn [pauli_sctx cx_conj cx_moment].
  - intros q [->|H]; [now left|right; exact H].
  - intros q [->|H]; [now left|right; exact H].
  - intros [h o s] _. unfold pauli_conjugate. cbn. now destruct s.
  - intros [h o s] _. unfold pauli_conjugate, pos, setsign. cbn. now destruct s.
  - intros a b A B. apply (wf_like_hash (3 * n) L); [exact S| |].
    + destruct A as [->|(A1 & A2 & A3 & _)]; [now left|right; auto].
    + destruct B as [->|(B1 & B2 & B3 & _)]; [now left|right; auto].
  - split; [now left|reflexivity].
  - split; [|reflexivity]. right. cbn. repeat split; try (constructor || lia). intros x [].
  - auto.
  - intros [h o s] _. reflexivity.
Qed.
Lemma pauli_unsigned n L osg : unsigned_conj (pauli_sctx osg) (pauli_wf n L).
Proof. intros q _. right. reflexivity. Qed.

(* ------------------------------------------------------------------ locality *)
Lemma loc_conj_spec sc L q : loc_safe sc L -> loc_wf sc L q ->
  loc_wf sc L (cx_conj (loc_sctx sc (fun _ => [])) q) /\ loc_conjugate sc q = Ret (cx_conj (loc_sctx sc (fun _ => [])) q).
Proof.
  intros S W. cbn. destruct (wf_mkseq sc L q S W) as [->|(w & s & E & O & Len & _)]; [split; [now left|reflexivity]|].
  subst q. rewrite (conj_mkseq sc L) by assumption. cbn. split; [|reflexivity].
  assert (Or : over (total_opers sc) (rev w)) by (intros a Ha; apply O; now apply in_rev).
  apply (loc_sequence_wf sc L (rev w) (sconj s)); [now rewrite rev_length|now apply loc_sequence_nf].
Qed.
Lemma loc_lawful sc L osg : loc_safe sc L -> lawful (loc_sctx sc osg) (loc_wf sc L).
Proof.
  intro S. pose proof (fun q => loc_conj_spec sc L q S) as CS. cbn [loc_sctx cx_conj] in CS.
  assert (INV : forall q, loc_wf sc L q -> or_self (or_self q (loc_conjugate sc q)) (loc_conjugate sc (or_self q (loc_conjugate sc q))) = q).
  { intros q W. destruct (CS q W) as [_ E]. pose proof (loc_conjugate_involutive sc L q S W) as I. rewrite E in I. cbn [bind] in I. rewrite I. reflexivity. }
  split; cbn [loc_sctx cx_conj cx_moment].
  - intros q [->|H]; [now left|right; exact H].
  - intros q W. apply CS. exact W.
  - exact INV.
  - intros q W. destruct (wf_mkseq sc L q S W) as [->|(w & s & E & O & Len & C)]; [reflexivity|].
    assert (NF : nf sc (Some w) = Some w) by (apply canonical_sorted in C as [_ C]; now apply gnf_fixed).
    assert (P : pos q = mkseq sc SPos (nf sc (Some w))) by (rewrite E, NF; reflexivity). rewrite P. rewrite (conj_mkseq sc L) by assumption.
    rewrite E at 1 2. rewrite (conj_mkseq sc L) by assumption. cbn [or_self]. destruct (nf sc (Some (rev w))) as [u|] eqn:R.
    + rewrite E, NF. cbn. unfold setsign. cbn. now rewrite smul_pos_r.
    + exfalso. assert (Z : q = hseq_const true).
      { assert (CQ : loc_conjugate sc q = Ret (hseq_const true)) by (rewrite E, (conj_mkseq sc L), R by assumption; reflexivity).
        pose proof (INV q W) as I. rewrite CQ in I. cbn in I. now symmetry. }
      rewrite Z in E. rewrite NF in E. cbn in E. apply (f_equal hs_hash) in E. cbn in E.
      symmetry in E. revert E. apply (hash_nonzero (total_opers sc) L); [exact S|exact O|exact Len].
  - intros a b A B. apply (wf_like_hash (total_opers sc) L); [exact S| |].
    + destruct A as [->|(A1 & [A2 _] & A3)]; [now left|right; auto].
    + destruct B as [->|(B1 & [B2 _] & B3)]; [now left|right; auto].
  - split; [now left|reflexivity].
  - split; [|reflexivity]. right. cbn. split; [reflexivity|]. split; [|lia]. split; [intros x []|constructor].
  - auto.
  - intros [h o s] _. reflexivity.
Qed.
Lemma loc_unsigned sc L osg : loc_safe sc L -> unsigned_conj (loc_sctx sc osg) (loc_wf sc L).
Proof.
  intros S q W. left. cbn. destruct (wf_mkseq sc L q S W) as [->|(w & s & E & O & Len & C)]; [reflexivity|].
  assert (NF : nf sc (Some w) = Some w) by (apply canonical_sorted in C as [_ C]; now apply gnf_fixed).
  assert (P : pos q = mkseq sc SPos (nf sc (Some w))) by (rewrite E, NF; reflexivity). rewrite P. rewrite (conj_mkseq sc L) by assumption. cbn [or_self].
  destruct (nf sc (Some (rev w))); reflexivity.
Qed.

(* ------------------------------------------------------------------ algebraic *)
(** one amount of fuel is enough for all short words *)
Lemma bounded_letters (r : nat) (P : nat -> nat -> Prop) : (forall x n n', n <= n' -> P x n -> P x n') -> (forall x, x < r -> exists n, P x n) -> exists n, forall x, x < r -> P x n.
Proof.
  intros M H. induction r as [|r IH]; [exists 0; lia|]. destruct IH as [n Hn]; [intros; apply H; lia|]. destruct (H r) as [m Hm]; [lia|].
  exists (n + m). intros x Hx. destruct (Nat.eq_dec x r) as [->|D]; [apply (M r m); [lia|exact Hm]|apply (M x n); [lia|apply Hn; lia]].
Qed.
Lemma bounded_words r L : forall (P : word -> nat -> Prop), (forall w n n', n <= n' -> P w n -> P w n') -> (forall w, over r w -> length w <= L -> exists n, P w n) ->
  exists n, forall w, over r w -> length w <= L -> P w n.
Proof.
  induction L as [|L IH]; intros P M H.
  - destruct (H []) as [n Hn]; [intros x []|cbn; lia|]. exists n. intros [|x w] O Len; [exact Hn|cbn in Len; lia].
  - destruct (H []) as [n0 H0]; [intros x []|cbn; lia|].
    destruct (bounded_letters r (fun x n => forall w, over r w -> length w <= L -> P (x :: w) n)) as [n Hn].
    + intros x n n' Hn K w O Len. apply (M _ n); auto.
    + intros x Hx. apply (IH (fun w n => P (x :: w) n)); [intros w n n' Hn; now apply M|]. intros w O Len. apply H; [|cbn; lia]. intros y [<-|Hy]; [exact Hx|now apply O].
    + exists (n0 + n). intros [|x w] O Len; [apply (M _ n0); [lia|exact H0]|]. apply (M _ n); [lia|]. apply Hn; [apply O; now left|intros y Hy; apply O; now right|cbn in Len; lia].
Qed.
Definition alg_words (L : nat) (c : bool) (ctx : acontext) (q : hseq) : Prop := canonical L ctx q /\ phase_safe c ctx q.
Lemma wf_like_canonical L ctx q : canonical L ctx q -> wf_like (pc_num (rb_pc (ac_rules ctx))) L q.
Proof.
  intros (W & _ & Z). destruct W as [[H _]|H]; [left; now apply Z|right; exact H].
Qed.
Lemma alg_fuel L ctx : context_ok L ctx -> exists n, forall fuel, n <= fuel -> forall q, canonical L ctx q -> exists c, conjugate fuel ctx q = Ret c.
Proof.
  intro Hc. set (r := pc_num (rb_pc (ac_rules ctx))).
  destruct (bounded_words r L (fun w n => forall fuel, n <= fuel -> forall s, exists q, canonical_form fuel ctx w s = Ret q)) as [n Hn].
  - intros w n n' Hn K fuel F s. apply K. lia.
  - intros w O Len. assert (G : forall s, exists n, forall fuel, n <= fuel -> exists q, canonical_form fuel ctx w s = Ret q).
    { intro s. destruct (canonical_form_terminates L ctx w s Hc O Len) as (n & q & H). exists n. intros fuel F. exists q. now apply H. }
    destruct (G SPos) as [n1 G1], (G SIm) as [n2 G2], (G SNeg) as [n3 G3], (G SNegIm) as [n4 G4]. exists (n1 + n2 + n3 + n4).
    intros fuel F []; [apply G1|apply G2|apply G3|apply G4]; lia.
  - exists n. intros fuel F q (W & _ & Z). unfold conjugate. destruct (hs_zero q) eqn:Zq; [eauto|]. unfold hs_zero in Zq. apply N.eqb_neq in Zq.
    destruct W as [[H _]|(W1 & W2 & W3)]; [contradiction|].
    assert (O1 : over r (rev (hs_ops q))) by (intros a Ha; apply W2; now apply in_rev).
    assert (L1 : length (rev (hs_ops q)) <= L) by now rewrite rev_length.
    assert (O2 : over r (conj_word (rb_pc (ac_rules ctx)) (hs_ops q))) by now apply conj_word_over.
    assert (L2 : length (conj_word (rb_pc (ac_rules ctx)) (hs_ops q)) <= L) by now rewrite conj_word_length.
    destruct (pc_mode (rb_pc (ac_rules ctx))); (apply Hn; [assumption..|exact F]) || (apply Hn; assumption).
Qed.
Lemma alg_lawful_at L M c ctx fc osg : decidable_context L M c ctx -> is_complete fc (ac_rules ctx) true = Ret true ->
  pc_mode (rb_pc (ac_rules ctx)) = SelfAdjoint \/ c = true -> forall fuel, (forall q, canonical L ctx q -> exists c, conjugate fuel ctx q = Ret c) -> lawful (alg_sctx fuel ctx osg) (alg_words L c ctx) /\
   forall q, alg_words L c ctx q -> conjugate fuel ctx q = Ret (cx_conj (alg_sctx fuel ctx osg) q).
Proof.
  intros Hd Hco Hm fuel Hn. pose proof (proj1 (decidable_ok L M c ctx Hd)) as Hc. assert (RET : forall q, alg_words L c ctx q -> conjugate fuel ctx q = Ret (cx_conj (alg_sctx fuel ctx osg) q)).
  { intros q [C _]. destruct (Hn q C) as [d E]. cbn. rewrite E. reflexivity. }
  split; [|exact RET]. pose proof (conjugate_joinable L M c ctx fc Hd Hco fuel) as CJ.
  assert (CONJ : forall q, alg_words L c ctx q -> alg_words L c ctx (cx_conj (alg_sctx fuel ctx osg) q)).
  { intros q W. pose proof W as [C P]. destruct (CJ q _ (proj1 C) P (RET q W)) as (_ & C' & P' & _). split; assumption. }
  assert (INV : forall q, alg_words L c ctx q -> cx_conj (alg_sctx fuel ctx osg) (cx_conj (alg_sctx fuel ctx osg) q) = q).
  { intros q W. pose proof W as [C P]. exact (conjugate_involutive L M c ctx fc Hd Hco fuel fuel q _ _ C P (RET q W) (RET _ (CONJ q W))). }
  assert (POS : forall q, alg_words L c ctx q -> alg_words L c ctx (pos q)).
  { intros q [(W & I & Z) P]. split; [split; [exact W|split; [exact I|]]|destruct P as [P|[P _]]; [now left|right; auto]].
    intro H. cbn in H. rewrite (Z H). reflexivity. }
  split.
  - exact POS.
  - exact CONJ.
  - exact INV.
  - intros q W. destruct (N.eq_dec (hs_hash q) 0) as [Z|Z].
    { pose proof W as [(_ & _ & Zq) _]. rewrite (Zq Z). reflexivity. }
    destruct (sign_eqb (hs_sign q) SPos) eqn:Sq.
    { assert (Sp : hs_sign q = SPos) by (now destruct (hs_sign q)). assert (E : pos q = q) by (destruct q as [h o s]; cbn in *; unfold pos, setsign; cbn; congruence).
      rewrite E, Sp. cbn [sconj]. set (d := cx_conj _ q). destruct d as [h o s]. unfold setsign. cbn. now destruct s. }
    pose proof W as [C [P|[_ P]]]; [|rewrite P in Sq; discriminate].
    pose proof (POS q W) as Wp. pose proof Wp as [Cp Pp]. destruct (CJ q _ (proj1 C) (or_introl P) (RET q W)) as (J1 & C1 & _ & _).
    destruct (CJ (pos q) _ (proj1 Cp) Pp (RET _ Wp)) as (J2 & C2 & _ & _). set (d := cx_conj (alg_sctx fuel ctx osg) (pos q)) in *.
    assert (Zd : hs_hash d <> 0%N).
    { intro H. destruct C2 as (_ & _ & Z2). specialize (Z2 H). pose proof (INV _ Wp) as I. fold d in I. rewrite Z2 in I.
      assert (X : cx_conj (alg_sctx fuel ctx osg) (hseq_const true) = hseq_const true) by reflexivity. rewrite X in I. apply (f_equal hs_hash) in I. cbn in I. congruence. }
    assert (Cx : canonical L ctx (setsign d (smul (sconj (hs_sign q)) (hs_sign d)))).
    { destruct C2 as (W2 & I2 & _). split; [exact W2|]. split; [exact I2|]. intro H. cbn in H. contradiction. }
    apply (joinable_canonical_eq L M c ctx _ _ Hd (ctx_confluent L M c ctx fc Hd Hco) C1 Cx).
    apply (joinable_trans _ _ (conj_t (rb_pc (ac_rules ctx)) (term_of q)) _ (ctx_confluent L M c ctx fc Hd Hco)); [now apply joinable_sym|].
    apply (joinable_ctx _ (sconj (hs_sign q)) [] []) in J2. unfold term_of in *. cbn [pos setsign hs_hash hs_sign hs_ops] in *.
    destruct (N.eqb_spec (hs_hash q) 0); [contradiction|]. destruct (N.eqb_spec (hs_hash d) 0); [contradiction|]. cbn [conj_t AlgConfluenceProofs.ctx app] in *.
    rewrite !app_nil_r in J2. replace (smul (sconj (hs_sign q)) (sconj SPos)) with (sconj (hs_sign q)) in J2 by (now destruct (hs_sign q)). exact J2.
  - intros a b [A _] [B _]. apply (wf_like_hash (pc_num (rb_pc (ac_rules ctx))) L); [apply Hc|now apply wf_like_canonical..].
  - split; [|reflexivity]. split; [split; [apply wf_const|split; [apply irreducible_nil|reflexivity]]|].
    unfold phase_safe. destruct Hm as [Hm|Hm]; [now left|right; auto].
  - assert (W : alg_words L c ctx (hseq_const false)).
    { split; [split; [apply wf_const|split; [apply irreducible_nil|discriminate]]|]. unfold phase_safe. destruct Hm as [Hm|Hm]; [now left|right; auto]. }
    split; [exact W|]. pose proof (CONJ _ W) as [C1 _]. pose proof W as [C0 P0].
    apply (joinable_canonical_eq L M c ctx _ _ Hd (ctx_confluent L M c ctx fc Hd Hco) C1 C0).
    destruct (CJ _ _ (proj1 C0) P0 (RET _ W)) as (J & _). apply joinable_sym. exact J.
  - auto.
  - intros [h o s] _. reflexivity.
Qed.

Lemma alg_lawful L M c ctx fc osg : decidable_context L M c ctx -> is_complete fc (ac_rules ctx) true = Ret true ->
  pc_mode (rb_pc (ac_rules ctx)) = SelfAdjoint \/ c = true -> exists n, forall fuel, n <= fuel -> lawful (alg_sctx fuel ctx osg) (alg_words L c ctx) /\
   forall q, alg_words L c ctx q -> conjugate fuel ctx q = Ret (cx_conj (alg_sctx fuel ctx osg) q).
Proof.
  intros Hd Hco Hm. destruct (alg_fuel L ctx (proj1 (decidable_ok L M c ctx Hd))) as [n Hn]. exists n. intros fuel F.
  apply (alg_lawful_at L M c ctx fc osg Hd Hco Hm fuel (Hn fuel F)).
Qed.

