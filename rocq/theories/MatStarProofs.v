(** The three kinds of context have words with an involution. *)
From Coq Require Import List NArith Arith Bool Lia.
From Verif Require Import CoreModel CoreSpec CoreProofs AlgModel AlgSpec AlgProofs AlgConfluenceProofs AlgTheoryProofs AlgCompleteProofs AlgNormalProofs AlgContextProofs AlgFinalProofs
  PauliModel PauliSpec PauliProofs PauliFinalProofs LocModel LocSpec LocProofs SymModel SymSpec SymInstModel SymInstProofs
  MatModel MatSpec MatInstModel MatInstSpec MatInstProofs.
Import ListNotations.

(* ------------------------------------------------------------------ locality *)
Lemma loc_star sc L : loc_safe sc L -> star_words (loc_multiply sc) (loc_conjugate sc) (loc_wf sc) L.
Proof.
  intro S. assert (SM : forall l, l <= L -> loc_safe sc l) by (intros l Hl; now apply (loc_safe_mono sc l L)).
  assert (UP : forall l k q, l <= k -> loc_wf sc l q -> loc_wf sc k q).
  { intros l k q Hlk [->|H]; [now left|]. right. destruct H as (H1 & H2 & H3). split; [exact H1|]. split; [exact H2|]. lia. }
  split.
  - intros l k a b Ha Hb Hl. destruct (loc_multiply_total sc (l + k) a b (SM _ Hl)) as [q E]; [apply (UP l); [lia|exact Ha]|apply (UP k); [lia|exact Hb]|].
    exists q. split; [exact E|]. now apply (loc_multiply_wf sc l k (l + k) a b q (SM _ Hl)).
  - intros l a Ha Hl. destruct (loc_conj_spec sc l a (SM _ Hl) Ha) as [W E]. eexists. split; [exact E|]. split; [exact W|].
    pose proof (loc_conjugate_involutive sc l a (SM _ Hl) Ha) as I. rewrite E in I. exact I.
  - intros l k a b p ca cb Ha Hb Hl Ep Ea Eb. pose proof (loc_conjugate_mul sc l k a b (SM _ Hl) Ha Hb) as H. rewrite Ep, Ea, Eb in H. exact H.
  - intros l k j a b c ab bc Ha Hb Hc Hl E1 E2. pose proof (loc_multiply_assoc sc l k j a b c (SM _ Hl) Ha Hb Hc) as H. rewrite E1, E2 in H. exact H.
Qed.

(* ------------------------------------------------------------------ Pauli *)
Definition pauli_word (n l : nat) (q : hseq) : Prop := pauli_wf n l q /\ hs_hash q <> 0%N.
Lemma pauli_wf_up n l k q : l <= k -> pauli_wf n l q -> pauli_wf n k q.
Proof. intros H [->|(A & B & C & E)]; [now left|]. right. repeat split; try assumption. lia. Qed.
Lemma pauli_safe_mono n l k : l <= k -> pauli_safe n k -> pauli_safe n l.
Proof. intros H S. unfold pauli_safe in *. eapply N.le_lt_trans; [apply count_words_mono, H|exact S]. Qed.
Lemma pauli_mul_word n L l k a b : pauli_safe n L -> pauli_word n l a -> pauli_word n k b -> l + k <= L -> pauli_word n (l + k) (pauli_multiply n a b).
Proof.
  intros S [Wa Za] [Wb Zb] Hl.
  assert (Wa' : pauli_wf n (l + k) a) by (apply (pauli_wf_up n l); [lia|exact Wa]).
  assert (Wb' : pauli_wf n (l + k) b) by (apply (pauli_wf_up n k); [lia|exact Wb]).
  destruct (wf_parts n l a Wa Za) as (A1 & A2 & A3 & A4). destruct (wf_parts n k b Wb Zb) as (B1 & B2 & B3 & B4).
  rewrite (multiply_is_sequence n (l + k)) by assumption.
  assert (O : over (3 * n) (hs_ops a ++ hs_ops b)) by (apply over_app; now split).
  assert (W : pauli_wf n (l + k) (pauli_sequence n (hs_ops a ++ hs_ops b) (smul (hs_sign a) (hs_sign b)))) by (apply sequence_wf; [exact O|left; rewrite app_length; lia]).
  split; [exact W|]. unfold pauli_sequence. cbn [hseq_make hs_hash]. destruct (simplify_shape (hs_ops a ++ hs_ops b) (smul (hs_sign a) (hs_sign b))) as (_ & Len & _).
  apply (wf_hash_nonzero n (l + k)); [apply (pauli_safe_mono n _ L Hl S)|now apply simplify_over|]. rewrite app_length in Len. lia.
Qed.
Lemma pauli_star n L : pauli_safe n L -> star_words (pauli_mul n) pauli_conj (pauli_word n) L.
Proof.
  intro S. split.
  - intros l k a b Ha Hb Hl. eexists. split; [reflexivity|]. now apply (pauli_mul_word n L).
  - intros l a [Wa Za] Hl. eexists. split; [reflexivity|]. split; [split; [now apply conjugate_wf|exact Za]|]. unfold pauli_conj. now rewrite pauli_conjugate_involutive.
  - intros l k a b p ca cb [Wa Za] [Wb Zb] Hl E Ea Eb. unfold pauli_mul, pauli_conj in *. injection E as <-. injection Ea as <-. injection Eb as <-. f_equal.
    apply (pauli_conjugate_product n (l + k)); try assumption; eapply pauli_wf_up; try eassumption; lia.
  - intros l k j a b c ab bc [Wa Za] [Wb Zb] [Wc Zc] Hl E1 E2. unfold pauli_mul in *. injection E1 as <-. injection E2 as <-. f_equal.
    destruct (wf_parts n l a Wa Za) as (A1 & A2 & A3 & A4). destruct (wf_parts n k b Wb Zb) as (B1 & B2 & B3 & B4). destruct (wf_parts n j c Wc Zc) as (C1 & C2 & C3 & C4).
    apply (multiply_assoc n (l + k + j)); try assumption; try (eapply pauli_wf_up; [|eassumption]; lia); [apply (pauli_safe_mono n _ L Hl S)|lia].
Qed.

(** (anti)commutators with a word of the right kind commute with conjugation *)
Lemma sequence_phase n w s : pauli_sequence n w s = mk_hseq (hash (pauli_radix n) (fst (pauli_simplify w SPos))) (fst (pauli_simplify w SPos)) (smul s (snd (pauli_simplify w SPos))).
Proof. unfold pauli_sequence. assert (E : s = smul s SPos) by (destruct s; reflexivity). rewrite E at 1 2. rewrite simplify_signs. reflexivity. Qed.
Lemma conj_zero : pauli_conjugate (hseq_const true) = hseq_const true.
Proof. reflexivity. Qed.
Lemma commutator_conj n l k a w : pauli_word n l a -> pauli_word n k w -> hs_imaginary w = true ->
  pauli_conjugate (pauli_commutator n a w) = pauli_commutator n (pauli_conjugate a) w.
Proof.
  intros [Wa Za] [Ww Zw] I.
  assert (Wa' : pauli_wf n (l + k) a) by (apply (pauli_wf_up n l); [lia|exact Wa]).
  assert (Ww' : pauli_wf n (l + k) w) by (apply (pauli_wf_up n k); [lia|exact Ww]).
  unfold pauli_commutator. rewrite (multiply_is_sequence n (l + k) a w) by assumption.
  rewrite (multiply_is_sequence n (l + k) (pauli_conjugate a) w) by (try apply conjugate_wf; assumption).
  cbn [pauli_conjugate hs_ops hs_sign]. rewrite !sequence_phase. unfold hs_imaginary in *. cbn [hs_sign].
  destruct (snd (pauli_simplify (hs_ops a ++ hs_ops w) SPos)), (hs_sign a), (hs_sign w); cbn in I |- *; congruence || reflexivity.
Qed.
Lemma anticommutator_conj n l k a w : pauli_word n l a -> pauli_word n k w -> hs_imaginary w = false ->
  pauli_conjugate (pauli_anticommutator n a w) = pauli_anticommutator n (pauli_conjugate a) w.
Proof.
  intros [Wa Za] [Ww Zw] I.
  assert (Wa' : pauli_wf n (l + k) a) by (apply (pauli_wf_up n l); [lia|exact Wa]).
  assert (Ww' : pauli_wf n (l + k) w) by (apply (pauli_wf_up n k); [lia|exact Ww]).
  unfold pauli_anticommutator. rewrite (multiply_is_sequence n (l + k) a w) by assumption.
  rewrite (multiply_is_sequence n (l + k) (pauli_conjugate a) w) by (try apply conjugate_wf; assumption).
  cbn [pauli_conjugate hs_ops hs_sign]. rewrite !sequence_phase. unfold hs_imaginary in *. cbn [hs_sign].
  destruct (snd (pauli_simplify (hs_ops a ++ hs_ops w) SPos)), (hs_sign a), (hs_sign w); cbn in I |- *; congruence || reflexivity.
Qed.
Lemma comm_hermitian_by (g : hseq -> hseq) n L l d : pauli_safe n L -> Forall (pauli_word n l) d -> l + l <= L ->
  (forall x, pauli_word n (l + l) x -> pauli_conjugate (g x) = g (pauli_conjugate x)) ->
  hermitian_by (fun a b => bind (rmul (pauli_mul n) a b) (fun x => Ret (g x))) (rconj pauli_conj) (row_gen pauli_conj d) (col_gen d).
Proof.
  intros S Hd Hl Hg r c xr yr xc yc R1 C1 R2 C2. rewrite Forall_forall in Hd.
  destruct (nth_row _ _ _ _ R1) as (a & Ea & ->). destruct (nth_col _ _ _ C1) as (a' & Ea' & ->). rewrite Ea in Ea'. injection Ea' as <-.
  destruct (nth_row _ _ _ _ R2) as (b & Eb & ->). destruct (nth_col _ _ _ C2) as (b' & Eb' & ->). rewrite Eb in Eb'. injection Eb' as <-.
  pose proof (Hd a (nth_error_In _ _ Ea)) as Da. pose proof (Hd b (nth_error_In _ _ Eb)) as Db. unfold rmul, pauli_mul, pauli_conj, rconj. cbn [bind].
  f_equal. destruct Da as [Wa Za], Db as [Wb Zb]. rewrite Hg.
  - f_equal. rewrite (pauli_conjugate_product n l) by (try apply conjugate_wf; assumption). now rewrite pauli_conjugate_involutive.
  - apply (pauli_mul_word n L); try assumption; split; try assumption. now apply conjugate_wf.
Qed.
Lemma commutator_hermitian_by n L l k w d : pauli_safe n L -> Forall (pauli_word n l) d -> l + l <= L -> pauli_word n k w ->
  commutator_should_be_hermitian w = true -> hermitian_by (commutator_functor n w) (rconj pauli_conj) (row_gen pauli_conj d) (col_gen d).
Proof.
  intros S Hd Hl Hw I. apply (comm_hermitian_by (fun x => pauli_commutator n x w) n L l d S Hd Hl). intros x Hx. now apply (commutator_conj n (l + l) k).
Qed.
Lemma anticommutator_hermitian_by n L l k w d : pauli_safe n L -> Forall (pauli_word n l) d -> l + l <= L -> pauli_word n k w ->
  anticommutator_should_be_hermitian w = true -> hermitian_by (anticommutator_functor n w) (rconj pauli_conj) (row_gen pauli_conj d) (col_gen d).
Proof.
  intros S Hd Hl Hw I. apply (comm_hermitian_by (fun x => pauli_anticommutator n x w) n L l d S Hd Hl). intros x Hx. apply (anticommutator_conj n (l + l) k); try assumption.
  unfold anticommutator_should_be_hermitian in I. now destruct (hs_imaginary w).
Qed.
Lemma pauli_real_conj w : hs_imaginary w = false -> pauli_conj w = Ret w.
Proof. destruct w as [h o s]. unfold hs_imaginary, pauli_conj, pauli_conjugate. cbn. destruct s; cbn; congruence || reflexivity. Qed.

(* ------------------------------------------------------------------ algebraic *)
Definition alg_word (L : nat) (c : bool) (ctx : acontext) (l : nat) (q : hseq) : Prop := alg_words L c ctx q /\ length (hs_ops q) <= l.
Section Alg.
  Variables (L M : nat) (c : bool) (ctx : acontext) (fc : nat).
  Hypothesis Hd : decidable_context L M c ctx.
  Hypothesis Hco : is_complete fc (ac_rules ctx) true = Ret true.
  Lemma multiply_phase f a b p : canonical L ctx a -> canonical L ctx b -> phase_safe c ctx a -> phase_safe c ctx b ->
    length (hs_ops a) + length (hs_ops b) <= L -> multiply f ctx a b = Ret p ->
    phase_safe c ctx p /\ length (hs_ops p) <= length (hs_ops a) + length (hs_ops b).
  Proof.
    intros Ca Cb Pa Pb Hl E1. unfold multiply, hs_zero in E1.
    destruct (N.eqb_spec (hs_hash a) 0) as [Za|Za].
    { injection E1 as <-. split; [|cbn; lia]. destruct Pa as [H|[H Hs]]; [left; exact H|right; split; [exact H|reflexivity]]. }
    destruct (N.eqb_spec (hs_hash b) 0) as [Zb|Zb].
    { injection E1 as <-. split; [|cbn; lia]. destruct Pa as [H|[H Hs]]; [left; exact H|right; split; [exact H|reflexivity]]. }
    cbn [orb] in E1.
    destruct (proj1 Ca) as [[C _]|(A1 & A2 & A3)]; [contradiction|]. destruct (proj1 Cb) as [[C _]|(B1 & B2 & B3)]; [contradiction|].
    destruct (decidable_ok L M c ctx Hd) as [Hc _].
    assert (Hlen : length (hs_ops a ++ hs_ops b) <= L) by (rewrite app_length; exact Hl).
    destruct (canonical_form_post L ctx f _ _ p Hc (proj2 (over_app _ _ _) (conj A2 B2)) Hlen E1) as (_ & Lp & R & _ & Zc).
    split; [|rewrite app_length in Lp; exact Lp].
    destruct Pa as [H|[H Hs]]; [left; exact H|]. destruct Pb as [H'|[_ Hs']]; [left; exact H'|]. right. split; [exact H|].
    assert (T : tame_term c (term_of p)).
    { refine (rws_tame c _ _ _ _ R _); [apply Hd|]. rewrite Hs, Hs', H. reflexivity. }
    unfold term_of, tame_term in T. rewrite H in T. destruct (N.eqb_spec (hs_hash p) 0) as [Z'|_]; [|exact T].
    rewrite (Zc Z'). reflexivity.
  Qed.
  Lemma tmul_assoc t u v : tmul (tmul t u) v = tmul t (tmul u v).
  Proof.
    destruct t as [[s w]|], u as [[s' w']|], v as [[s'' w'']|]; cbn; try reflexivity. rewrite app_assoc. destruct s, s', s''; reflexivity.
  Qed.
  Lemma alg_star_at fuel : (forall w s, over (pc_num (rb_pc (ac_rules ctx))) w -> length w <= L -> exists q, canonical_form fuel ctx w s = Ret q) ->
    star_words (multiply fuel ctx) (conjugate fuel ctx) (alg_word L c ctx) L.
  Proof.
    intro T. pose proof (ctx_confluent L M c ctx fc Hd Hco) as CF.
    assert (MT : forall a b, canonical L ctx a -> canonical L ctx b -> length (hs_ops a) + length (hs_ops b) <= L -> exists p, multiply fuel ctx a b = Ret p).
    { intros a b Ca Cb Hl. unfold multiply, hs_zero. destruct (N.eqb_spec (hs_hash a) 0) as [Za|Za]; [cbn; eauto|]. destruct (N.eqb_spec (hs_hash b) 0) as [Zb|Zb]; [cbn; eauto|].
      cbn [orb]. destruct (proj1 Ca) as [[C _]|(A1 & A2 & A3)]; [contradiction|]. destruct (proj1 Cb) as [[C _]|(B1 & B2 & B3)]; [contradiction|].
      apply T; [apply over_app; now split|rewrite app_length; exact Hl]. }
    assert (CT : forall q, canonical L ctx q -> exists x, conjugate fuel ctx q = Ret x).
    { intros q (W & _ & Z). unfold conjugate. destruct (hs_zero q) eqn:Zq; [eauto|]. unfold hs_zero in Zq. apply N.eqb_neq in Zq.
      destruct W as [[H _]|(W1 & W2 & W3)]; [contradiction|].
      assert (L2 : length (conj_word (rb_pc (ac_rules ctx)) (hs_ops q)) <= L) by now rewrite conj_word_length.
      destruct (pc_mode (rb_pc (ac_rules ctx))); apply T; try (now apply conj_word_over); try exact L2; [intros a Ha; apply W2; now apply in_rev|now rewrite rev_length]. }
    split.
    - intros l k a b [[Ca Pa] La] [[Cb Pb] Lb] Hl. destruct (MT a b Ca Cb ltac:(lia)) as [p Ep]. exists p. split; [exact Ep|].
      destruct (multiply_joinable L M c ctx fc Hd Hco fuel a b p (proj1 Ca) (proj1 Cb) ltac:(lia) Ep) as [_ Cp].
      destruct (multiply_phase fuel a b p Ca Cb Pa Pb ltac:(lia) Ep) as [Pp Lp]. split; [split; assumption|lia].
    - intros l a [[Ca Pa] La] Hl. destruct (CT a Ca) as [ca Ea]. exists ca. split; [exact Ea|].
      destruct (conjugate_joinable L M c ctx fc Hd Hco fuel a ca (proj1 Ca) Pa Ea) as (_ & Cc & Pc & Lc). split; [split; [split; assumption|lia]|].
      destruct (CT ca Cc) as [cca Eca]. rewrite (conjugate_involutive L M c ctx fc Hd Hco fuel fuel a ca cca Ca Pa Ea Eca) in Eca. exact Eca.
    - intros l k a b p ca cb [[Ca Pa] La] [[Cb Pb] Lb] Hl Ep Ea Eb.
      destruct (multiply_joinable L M c ctx fc Hd Hco fuel a b p (proj1 Ca) (proj1 Cb) ltac:(lia) Ep) as [_ Cp].
      destruct (conjugate_joinable L M c ctx fc Hd Hco fuel a ca (proj1 Ca) Pa Ea) as (_ & Cca & _ & Lca).
      destruct (conjugate_joinable L M c ctx fc Hd Hco fuel b cb (proj1 Cb) Pb Eb) as (_ & Ccb & _ & Lcb).
      destruct (CT p Cp) as [cp Ecp]. destruct (MT cb ca Ccb Cca ltac:(lia)) as [q Eq]. rewrite Ecp, Eq. f_equal.
      apply (conjugate_antimultiplicative L M c ctx fc Hd Hco fuel fuel fuel fuel fuel a b p cp ca cb q Ca Cb Pa Pb ltac:(lia) Ep Ecp Ea Eb Eq).
    - intros l k j a b d ab bd [[Ca Pa] La] [[Cb Pb] Lb] [[Cd Pd] Ld] Hl E1 E2.
      destruct (multiply_joinable L M c ctx fc Hd Hco fuel a b ab (proj1 Ca) (proj1 Cb) ltac:(lia) E1) as [J1 C1].
      destruct (multiply_joinable L M c ctx fc Hd Hco fuel b d bd (proj1 Cb) (proj1 Cd) ltac:(lia) E2) as [J2 C2].
      destruct (multiply_phase fuel a b ab Ca Cb Pa Pb ltac:(lia) E1) as [P1 L1].
      destruct (multiply_phase fuel b d bd Cb Cd Pb Pd ltac:(lia) E2) as [P2 L2].
      destruct (MT ab d C1 Cd ltac:(lia)) as [x Ex]. destruct (MT a bd Ca C2 ltac:(lia)) as [y Ey]. rewrite Ex, Ey. f_equal.
      destruct (multiply_joinable L M c ctx fc Hd Hco fuel ab d x (proj1 C1) (proj1 Cd) ltac:(lia) Ex) as [J3 C3].
      destruct (multiply_joinable L M c ctx fc Hd Hco fuel a bd y (proj1 Ca) (proj1 C2) ltac:(lia) Ey) as [J4 C4].
      apply (joinable_canonical_eq L M c ctx x y Hd CF C3 C4).
      apply (joinable_trans _ _ _ _ CF (joinable_sym _ _ _ J3)).
      apply (joinable_trans _ _ _ _ CF (joinable_sym _ _ _ (joinable_tmul _ _ _ _ _ J1 (joinable_refl _ (term_of d))))).
      rewrite tmul_assoc. apply (joinable_trans _ _ _ _ CF (joinable_tmul _ _ _ _ _ (joinable_refl _ (term_of a)) J2) J4).
  Qed.
  Lemma alg_star : exists n, forall fuel, n <= fuel -> star_words (multiply fuel ctx) (conjugate fuel ctx) (alg_word L c ctx) L.
  Proof.
    pose proof (proj1 (decidable_ok L M c ctx Hd)) as Hc. set (r := pc_num (rb_pc (ac_rules ctx))).
    destruct (bounded_words r L (fun w n => forall fuel, n <= fuel -> forall s, exists q, canonical_form fuel ctx w s = Ret q)) as [n Hn].
    - intros w n n' Hn K fuel F s. apply K. lia.
    - intros w O Len. assert (G : forall s, exists n, forall fuel, n <= fuel -> exists q, canonical_form fuel ctx w s = Ret q).
      { intro s. destruct (canonical_form_terminates L ctx w s Hc O Len) as (n & q & H). exists n. intros fuel F. exists q. now apply H. }
      destruct (G SPos) as [n1 G1], (G SIm) as [n2 G2], (G SNeg) as [n3 G3], (G SNegIm) as [n4 G4]. exists (n1 + n2 + n3 + n4).
      intros fuel F []; [apply G1|apply G2|apply G3|apply G4]; lia.
    - exists n. intros fuel F. apply alg_star_at. intros w s O Len. now apply (Hn w O Len fuel F).
  Qed.
End Alg.
