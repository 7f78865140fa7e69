(** Canonical translates. *)
From Coq Require Import List NArith ZArith Arith Bool Lia Sorted.
From Verif Require Import CoreModel SiteModel SiteSpec SiteBitProofs SiteShiftProofs SiteRowProofs SiteWordProofs.
Import ListNotations.

Section Generic.
  Variable wide : bool -> N -> N -> sout N.
  Variable h : hasher.
  Hypothesis Hh : hasher_ok h.
  Let n := h_qubits h.
  Variable lat : bool.
  Variable G : Type.
  Variable act : G -> nat -> nat.
  Variable unit_g : G.
  Hypothesis act_in : forall g q, q < n -> act g q < n.
  Hypothesis act_free : forall g g' q, q < n -> act g q = act g' q -> forall p, p < n -> act g p = act g' p.
  Hypothesis act_comp : forall g g', exists g2, forall q, q < n -> act g2 q = act g (act g' q).
  Hypothesis act_inv : forall g, exists g', forall q, q < n -> act g' (act g q) = q /\ act g (act g' q) = q.
  Definition gmoved (g : G) (d e : datum) : Prop := packed h e /\ forall q, q < n -> site e (act g q) = site d q.
  Hypothesis cand_ok : forall d op, packed h d -> op / 3 < n ->
    exists e g, candidate wide lat h d op = SOk e /\ gmoved g d e /\ act g (op / 3) = 0.
  Hypothesis mode : lat = negb (Nat.eqb (h_row h) 1).

  Lemma gmoved_unique g g' d e e' q : gmoved g d e -> gmoved g' d e' -> q < n -> act g q = act g' q -> e = e'.
  Proof.
    intros [P M] [P' M'] Hq E. apply (packed_ext h); auto. intros p Hp. destruct (act_inv g) as [gi Hi].
    destruct (Hi p Hp) as [_ I2]. assert (Hgp : act gi p < n) by now apply act_in.
    rewrite <- I2. rewrite M by exact Hgp. rewrite (act_free g g' q Hq E _ Hgp). symmetry. now apply M'.
  Qed.

  Definition smallest_of (d : datum) (best : option datum) (ops : word) (b : datum) : Prop :=
    (best = Some b \/ exists op, In op ops /\ candidate wide lat h d op = SOk b) /\
    (forall c, best = Some c -> (val b <= val c)%N) /\
    (forall op c, In op ops -> candidate wide lat h d op = SOk c -> (val b <= val c)%N).

  Lemma smallest_correct d : packed h d -> forall ops best, (forall op, In op ops -> op / 3 < n) ->
    (forall b, best = Some b -> packed h b) -> (best <> None \/ ops <> []) ->
    exists b, smallest wide lat h d best ops = SOk b /\ packed h b /\ smallest_of d best ops b.
  Proof.
    intros Pd. induction ops as [|op ops IH]; intros best Ho Pb Ne; cbn [smallest].
    - destruct best as [b|]; [|destruct Ne; congruence]. exists b. split; [reflexivity|]. split; [now apply Pb|].
      split; [now left|]. split; [intros c E; injection E as ->; lia|intros ? ? []].
    - destruct (cand_ok d op Pd (Ho op (or_introl eq_refl))) as (e & g & -> & M & A). pose proof M as [Pe _]. cbn [sbind].
      set (nb := match best with None => e | Some b => if less e b then e else b end).
      assert (Pn : packed h nb) by (unfold nb; destruct best as [b|]; [destruct (less e b); auto|exact Pe]).
      destruct (IH (Some nb)) as (b & E & P & [H1 [H2 H3]]).
      { intros o Hin. apply Ho. now right. }
      { intros b E. injection E as <-. exact Pn. }
      { left. discriminate. }
      exists b. split; [exact E|]. split; [exact P|].
      assert (Hc : candidate wide lat h d op = SOk e).
      { destruct (cand_ok d op Pd (Ho op (or_introl eq_refl))) as (e2 & g2 & Ec & M2 & A2).
        rewrite Ec. f_equal. apply (gmoved_unique g2 g d _ _ (op / 3)); auto; [now apply Ho; left|congruence]. }
      assert (Hle : (val nb <= val e)%N /\ forall b0, best = Some b0 -> (val nb <= val b0)%N).
      { unfold nb. destruct best as [b0|]; [|split; [lia|discriminate]].
        pose proof (Pb b0 eq_refl) as P0. apply packed_bits in P0. destruct P0 as (L0 & S0 & _). pose proof Pe as P1. apply packed_bits in P1. destruct P1 as (L1 & S1 & _).
        rewrite less_val by (try assumption; congruence). destruct (N.ltb_spec (val e) (val b0)).
        - split; [lia|]. intros b1 E1. injection E1 as <-. lia.
        - split; [lia|]. intros b1 E1. injection E1 as <-. lia. }
      destruct Hle as [Le Lb]. specialize (H2 nb eq_refl). split; [|split].
      + destruct H1 as [H1|[o [Hin Hc2]]].
        * injection H1 as <-. unfold nb. destruct best as [b0|].
          -- destruct (less e b0); [right; exists op; split; [now left|exact Hc]|now left].
          -- right. exists op. split; [now left|exact Hc].
        * right. exists o. split; [now right|exact Hc2].
      + intros c Ec. specialize (Lb c Ec). lia.
      + intros o c [<-|Hin] Hc2; [rewrite Hc in Hc2; injection Hc2 as <-; lia|]. now apply (H3 o).
  Qed.

  (** the smallest hash of a word *)
  Definition best_hash (w : word) (b : datum) : Prop :=
    exists d, site_hash h w = SOk d /\ packed h b /\ smallest_of d None w b.
  Lemma canonical_hash_correct w : pauli_word n w ->
    exists b d, canonical_hash wide h w = SOk (b, d) /\ site_hash h w = SOk d /\ packed h d /\ (forall q, site d q = letter w q) /\ packed h b /\
                (w <> [] -> smallest_of d None w b) /\ (w = [] -> b = d).
  Proof.
    intros W. destruct (site_hash_correct h w Hh W) as (d & E & P & L). destruct w as [|op w'].
    - exists (empty_hash h), (empty_hash h). split; [reflexivity|]. cbn in E. injection E as <-. split; [reflexivity|].
      split; [exact P|]. split; [exact L|]. split; [exact P|]. split; [congruence|reflexivity].
    - destruct (smallest_correct d P (op :: w') None) as (b & Eb & Pb & Sb).
      + intros o Ho. destruct W as [_ W]. apply op_qubit. now apply W.
      + discriminate.
      + right. discriminate.
      + exists b, d. unfold canonical_hash. rewrite E. cbn [sbind]. rewrite <- mode. rewrite Eb. cbn [sbind].
        split; [reflexivity|]. split; [reflexivity|]. split; [exact P|]. split; [exact L|]. split; [exact Pb|]. split; [auto|discriminate].
  Qed.

  Lemma gmoved_sym g d e : packed h d -> gmoved g d e -> exists g', gmoved g' e d.
  Proof.
    intros Pd [Pe M]. destruct (act_inv g) as [gi Hi]. exists gi. split; [exact Pd|]. intros q Hq. destruct (Hi q Hq) as [_ I2].
    rewrite <- (M (act gi q)) by now apply act_in. now rewrite I2.
  Qed.
  Lemma gmoved_trans g g' d e f : gmoved g d e -> gmoved g' e f -> exists g2, gmoved g2 d f /\ forall q, q < n -> act g2 q = act g' (act g q).
  Proof.
    intros [Pe M] [Pf M']. destruct (act_comp g' g) as [g2 H2]. exists g2. split; [|exact H2]. split; [exact Pf|].
    intros q Hq. rewrite H2 by exact Hq. rewrite M' by now apply act_in. now apply M.
  Qed.

  (** candidates of a translate are candidates *)
  Lemma candidates_move w w' d d' g op' c : pauli_word n w -> pauli_word n w' -> packed h d -> packed h d' ->
    (forall q, site d q = letter w q) -> (forall q, site d' q = letter w' q) -> gmoved g d d' -> In op' w' ->
    candidate wide lat h d' op' = SOk c -> exists op, In op w /\ candidate wide lat h d op = SOk c.
  Proof.
    intros W W' Pd Pd' Ld Ld' M Hin Hc. destruct W as [S B], W' as [S' B'].
    pose proof (op_qubit _ _ (B' _ Hin)) as Hq'.
    destruct (cand_ok d' op' Pd' Hq') as (e & g' & E & M' & A'). rewrite E in Hc. injection Hc as <-.
    destruct (act_inv g) as [gi Hi]. destruct (Hi _ Hq') as [_ I2]. set (q := act gi (op' / 3)) in *.
    assert (Hq : q < n) by now apply act_in.
    destruct M as [_ M]. pose proof (M q Hq) as Mq. rewrite I2, Ld, Ld' in Mq.
    destruct (letter_some w q) as (op & Hop & Eop & _).
    { rewrite <- Mq, (letter_in w' op' S' Hin). lia. }
    exists op. split; [exact Hop|]. destruct (cand_ok d op Pd ltac:(rewrite Eop; exact Hq)) as (e2 & g2 & E2 & M2 & A2).
    rewrite E2. f_equal. destruct (gmoved_trans g g' d d' e (conj Pd' M) M') as (g3 & M3 & H3).
    apply (gmoved_unique g2 g3 d e2 e q); auto. rewrite H3 by exact Hq. rewrite I2, A'. rewrite <- Eop. exact A2.
  Qed.

  Definition word_moved (g : G) (w w' : word) : Prop := pauli_word n w' /\ forall q, q < n -> letter w' (act g q) = letter w q.

  Lemma nil_of_letters w : pauli_word n w -> (forall q, q < n -> letter w q = 0%N) -> w = [].
  Proof.
    intros W H. apply (word_unique n); [exact W| |].
    - split; [constructor|intros op []].
    - intros q Hq. rewrite H by exact Hq. reflexivity.
  Qed.

  Lemma moved_nil g w w' : pauli_word n w -> word_moved g w w' -> w = [] -> w' = [].
  Proof.
    intros W [W' M] ->. apply nil_of_letters; [exact W'|]. intros q Hq. destruct (act_inv g) as [gi Hi].
    destruct (Hi q Hq) as [_ I2]. rewrite <- I2. rewrite M by now apply act_in. reflexivity.
  Qed.
  Lemma word_moved_sym g w w' : pauli_word n w -> word_moved g w w' -> exists g', word_moved g' w' w.
  Proof.
    intros W [W' M]. destruct (act_inv g) as [gi Hi]. exists gi. split; [exact W|]. intros q Hq. destruct (Hi q Hq) as [_ I2].
    rewrite <- (M (act gi q)) by now apply act_in. now rewrite I2.
  Qed.
  Lemma word_moved_trans g g' w w1 w2 : word_moved g w w1 -> word_moved g' w1 w2 -> exists g2, word_moved g2 w w2.
  Proof.
    intros [W1 M1] [W2 M2]. destruct (act_comp g' g) as [g2 H2]. exists g2. split; [exact W2|]. intros q Hq.
    rewrite H2 by exact Hq. rewrite M2 by now apply act_in. now apply M1.
  Qed.

  Lemma best_le w w' g b d b' d' : pauli_word n w -> pauli_word n w' -> word_moved g w w' ->
    packed h d -> packed h d' -> (forall q, site d q = letter w q) -> (forall q, site d' q = letter w' q) ->
    smallest_of d None w b -> smallest_of d' None w' b' -> (val b <= val b')%N.
  Proof.
    intros W W' [_ M] Pd Pd' Ld Ld' [_ [_ H]] [[H'|[op' [Hin Hc]]] _]; [discriminate|].
    destruct (candidates_move w w' d d' g op' b' W W' Pd Pd' Ld Ld') as (op & Hop & Hc2); auto.
    - split; [exact Pd'|]. intros q Hq. rewrite Ld, Ld'. now apply M.
    - now apply (H op).
  Qed.

  (** the canonical word *)
  Lemma wrap_canonical_correct w : pauli_word n w ->
    exists w0 b d, wrap_canonical wide h w = SOk w0 /\ canonical_hash wide h w = SOk (b, d) /\ pauli_word n w0 /\ packed h d /\ packed h b /\
                   (forall q, letter w0 q = site b q) /\ (forall q, site d q = letter w q) /\
                   (w <> [] -> smallest_of d None w b) /\ (w = [] -> b = d).
  Proof.
    intros W. destruct (canonical_hash_correct w W) as (b & d & E & _ & Pd & Ld & Pb & Sm & Nil). unfold wrap_canonical. rewrite E. cbn [sbind fst snd].
    destruct (datum_eqb b d) eqn:Eq.
    - apply datum_eqb_spec in Eq. exists w, b, d. subst b. repeat (split; auto).
    - destruct (unhash_correct h b Pb) as (w0 & E0 & W0 & L0). exists w0, b, d. repeat (split; auto); apply W0.
  Qed.

  Lemma generic_translate w : pauli_word n w -> exists w0 g, wrap_canonical wide h w = SOk w0 /\ word_moved g w w0.
  Proof.
    intros W. destruct (wrap_canonical_correct w W) as (w0 & b & d & E & _ & W0 & Pd & Pb & Lb & Ld & Sm & Nil).
    destruct w as [|op w'].
    - specialize (Nil eq_refl). subst b. exists w0, unit_g. split; [exact E|]. split; [exact W0|].
      intros q Hq. rewrite Lb, Ld. reflexivity.
    - destruct (Sm ltac:(discriminate)) as [[H|[o [Hin Hc]]] _]; [discriminate|].
      destruct (cand_ok d o Pd) as (e & g & Ee & [Pe M] & A); [apply op_qubit; apply W; exact Hin|].
      rewrite Ee in Hc. injection Hc as <-. exists w0, g. split; [exact E|]. split; [exact W0|]. intros q Hq. rewrite Lb, <- Ld. now apply M.
  Qed.

  Lemma generic_same w w' g : pauli_word n w -> word_moved g w w' -> wrap_canonical wide h w' = wrap_canonical wide h w.
  Proof.
    intros W M. pose proof M as [W' _].
    destruct (wrap_canonical_correct w W) as (w0 & b & d & E & _ & W0 & Pd & Pb & Lb & Ld & Sm & Nil).
    destruct (wrap_canonical_correct w' W') as (w0' & b' & d' & E' & _ & W0' & Pd' & Pb' & Lb' & Ld' & Sm' & Nil').
    destruct w as [|op w1].
    - rewrite (moved_nil g [] w' W M eq_refl) in *. congruence.
    - assert (Ne' : w' <> []).
      { intros ->. destruct (word_moved_sym g _ _ W M) as [gi Mi]. apply (moved_nil gi) in Mi; auto. discriminate. }
      assert (Eb : b = b').
      { specialize (Sm ltac:(discriminate)). specialize (Sm' Ne').
        pose proof Pb as Q. pose proof Pb' as Q'. apply packed_bits in Q, Q'. destruct Q as (Q1 & Q2 & _), Q' as (Q1' & Q2' & _).
        apply val_inj; auto; [congruence|]. destruct (word_moved_sym g _ _ W M) as [gi Mi].
        pose proof (best_le (op :: w1) w' g b d b' d' W W' M Pd Pd' Ld Ld' Sm Sm').
        pose proof (best_le w' (op :: w1) gi b' d' b d W' W Mi Pd' Pd Ld' Ld Sm' Sm). lia. }
      rewrite E, E'. f_equal. apply (word_unique n); auto. intros q Hq. rewrite Lb, Lb'. congruence.
  Qed.

  Lemma generic_decides w w' : pauli_word n w -> pauli_word n w' ->
    (wrap_canonical wide h w = wrap_canonical wide h w' <-> exists g, word_moved g w w').
  Proof.
    intros W W'. split.
    - intros E. destruct (generic_translate w W) as (w0 & g & E0 & M). destruct (generic_translate w' W') as (w0' & g' & E0' & M').
      rewrite E0, E0' in E. injection E as <-. destruct (word_moved_sym g' w' w0 W' M') as [gi Mi]. now apply (word_moved_trans g gi w w0 w').
    - intros [g M]. symmetry. now apply (generic_same w w' g).
  Qed.

  Lemma generic_is_canonical w : pauli_word n w ->
    exists r, wrap_is_canonical wide h w = SOk r /\ (r = true <-> wrap_canonical wide h w = SOk w).
  Proof.
    intros W. destruct (wrap_canonical_correct w W) as (w0 & b & d & E & Eh & W0 & Pd & Pb & Lb & Ld & _ & _).
    unfold wrap_is_canonical. rewrite Eh. cbn [sbind fst snd]. eexists. split; [reflexivity|]. rewrite datum_eqb_spec. split.
    - intros ->. rewrite E. f_equal. apply (word_unique n); auto. intros q Hq. now rewrite Lb, Ld.
    - intros E2. rewrite E in E2. injection E2 as ->. apply (packed_ext h); auto. intros q Hq. now rewrite <- Lb, Ld.
  Qed.

  (** what is chosen: an operator sits at qubit 0, and no other such translate comes earlier *)
  Lemma generic_minimal w : pauli_word n w -> w <> [] ->
    exists w0, wrap_canonical wide h w = SOk w0 /\ letter w0 0 <> 0%N /\
    forall g w', word_moved g w w' -> letter w' 0 <> 0%N -> w' <> w0 ->
      exists q, q < n /\ (letter w0 q < letter w' q)%N /\ forall t, q < t -> letter w0 t = letter w' t.
  Proof.
    intros W Ne. destruct (wrap_canonical_correct w W) as (w0 & b & d & E & _ & W0 & Pd & Pb & Lb & Ld & Sm & _). specialize (Sm Ne).
    exists w0. split; [exact E|]. pose proof Hh as (Npos & _). fold n in Npos.
    destruct Sm as [[H|[o [Hin Hc]]] [_ Min]]; [discriminate|]. split.
    - destruct (cand_ok d o Pd) as (e & g & Ee & [Pe M] & A); [apply op_qubit; apply W; exact Hin|].
      rewrite Ee in Hc. injection Hc as <-. rewrite Lb. rewrite <- A. rewrite M by (apply op_qubit; apply W; exact Hin). rewrite Ld.
      destruct W as [S _]. rewrite (letter_in w o S Hin). lia.
    - intros g w' [W' M] L0 Ne'. destruct (site_hash_correct h w' Hh W') as (d' & E' & Pd' & Ld').
      assert (G' : gmoved g d d') by (split; [exact Pd'|]; intros q Hq; rewrite Ld, Ld'; now apply M).
      destruct (act_inv g) as [gi Hi]. destruct (Hi 0 Npos) as [_ I2]. assert (Hq : act gi 0 < n) by now apply act_in.
      destruct (letter_some w (act gi 0)) as (op & Hop & Eop & _).
      { rewrite <- M by exact Hq. rewrite I2. exact L0. }
      destruct (cand_ok d op Pd ltac:(rewrite Eop; exact Hq)) as (e & g2 & E2 & M2 & A2).
      assert (e = d').
      { apply (gmoved_unique g2 g d e d' (op / 3)); auto; [rewrite Eop; exact Hq|]. rewrite A2, Eop, I2. reflexivity. }
      subst e. pose proof (Min op d' Hop E2) as Le.
      pose proof Pb as Q. pose proof Pd' as Q'. apply packed_bits in Q, Q'. destruct Q as (Q1 & Q2 & _), Q' as (Q1' & Q2' & _).
      assert (Nd : b <> d').
      { intros ->. apply Ne'. apply (word_unique n); auto. intros q _. now rewrite Lb, <- Ld'. }
      assert (Lt : less b d' = true).
      { rewrite less_val by (try assumption; congruence). apply N.ltb_lt. assert (val b <> val d') by (intros Ev; apply Nd; apply val_inj; auto; congruence). lia. }
      apply (proj1 (less_sites h b d' Pb Pd')) in Lt. destruct Lt as (q & Hqn & C & Hq2). exists q.
      split; [exact Hqn|]. rewrite !Lb, <- Ld'. split; [exact C|]. intros t Ht. rewrite Lb, <- Ld'. now apply Hq2.
  Qed.
End Generic.
