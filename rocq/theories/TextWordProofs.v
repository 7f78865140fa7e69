(** Proofs about texts of words: different words have different texts. *)
From Coq Require Import NArith ZArith Arith Bool Ascii String List Lia.
From Verif Require Import CoreModel AlgModel LocModel LocSpec LocNumberProofs InfModel InfSpec InfFinalProofs TextModel TextSpec TextProofs TextNameProofs TextTableProofs.
Import ListNotations.
Local Open Scope list_scope.

Definition starts (P : ascii -> bool) (u : text) : Prop := match u with [] => False | c :: _ => P c = true end.
Lemma map_inj_on {X} (D : nat -> Prop) (f : nat -> X) : (forall a b, D a -> D b -> f a = f b -> a = b) -> forall w w', Forall D w -> Forall D w' -> map f w = map f w' -> w = w'.
Proof.
  intros H. induction w as [|a w IH]; intros [|b w'] F F' E; try discriminate; [reflexivity|]. inversion F; inversion F'; subst. injection E as E1 E2. f_equal; auto.
Qed.
Lemma words_join (D : nat -> Prop) (f : nat -> text) : (forall a b, D a -> D b -> f a = f b -> a = b) -> (forall a, D a -> lacks ";" (f a)) ->
  forall w w', Forall D w -> Forall D w' -> w <> [] -> w' <> [] -> join (tx ";") (map f w) = join (tx ";") (map f w') -> w = w'.
Proof.
  intros H L w w' F F' N N' E. change (tx ";") with [";"%char] in E. apply join_inj in E.
  - revert E. now apply (map_inj_on D).
  - apply Forall_map. eapply Forall_impl; [|exact F]. exact L.
  - apply Forall_map. eapply Forall_impl; [|exact F']. exact L.
  - destruct w; [congruence|discriminate].
  - destruct w'; [congruence|discriminate].
Qed.
Lemma join_starts P sep (f : nat -> text) a w : starts P (f a) -> starts P (join sep (map f (a :: w))).
Proof. cbn [map]. destruct (f a) as [|c r] eqn:E; [intros []|]. intros H. destruct (map f w); exact H. Qed.
Lemma braces_inj b u u' : in_braces b u = in_braces b u' -> u = u'.
Proof. destruct b; cbn; [|auto]. intros E. injection E as E. now apply app_inj_tail in E. Qed.
Definition not_sign (c : ascii) : bool := negb (Ascii.eqb c "-" || Ascii.eqb c "i").
Definition not_minus (c : ascii) : bool := negb (Ascii.eqb c "-").
Lemma braces_starts b u : starts not_sign u -> starts not_sign (in_braces b u). Proof. destruct b; [reflexivity|auto]. Qed.
Lemma braces_starts_minus b u : starts not_minus u -> starts not_minus (in_braces b u). Proof. destruct b; [reflexivity|auto]. Qed.
Lemma sign_inj s s' u u' : starts not_sign u -> starts not_sign u' -> sign_text s ++ u = sign_text s' ++ u' -> s = s' /\ u = u'.
Proof.
  destruct u as [|c u]; [intros []|]. destruct u' as [|c' u']; [intros _ []|]. unfold starts. intros S S' E.
  destruct s, s'; cbn in E; try (split; congruence); injection E as E; subst; cbn in S, S'; try discriminate; injection H as H; subst; discriminate.
Qed.
Lemma real_sign_inj s s' u u' : real_sign s -> real_sign s' -> starts not_minus u -> starts not_minus u' -> sign_text s ++ u = sign_text s' ++ u' -> s = s' /\ u = u'.
Proof.
  destruct u as [|c u]; [intros _ _ []|]. destruct u' as [|c' u']; [intros _ _ _ []|]. unfold starts.
  intros [-> | ->] [-> | ->] S S' E; cbn in E; try (split; congruence); injection E as E; subst; discriminate.
Qed.
Lemma letter_not_minus c : is_letter c = true -> not_minus c = true.
Proof. intros H. unfold not_minus. destruct (Ascii.eqb_spec c "-") as [->|]; [discriminate|reflexivity]. Qed.
Lemma starts_impl (P Q : ascii -> bool) u : (forall c, P c = true -> Q c = true) -> starts P u -> starts Q u.
Proof. destruct u; cbn; auto. Qed.
Lemma negated_inj n n' u u' : starts not_minus u -> starts not_minus u' -> (if n : bool then tx "-" else []) ++ u = (if n' : bool then tx "-" else []) ++ u' -> n = n' /\ u = u'.
Proof.
  destruct u as [|c u]; [intros []|]. destruct u' as [|c' u']; [intros _ []|]. unfold starts.
  destruct n, n'; intros S S' E; cbn in E; try (split; congruence); injection E as E; subst; discriminate.
Qed.

(** * Algebraic words *)
Section Algebraic.
  Variables moved self_moved : text -> text.
  Variables (mode : conj_mode) (raw : nat) (l : list text) (t : names).
  Hypothesis T : name_table moved self_moved mode raw l = Some t.
  Hypothesis H : mode <> Interleaved \/ (forall n, self_moved n = n).
  Notation D := (fun o => o < pc_num (mk_pc raw mode)).
  Lemma names_inj a b : D a -> D b -> nth a (nm_names t) [] = nth b (nm_names t) [] -> a = b.
  Proof.
    intros A B E. pose proof (t_round moved self_moved mode raw l t T a A) as Ra. pose proof (t_round moved self_moved mode raw l t T b B) as Rb.
    rewrite (text_at moved self_moved mode raw l t T) in Ra, Rb by assumption. rewrite E in Ra. rewrite Ra in Rb by tauto. specialize (Rb ltac:(tauto)). congruence.
  Qed.
  Lemma piece_starts a : D a -> starts is_letter (nth a (nm_names t) []).
  Proof.
    intros A. destruct (piece moved self_moved mode raw l t T a A H) as [n [[c [r [-> [G _]]]] [-> | ->]]]; cbn; now apply letter_spec.
  Qed.
  Lemma piece_lacks a : D a -> lacks ";" (nth a (nm_names t) []).
  Proof.
    intros A. destruct (piece moved self_moved mode raw l t T a A H) as [n [G [-> | ->]]]; apply valid_spec, valid_chars in G.
    - now apply (lacks_by in_name).
    - apply lacks_app; [now apply (lacks_by in_name)|reflexivity].
  Qed.
  Lemma piece_single a : nm_single t = true -> D a -> exists c, is_letter c = true /\ (nth a (nm_names t) [] = [c] \/ nth a (nm_names t) [] = [c; "*"%char]).
  Proof.
    intros S A. destruct (proj2 (names_spec moved self_moved mode raw l t T) a A) as [i [n [F E]]].
    pose proof (nth_error_In _ _ F) as I. destruct (single_all moved self_moved mode raw l t T S n I) as [c ->].
    pose proof (good_at moved self_moved mode raw l t T i _ F) as [c' [r [Ec [G _]]]]. injection Ec as <- <-. exists c. split; [now apply letter_spec|].
    destruct E as [[_ ->]|[_ ->]]; [left|right; reflexivity]. destruct (Nat.eqb a 0); [|reflexivity]. destruct mode; auto. destruct H as [G'|G']; [congruence|apply G'].
  Qed.
  Lemma concat_inj : nm_single t = true -> forall w w', Forall D w -> Forall D w' ->
    concat (map (fun o => nth o (nm_names t) []) w) = concat (map (fun o => nth o (nm_names t) []) w') -> w = w'.
  Proof.
    intros S. assert (Hs : forall w r, Forall D w -> concat (map (fun o => nth o (nm_names t) []) w) = "*"%char :: r -> False).
    { intros [|a w] r F E; [discriminate|]. inversion F; subst. destruct (piece_single a S H2) as [c [L [P|P]]]; cbn [map concat] in E; rewrite P in E; injection E as -> _; discriminate. }
    induction w as [|a w IH]; intros [|b w'] F F' E; auto.
    - inversion F'; subst. destruct (piece_single b S H2) as [c [L [P|P]]]; cbn [map concat] in E; rewrite P in E; discriminate.
    - inversion F; subst. destruct (piece_single a S H2) as [c [L [P|P]]]; cbn [map concat] in E; rewrite P in E; discriminate.
    - inversion F; inversion F'; subst. cbn [map concat] in E.
      destruct (piece_single a S H2) as [c [L P]]. destruct (piece_single b S H6) as [c' [L' P']].
      assert (K : nth a (nm_names t) [] = nth b (nm_names t) [] /\ concat (map (fun o => nth o (nm_names t) []) w) = concat (map (fun o => nth o (nm_names t) []) w')).
      { destruct P as [P|P], P' as [P'|P']; rewrite P, P' in *; cbn [app] in E; injection E as -> E; auto.
        - exfalso. now apply (Hs w _ H3 E).
        - exfalso. symmetry in E. now apply (Hs w' _ H7 E). }
      destruct K as [K1 K2]. f_equal; [now apply names_inj|auto].
  Qed.
  Lemma word_inj w w' : Forall D w -> Forall D w' -> w <> [] -> w' <> [] -> alg_word_text t w = alg_word_text t w' -> w = w'.
  Proof.
    intros F F' N N'. unfold alg_word_text. destruct (nm_single t) eqn:S; [now apply concat_inj|].
    assert (M : forall q, Forall D q -> map (operator_text t) q = map (fun o => nth o (nm_names t) []) q).
    { intros q Fq. apply map_ext_in. intros o I. apply (text_at moved self_moved mode raw l t T). rewrite Forall_forall in Fq. now apply Fq. }
    rewrite (M w F), (M w' F'). apply (words_join D); auto; [exact names_inj|exact piece_lacks].
  Qed.
  Lemma word_starts w : Forall D w -> w <> [] -> starts is_letter (alg_word_text t w).
  Proof.
    intros F N. destruct w as [|a w]; [congruence|]. inversion F; subst. pose proof (piece_starts a H2) as P. unfold alg_word_text. destruct (nm_single t).
    - cbn [map concat]. destruct (nth a (nm_names t) []); [destruct P|exact P].
    - apply join_starts. now rewrite (text_at moved self_moved mode raw l t T).
  Qed.
  Lemma t_words b s s' w w' : Forall D w -> Forall D w' -> w <> [] -> w' <> [] -> b = true \/ s = s' \/ (real_sign s /\ real_sign s') ->
    alg_text t b s w = alg_text t b s' w' -> s = s' /\ w = w'.
  Proof.
    intros F F' N N' C E. pose proof (word_starts w F N) as S. pose proof (word_starts w' F' N') as S'.
    assert (E' : sign_text s ++ in_braces b (alg_word_text t w) = sign_text s' ++ in_braces b (alg_word_text t w')) by (destruct w, w'; [congruence..|exact E]).
    assert (G : s = s' /\ in_braces b (alg_word_text t w) = in_braces b (alg_word_text t w')).
    { destruct C as [->|[->|[R R']]].
      - now apply sign_inj in E'.
      - apply app_inv_head in E'. auto.
      - apply real_sign_inj in E'; auto; apply braces_starts_minus; (eapply starts_impl; [apply letter_not_minus|assumption]). }
    destruct G as [-> G]. apply braces_inj in G. split; [reflexivity|]. now apply word_inj.
  Qed.
  Lemma t_not_number b s w : Forall D w -> w <> [] -> alg_text t b s w <> tx "1" /\ alg_text t b s w <> tx "0".
  Proof.
    intros F N. pose proof (word_starts w F N) as S. destruct w as [|a w]; [congruence|]. cbn [alg_text]. destruct (alg_word_text t (a :: w)) as [|c r]; [destruct S|].
    split; intros E; destruct s, b; cbn in E; try discriminate; injection E as -> ; cbn in S; discriminate.
  Qed.
End Algebraic.

(** * Pauli words *)
Definition pauli_letter (o : nat) : ascii := match o mod 3 with 0 => "X" | 1 => "Y" | _ => "Z" end%char.
Lemma pauli_piece o : pauli_operator_text o = pauli_letter o :: dec (o / 3 + 1).
Proof. unfold pauli_operator_text, pauli_letter. destruct (o mod 3) as [|[|n]]; reflexivity. Qed.
Lemma pauli_letter_not o : is_digit (pauli_letter o) = false /\ not_sign (pauli_letter o) = true /\ pauli_letter o <> "I"%char.
Proof. unfold pauli_letter. destruct (o mod 3) as [|[|n]]; repeat split; discriminate. Qed.
Lemma pauli_letter_inj a b : pauli_letter a = pauli_letter b -> a mod 3 = b mod 3.
Proof.
  unfold pauli_letter. pose proof (Nat.mod_upper_bound a 3 ltac:(lia)). pose proof (Nat.mod_upper_bound b 3 ltac:(lia)).
  destruct (a mod 3) as [|[|[|?]]], (b mod 3) as [|[|[|?]]]; try lia; try discriminate; reflexivity.
Qed.
Lemma pauli_stops w : stops is_digit (concat (map pauli_operator_text w)).
Proof. destruct w as [|a w]; [exact I|]. cbn [map concat]. rewrite pauli_piece. cbn. apply pauli_letter_not. Qed.
Lemma pauli_concat : forall w w', concat (map pauli_operator_text w) = concat (map pauli_operator_text w') -> w = w'.
Proof.
  induction w as [|a w IH]; intros [|b w'] E; auto; cbn [map concat] in E; rewrite ?pauli_piece in E; try discriminate.
  cbn [app] in E. injection E as E1 E2. apply (span is_digit) in E2; auto using dec_digits, pauli_stops. destruct E2 as [E2 E3]. apply dec_inj in E2. apply pauli_letter_inj in E1. f_equal; [|auto].
  rewrite (Nat.div_mod a 3 ltac:(lia)) at 1. apply Nat.add_cancel_r in E2. change (a / 3 = b / 3) in E2. rewrite E1, E2. symmetry. apply Nat.div_mod. lia.
Qed.
Lemma t_pauli b s s' w w' : pauli_text b s w = pauli_text b s' w' -> s = s' /\ w = w'.
Proof.
  unfold pauli_text. set (u := fun w => match w with [] => tx "I" | _ => concat (map pauli_operator_text w) end).
  change (sign_text s ++ in_braces b (u w) = sign_text s' ++ in_braces b (u w') -> s = s' /\ w = w').
  assert (S : forall w, starts not_sign (u w)). { intros [|a q]; [reflexivity|]. unfold u. cbn [map concat]. rewrite pauli_piece. cbn [app starts]. apply pauli_letter_not. }
  intros E. apply sign_inj in E; [|apply braces_starts, S..]. destruct E as [-> E]. split; [reflexivity|]. apply braces_inj in E.
  destruct w as [|a w], w' as [|a' w']; auto; unfold u in E; cbn [map concat] in E; rewrite ?pauli_piece in E; try discriminate.
  - injection E as E _. symmetry in E. now apply pauli_letter_not in E.
  - injection E as E _. now apply pauli_letter_not in E.
  - apply pauli_concat. cbn [map concat]. now rewrite !pauli_piece.
Qed.
Lemma t_pauli_zero b s w : pauli_text b s w <> tx "0".
Proof.
  unfold pauli_text. intros E. destruct s, b; try discriminate; destruct w as [|a w]; try discriminate; cbn [map concat in_braces sign_text app] in E; rewrite pauli_piece in E; injection E as E _; unfold pauli_letter in E; destruct (a mod 3) as [|[|?]]; discriminate.
Qed.
