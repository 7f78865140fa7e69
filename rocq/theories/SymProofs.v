(** The symbol table: registration. *)
From Coq Require Import List NArith ZArith Arith Bool Lia.
From Verif Require Import CoreModel CoreSpec CoreProofs FieldModel FieldProofs SymModel SymSpec.
Import ListNotations.

Lemma hfind_app h m m' : hfind h (m ++ m') = match hfind h m with Some v => Some v | None => hfind h m' end.
Proof. induction m as [|[k v] m IH]; cbn; [reflexivity|]. destruct (N.eqb k h); auto. Qed.
Lemma hfind_emplace h v m k : hfind k (hemplace h v m) = match hfind k m with Some x => Some x | None => if N.eqb h k then Some v else None end.
Proof.
  unfold hemplace. destruct (hfind h m) as [x|] eqn:E.
  - destruct (hfind k m) eqn:K; [reflexivity|]. destruct (N.eqb_spec h k); [subst; congruence|reflexivity].
  - rewrite hfind_app. destruct (hfind k m); [reflexivity|]. reflexivity.
Qed.
Lemma nth_error_snoc {A} (l : list A) x i : nth_error (l ++ [x]) i = if Nat.eqb i (length l) then Some x else nth_error l i.
Proof.
  destruct (Nat.eqb_spec i (length l)) as [->|N].
  - rewrite nth_error_app2 by lia. now rewrite Nat.sub_diag.
  - destruct (lt_dec i (length l)); [now rewrite nth_error_app1|]. rewrite (proj2 (nth_error_None l i)) by lia. apply nth_error_None. rewrite app_length. cbn. lia.
Qed.
Lemma pos_pos q : pos (pos q) = pos q. Proof. reflexivity. Qed.
Lemma pos_hash q : hs_hash (pos q) = hs_hash q. Proof. reflexivity. Qed.
Lemma pos_eq a b : hs_hash a = hs_hash b -> hs_ops a = hs_ops b -> pos a = pos b.
Proof. unfold pos, set_sign. intros -> ->. reflexivity. Qed.

Section Hist.
  Variable c : sctx.
  Variable V : hseq -> Prop.
  Hypothesis LW : lawful c V.
  (** hash of the conjugate *)
  Definition ch (q : hseq) : N := hs_hash (cx_conj c q).
  Lemma conj_phase_hash q : V q -> ch q = ch (pos q).
  Proof. intro H. unfold ch. rewrite (lw_phase c V LW q H). reflexivity. Qed.
  Lemma conj_phase_ops q : V q -> hs_ops (cx_conj c q) = hs_ops (cx_conj c (pos q)).
  Proof. intro H. rewrite (lw_phase c V LW q H). reflexivity. Qed.
  Lemma same_pos a b : V a -> V b -> hs_hash a = hs_hash b -> pos a = pos b.
  Proof. intros A B H. apply pos_eq; [exact H|]. now apply (lw_hash c V LW). Qed.
  Lemma ch_congr a b : V a -> V b -> hs_hash a = hs_hash b -> ch a = ch b.
  Proof. intros A B H. rewrite (conj_phase_hash a), (conj_phase_hash b) by assumption. now rewrite (same_pos a b). Qed.
  Lemma ch_invol a b : V a -> V b -> hs_hash a = ch b -> ch a = hs_hash b.
  Proof. intros A B H. rewrite (ch_congr a (cx_conj c b)); [|assumption|now apply (lw_conj c V LW)|exact H]. unfold ch. now rewrite (lw_invol c V LW). Qed.

  Record hinv (t : table) : Prop := mk_hinv {
    hi_zero : symbol_word t 0 = Some (hseq_const true);
    hi_one : symbol_word t 1 = Some (hseq_const false);
    hi_id : forall i s, nth_error (t_syms t) i = Some s -> sy_id s = i;
    hi_seq : forall i q, symbol_word t i = Some q -> V q /\ hfind (hs_hash q) (t_hash t) = Some (Z.of_nat i) /\
       hfind (ch q) (t_hash t) = Some (if N.eqb (ch q) (hs_hash q) then Z.of_nat i else (- Z.of_nat i)%Z);
    hi_tab : forall h v, hfind h (t_hash t) = Some v -> exists q, symbol_word t (Z.abs_nat v) = Some q /\
       if Z.leb 0 v then hs_hash q = h else ch q = h /\ hs_hash q <> h }.
  Lemma hinv_len t : hinv t -> 2 <= length (t_syms t).
  Proof.
    intro H. pose proof (hi_one t H) as W. unfold symbol_word in W. destruct (nth_error (t_syms t) 1) eqn:E; [|discriminate].
    assert (1 < length (t_syms t)); [apply nth_error_Some; congruence|lia].
  Qed.
  Lemma word_len t i q : symbol_word t i = Some q -> i < length (t_syms t).
  Proof. unfold symbol_word. destruct (nth_error (t_syms t) i) eqn:E; [|discriminate]. intros _. apply nth_error_Some. congruence. Qed.

  (** a symbol fit for merging, seen through its word *)
  Definition symbol_of (s : symbol) (q : hseq) : Prop :=
    sy_seq s = Some q /\ V q /\ sy_hash s = Some (hs_hash q) /\ (exists hc, sy_hash_conj s = Some hc /\ (sy_herm s = false -> hc = ch q)) /\
    (sy_herm s = true -> ch q = hs_hash q).
  Lemma symbol_ok_of s : symbol_ok c V s -> exists q, symbol_of s q.
  Proof.
    intros [| |q Vq E|q Vq].
    - exists (hseq_const true). destruct (lw_zero c V LW) as [Z C]. unfold symbol_of; cbn. repeat split; try tauto.
      + eexists; split; [reflexivity|discriminate].
      + intros _. unfold ch. now rewrite C.
    - exists (hseq_const false). destruct (lw_one c V LW) as [Z C]. unfold symbol_of; cbn. repeat split; try tauto.
      + eexists; split; [reflexivity|discriminate].
      + intros _. unfold ch. now rewrite C.
    - exists q. unfold symbol_of; cbn. repeat split; try tauto. eexists; split; [reflexivity|discriminate].
    - exists (pos q). unfold symbol_of, symbol_pair; cbn [sy_seq sy_herm sy_hash sy_hash_conj sy_conj option_map]. repeat split.
      + now apply (lw_pos c V LW).
      + eexists; split; [reflexivity|]. intros _. cbn. now rewrite <- conj_phase_hash.
      + intro H. rewrite <- conj_phase_hash by exact Vq. apply Z.eqb_eq in H. unfold hs_compare_same_negation in H. cbn in H.
        unfold ch. destruct (N.eqb_spec (hs_hash q) (hs_hash (cx_conj c q))) as [E|E]; [now symmetry|discriminate].
  Qed.
  Lemma merge_symbol_new t s q t' id : hinv t -> symbol_of s q -> hfind (hs_hash q) (t_hash t) = None -> merge_symbol t s = Done t' id ->
    id = length (t_syms t) /\ (exists re im, t_syms t' = t_syms t ++ [mk_symbol id (sy_seq s) (sy_conj s) (sy_herm s) (sy_anti s) re im]) /\
    (forall k, hfind k (t_hash t') = match hfind k (t_hash t) with Some x => Some x | None =>
       if N.eqb (hs_hash q) k then Some (Z.of_nat id) else if N.eqb (ch q) k then Some (- Z.of_nat id)%Z else None end).
  Proof.
    intros I (Q & Vq & H & (hc & Hc & C) & R) F E. unfold merge_symbol in E. rewrite H, Hc, F in E. cbn [basis_push] in E. injection E as <- <-.
    split; [reflexivity|]. split; [do 2 eexists; reflexivity|]. intro k. cbn [push_symbol set_hash t_hash].
    destruct (sy_herm s) eqn:S.
    - rewrite hfind_emplace. destruct (hfind k (t_hash t)); [reflexivity|]. rewrite R by reflexivity. destruct (N.eqb (hs_hash q) k); reflexivity.
    - rewrite (C eq_refl). rewrite !hfind_emplace. destruct (hfind k (t_hash t)); [reflexivity|]. now destruct (N.eqb (hs_hash q) k).
  Qed.
  Lemma merge_symbol_found t s q v : hinv t -> symbol_of s q -> hfind (hs_hash q) (t_hash t) = Some v -> merge_symbol t s = Done t (Z.abs_nat v).
  Proof.
    intros I (Q & Vq & H & (hc & Hc & C) & R) F. unfold merge_symbol. rewrite H, Hc, F. destruct (hi_tab t I _ _ F) as (w & W & _).
    unfold symbol_word in W. destruct (nth_error (t_syms t) (Z.abs_nat v)) as [s'|] eqn:N; [|discriminate]. now rewrite (hi_id t I _ _ N).
  Qed.
  (** no word can be new while its conjugate is known *)
  Lemma new_conj_new t q : hinv t -> V q -> hfind (hs_hash q) (t_hash t) = None -> hfind (ch q) (t_hash t) = None.
  Proof.
    intros I Vq F. destruct (hfind (ch q) (t_hash t)) as [v|] eqn:G; [|reflexivity]. exfalso.
    destruct (hi_tab t I _ _ G) as (w & W & D). destruct (hi_seq t I _ _ W) as (Vw & H1 & H2). destruct (Z.leb 0 v).
    - apply ch_invol in D; [|assumption..]. rewrite D in H2. congruence.
    - destruct D as [D _]. symmetry in D. assert (K : ch (cx_conj c q) = ch (cx_conj c w)).
      { apply ch_congr; [now apply (lw_conj c V LW)..|exact D]. }
      unfold ch in K. rewrite !(lw_invol c V LW) in K by assumption. congruence.
  Qed.
  Lemma word_snoc t t' s i : t_syms t' = t_syms t ++ [s] -> symbol_word t' i = if Nat.eqb i (length (t_syms t)) then sy_seq s else symbol_word t i.
  Proof. intro E. unfold symbol_word. rewrite E, nth_error_snoc. now destruct (Nat.eqb i (length (t_syms t))). Qed.
  Lemma merge_symbol_hinv t s q t' id : hinv t -> symbol_of s q -> merge_symbol t s = Done t' id ->
    hinv t' /\ (exists v, hfind (hs_hash q) (t_hash t') = Some v /\ Z.abs_nat v = id).
  Proof.
    intros I S E. destruct (hfind (hs_hash q) (t_hash t)) as [v|] eqn:F.
    - rewrite (merge_symbol_found t s q v I S F) in E. injection E as <- <-. split; [exact I|eauto].
    - destruct (merge_symbol_new t s q t' id I S F E) as (L & (re & im & Y) & H). pose proof S as (Q & Vq & _).
      pose proof (new_conj_new t q I Vq F) as G. pose proof (hinv_len t I) as Len.
      assert (W : forall i, symbol_word t' i = if Nat.eqb i id then Some q else symbol_word t i).
      { intro i. rewrite (word_snoc t t' _ i Y). rewrite L. cbn [sy_seq]. now rewrite Q. }
      assert (Keep : forall h v, hfind h (t_hash t) = Some v -> hfind h (t_hash t') = Some v) by (intros h v K; rewrite H, K; reflexivity).
      split; [|rewrite H, F, N.eqb_refl; eexists; split; [reflexivity|now rewrite Zabs2Nat.id]].
      split.
      + rewrite W. destruct (Nat.eqb_spec 0 id); [lia|apply (hi_zero t I)].
      + rewrite W. destruct (Nat.eqb_spec 1 id); [lia|apply (hi_one t I)].
      + intros i x N. rewrite Y, nth_error_snoc, <- L in N. destruct (Nat.eqb_spec i id) as [->|D]; [injection N as <-; reflexivity|now apply (hi_id t I)].
      + intros i x N. rewrite W in N. destruct (Nat.eqb_spec i id) as [->|D].
        * injection N as <-. split; [exact Vq|]. rewrite !H, F, G, N.eqb_refl. split; [reflexivity|]. rewrite (N.eqb_sym (ch q) (hs_hash q)). destruct (N.eqb (hs_hash q) (ch q)); [reflexivity|]. now rewrite N.eqb_refl.
        * destruct (hi_seq t I i x N) as (A & B & C). auto.
      + intros h v K. rewrite H in K. destruct (hfind h (t_hash t)) as [x|] eqn:T.
        * injection K as <-. destruct (hi_tab t I h x T) as (w & Ww & D). exists w. split; [|exact D]. rewrite W.
          pose proof (word_len _ _ _ Ww). destruct (Nat.eqb_spec (Z.abs_nat x) id); [lia|exact Ww].
        * destruct (N.eqb_spec (hs_hash q) h) as [E1|E1]; [|destruct (N.eqb_spec (ch q) h) as [E2|E2]; [|discriminate]]; injection K as <-.
          -- exists q. rewrite Zabs2Nat.id, W, Nat.eqb_refl. split; [reflexivity|]. destruct (Z.leb_spec 0 (Z.of_nat id)); [exact E1|lia].
          -- exists q. replace (Z.abs_nat (- Z.of_nat id)) with id by lia. rewrite W, Nat.eqb_refl. split; [reflexivity|]. destruct (Z.leb_spec 0 (- Z.of_nat id)); [lia|auto].
  Qed.
  Lemma merge_symbol_total t s q : hinv t -> symbol_of s q -> exists t' id, merge_symbol t s = Done t' id.
  Proof.
    intros I S. destruct (hfind (hs_hash q) (t_hash t)) as [v|] eqn:F.
    - rewrite (merge_symbol_found t s q v I S F). eauto.
    - destruct S as (Q & Vq & H & (hc & Hc & C) & R). unfold merge_symbol. rewrite H, Hc, F. cbn [basis_push]. eauto.
  Qed.
  (** growth: symbols keep their words and the hash table keeps its entries *)
  Definition grows (t t' : table) : Prop :=
    (forall i s, nth_error (t_syms t) i = Some s -> exists s', nth_error (t_syms t') i = Some s' /\ sy_id s' = sy_id s /\ sy_seq s' = sy_seq s /\ sy_conj s' = sy_conj s) /\
    (forall h v, hfind h (t_hash t) = Some v -> hfind h (t_hash t') = Some v).
  Lemma grows_refl t : grows t t. Proof. split; [|auto]. intros i s H. exists s. auto. Qed.
  Lemma grows_trans a b d : grows a b -> grows b d -> grows a d.
  Proof.
    intros [A1 A2] [B1 B2]. split; [|auto]. intros i s H. destruct (A1 i s H) as (s1 & H1 & E1 & E2 & E3).
    destruct (B1 i s1 H1) as (s2 & H2 & F1 & F2 & F3). exists s2. repeat split; congruence.
  Qed.
  Lemma grows_word t t' i q : grows t t' -> symbol_word t i = Some q -> symbol_word t' i = Some q.
  Proof.
    intros [G _] H. unfold symbol_word in *. destruct (nth_error (t_syms t) i) as [s|] eqn:E; [|discriminate].
    destruct (G i s E) as (s' & -> & _ & -> & _). exact H.
  Qed.
  Lemma merge_symbol_grows t s q t' id : hinv t -> symbol_of s q -> merge_symbol t s = Done t' id -> grows t t'.
  Proof.
    intros I S E. destruct (hfind (hs_hash q) (t_hash t)) as [v|] eqn:F.
    - rewrite (merge_symbol_found t s q v I S F) in E. injection E as <- <-. apply grows_refl.
    - destruct (merge_symbol_new t s q t' id I S F E) as (L & (re & im & Y) & H). split.
      + intros i x N. exists x. rewrite Y, nth_error_snoc. assert (i < length (t_syms t)) by (apply nth_error_Some; congruence).
        destruct (Nat.eqb_spec i (length (t_syms t))); [lia|auto].
      + intros h v K. now rewrite H, K.
  Qed.
  Lemma merge_symbols_step l : forall t, hinv t -> Forall (symbol_ok c V) l -> exists t' ids, merge_symbols t l = Done t' ids /\ hinv t' /\ grows t t'.
  Proof.
    induction l as [|s l IH]; intros t I F; [exists t, []; split; [reflexivity|split; [exact I|apply grows_refl]]|].
    inversion F as [|? ? Hs Hl]; subst. destruct (symbol_ok_of s Hs) as [q S]. destruct (merge_symbol_total t s q I S) as (t1 & id & E).
    destruct (merge_symbol_hinv t s q t1 id I S E) as [I1 _]. pose proof (merge_symbol_grows t s q t1 id I S E) as G1.
    destruct (IH t1 I1 Hl) as (t2 & ids & E2 & I2 & G2). cbn. rewrite E, E2. exists t2, (id :: ids). split; [reflexivity|]. split; [exact I2|]. now apply (grows_trans t t1).
  Qed.
  (** changes that leave words and hashes alone *)
  Definition same_words (l l' : list symbol) : Prop := Forall2 (fun s s' => sy_id s' = sy_id s /\ sy_seq s' = sy_seq s /\ sy_conj s' = sy_conj s) l l'.
  Lemma same_words_refl l : same_words l l. Proof. unfold same_words. induction l; constructor; auto. Qed.
  Lemma same_words_app a b a' b' : same_words a a' -> same_words b b' -> same_words (a ++ b) (a' ++ b').
  Proof. apply Forall2_app. Qed.
  Lemma same_words_nth l l' : same_words l l' -> forall i, match nth_error l i, nth_error l' i with
     | Some s, Some s' => sy_id s' = sy_id s /\ sy_seq s' = sy_seq s /\ sy_conj s' = sy_conj s | None, None => True | _, _ => False end.
  Proof. induction 1 as [|a b l l' H _ IH]; intro i; [destruct i; exact I|]. destruct i; cbn; [exact H|apply IH]. Qed.
  Lemma relabel_hinv t t' : same_words (t_syms t) (t_syms t') -> t_hash t' = t_hash t -> hinv t -> hinv t' /\ grows t t'.
  Proof.
    intros S H I. pose proof (same_words_nth _ _ S) as N.
    assert (W : forall i, symbol_word t' i = symbol_word t i).
    { intro i. unfold symbol_word. specialize (N i). destruct (nth_error (t_syms t) i), (nth_error (t_syms t') i); try tauto. }
    split; [split|split].
    - rewrite W. apply (hi_zero t I).
    - rewrite W. apply (hi_one t I).
    - intros i s E. specialize (N i). rewrite E in N. destruct (nth_error (t_syms t) i) as [s0|] eqn:E0; [|contradiction].
      rewrite (proj1 N). now apply (hi_id t I).
    - intros i q E. rewrite W in E. rewrite H. now apply (hi_seq t I).
    - intros h v E. rewrite H in E. destruct (hi_tab t I h v E) as (q & Q & D). exists q. rewrite W. auto.
    - intros i s E. specialize (N i). rewrite E in N. destruct (nth_error (t_syms t') i) as [s'|]; [|contradiction]. exists s'. tauto.
    - intros h v E. now rewrite H.
  Qed.
  Lemma create_hinv t r i : hinv t -> hinv (fst (create t r i)) /\ grows t (fst (create t r i)).
  Proof.
    intro I. unfold create. cbn [basis_push fst]. set (t' := push_symbol _ _).
    assert (Y : exists s, t_syms t' = t_syms t ++ [s] /\ sy_seq s = None /\ sy_id s = length (t_syms t)) by (eexists; split; [reflexivity|split; reflexivity]).
    destruct Y as (s & Y & S & ID). assert (H : t_hash t' = t_hash t) by reflexivity. clearbody t'.
    assert (W : forall j q, symbol_word t' j = Some q <-> symbol_word t j = Some q).
    { intros j q. rewrite (word_snoc t t' s j Y). destruct (Nat.eqb_spec j (length (t_syms t))) as [->|D]; [|tauto]. rewrite S. split; [discriminate|].
      intro K. apply word_len in K. lia. }
    split; [split|split].
    - apply W, (hi_zero t I).
    - apply W, (hi_one t I).
    - intros j x N. rewrite Y, nth_error_snoc in N. destruct (Nat.eqb_spec j (length (t_syms t))) as [->|D]; [injection N as <-; exact ID|now apply (hi_id t I)].
    - intros j q N. apply W in N. rewrite H. now apply (hi_seq t I).
    - intros h v E. rewrite H in E. destruct (hi_tab t I h v E) as (q & Q & D). exists q. split; [now apply W|exact D].
    - intros j x N. exists x. rewrite Y, nth_error_snoc. assert (j < length (t_syms t)) by (apply nth_error_Some; congruence).
      destruct (Nat.eqb_spec j (length (t_syms t))); [lia|auto].
    - intros h v E. now rewrite H.
  Qed.
  Lemma create_loop_hinv r i n : forall t, hinv t -> hinv (create_loop n t r i) /\ grows t (create_loop n t r i).
  Proof.
    induction n as [|n IH]; intros t I; [split; [exact I|apply grows_refl]|]. cbn [create_loop]. destruct (create_hinv t r i I) as [I1 G1].
    destruct (IH _ I1) as [I2 G2]. split; [exact I2|]. now apply (grows_trans t (fst (create t r i))).
  Qed.
  Lemma flag_loop_words re im todo : forall done ch0 l x u, flag_loop re im done todo ch0 = (l, x, u) -> exists todo', l = done ++ todo' /\ same_words todo todo'.
  Proof.
    induction todo as [|s todo IH]; intros done ch0 l x u E; cbn in E.
    - injection E as <- <- <-. exists []. split; [now rewrite app_nil_r|constructor].
    - assert (K : forall s' d, sy_id s' = sy_id s /\ sy_seq s' = sy_seq s /\ sy_conj s' = sy_conj s -> flag_loop re im (done ++ [s']) todo d = (l, x, u) ->
                  exists todo', l = done ++ todo' /\ same_words (s :: todo) todo').
      { intros s' d P Q. destruct (IH _ _ _ _ _ Q) as (td & L & S). exists (s' :: td). split; [rewrite L, <- app_assoc; reflexivity|constructor; assumption]. }
      assert (K' : forall s', sy_id s' = sy_id s /\ sy_seq s' = sy_seq s /\ sy_conj s' = sy_conj s -> done ++ s' :: todo = l ->
                  exists todo', l = done ++ todo' /\ same_words (s :: todo) todo').
      { intros s' P <-. exists (s' :: todo). split; [reflexivity|]. constructor; [exact P|apply same_words_refl]. }
      destruct (Nat.eqb (sy_id s) 0); [refine (K _ _ _ E); auto|].
      destruct (nth_error re (sy_id s)) as [r|]; [|injection E as E _ _; refine (K' _ _ E); auto].
      destruct (nth_error im (sy_id s)) as [i|]; [|injection E as E _ _; refine (K' _ _ E); auto].
      destruct r, i; [refine (K _ _ _ E); auto| | |injection E as E _ _; refine (K' _ _ E); auto].
      + destruct (sy_anti s); [injection E as E _ _; refine (K' _ _ E); auto|refine (K _ _ _ E); auto].
      + destruct (sy_herm s); [injection E as E _ _; refine (K' _ _ E); auto|refine (K _ _ _ E); auto].
  Qed.
  Lemma renumber_words l : forall t done, exists l', t_syms (renumber_loop l t done) = done ++ l' /\ same_words l l' /\ t_hash (renumber_loop l t done) = t_hash t.
  Proof.
    induction l as [|s l IH]; intros t done; cbn.
    - exists []. split; [now rewrite app_nil_r|]. split; [constructor|reflexivity].
    - edestruct IH as (l' & E & S & H). rewrite E, H. eexists. split; [rewrite <- app_assoc; reflexivity|]. split; [constructor; [auto|exact S]|reflexivity].
  Qed.
  Lemma same_words_trans a b d : same_words a b -> same_words b d -> same_words a d.
  Proof.
    intros A. revert d. induction A as [|x y a b P A IH]; intros d B; inversion B as [|? z ? d' Q B']; subst; constructor.
    - destruct P as (P1 & P2 & P3), Q as (Q1 & Q2 & Q3). repeat split; congruence.
    - now apply IH.
  Qed.
  Lemma merge_bits_hinv t re im t' : hinv t -> (merge_bits t re im = Throw t' \/ exists x, merge_bits t re im = Done t' x) -> hinv t' /\ grows t t'.
  Proof.
    intros I E. unfold merge_bits in E. cbv zeta in E. set (t1 := if Nat.ltb (length (t_syms t)) (length re) then fst (create_many t (length re - length (t_syms t)) true true) else t) in *.
    assert (I1 : hinv t1 /\ grows t t1).
    { subst t1. destruct (Nat.ltb _ _); [apply create_loop_hinv; exact I|split; [exact I|apply grows_refl]]. }
    clearbody t1. destruct I1 as [I1 G1]. destruct (flag_loop re im [] (t_syms t1) false) as [[l x] u] eqn:F in E.
    destruct (flag_loop_words _ _ _ _ _ _ _ _ F) as (l' & L & S). cbn in L. subst l'.
    destruct u; [destruct x; destruct E as [E|[y E]]; discriminate|]. destruct x as [ch0|]; destruct E as [E|[y E]]; try discriminate.
    - injection E as <- _. destruct (renumber_words (t_syms (set_syms t1 l)) (mk_table l (t_hash t1) [] [] [] [] (t_map t1) (t_map_len t1)) []) as (l'' & A & B & C).
      cbn in A. destruct (relabel_hinv t1 (renumerate (set_syms t1 l))) as [I2 G2].
      + unfold renumerate. cbn [set_syms t_syms t_hash t_map t_map_len] in *. rewrite A. now apply (same_words_trans _ l).
      + exact C.
      + exact I1.
      + split; [exact I2|now apply (grows_trans t t1)].
    - injection E as <-. destruct (relabel_hinv t1 (set_syms t1 l) S eq_refl I1) as [I2 G2]. split; [exact I2|now apply (grows_trans t t1)].
  Qed.
  Lemma map_emplace_all (P : symbol -> Prop) h s m : P s -> Forall P (map snd m) -> Forall P (map snd (map_emplace h s m)).
  Proof.
    intros Ps. induction m as [|[k v] m IH]; intro F; cbn; [repeat constructor; exact Ps|]. inversion F; subst.
    destruct (N.ltb h k); [constructor; [exact Ps|exact F]|]. destruct (N.eqb h k); [exact F|]. constructor; auto.
  Qed.
  Lemma fill_symbols_ok L : osg_ok c V L -> Forall (symbol_ok c V) (map snd (fold_left (fill_entry c) (cx_osg c L) [])).
  Proof.
    unfold osg_ok. generalize (cx_osg c L). intros l O.
    assert (G : forall m, Forall (symbol_ok c V) (map snd m) -> Forall (symbol_ok c V) (map snd (fold_left (fill_entry c) l m))); [|apply G; constructor].
    induction l as [|q l IH]; intros m F; [exact F|]. cbn [fold_left]. apply IH; [intros; apply O; now right|].
    destruct (O q (or_introl eq_refl)) as [Vq _]. unfold fill_entry. destruct (cx_alias c && cx_reducible c q); [exact F|].
    destruct (N.eqb_spec (hs_hash q) (hs_hash (cx_conj c q))) as [E|E].
    - apply map_emplace_all; [|exact F]. apply so_one; [exact Vq|now symmetry].
    - destruct (N.ltb _ _); [|exact F]. apply map_emplace_all; [|exact F]. now apply so_pair.
  Qed.
  Lemma merge_sequence_symbol t q : V q -> exists q', merge_sequence c t q = merge_symbol t (symbol_pair q' (cx_conj c q')) /\ V q' /\
     q' = (if cx_alias c then cx_moment c (pos q) else pos q).
  Proof.
    intro Vq. eexists. split; [reflexivity|]. split; [|reflexivity]. destruct (cx_alias c); [apply (lw_moment c V LW)|]; now apply (lw_pos c V LW).
  Qed.
  Lemma run_op_hinv t o : hinv t -> op_ok c V o -> forall t', (run_op c t o = Throw t' \/ run_op c t o = Done t' tt) -> hinv t' /\ grows t t'.
  Proof.
    intros I O t' E. destruct o as [q|l|n r i|re im|L|L]; cbn [run_op op_ok] in *.
    - destruct (merge_sequence_symbol t q O) as (q' & M & Vq & _). rewrite M in E. destruct (symbol_ok_of _ (so_pair c V q' Vq)) as [w S].
      destruct (merge_symbol_total t _ w I S) as (t1 & id & D). rewrite D in E. cbn in E. destruct E as [E|E]; [discriminate|]. injection E as <-.
      split; [now apply (merge_symbol_hinv t _ w _ id I S)|now apply (merge_symbol_grows t _ w _ id I S)].
    - destruct (merge_symbols_step l t I O) as (t1 & ids & D & I1 & G1). rewrite D in E. cbn in E. destruct E as [E|E]; [discriminate|]. injection E as <-. auto.
    - cbn in E. destruct E as [E|E]; [discriminate|]. injection E as <-. now apply create_loop_hinv.
    - apply (merge_bits_hinv t re im t' I). destruct (merge_bits t re im) as [t1 x|t1|]; cbn in E; destruct E as [E|E]; try discriminate; injection E as <-; eauto.
    - unfold fill_to_word_length in E. destruct (Nat.ltb L (t_map_len t)).
      + cbn in E. destruct E as [E|E]; [discriminate|]. injection E as <-. split; [exact I|apply grows_refl].
      + destruct (merge_symbols_step _ t I (fill_symbols_ok L O)) as (t1 & ids & D & I1 & G1). rewrite D in E. cbn in E.
        destruct E as [E|E]; [discriminate|]. injection E as <-. auto.
    - unfold update_map in E. destruct (Nat.leb L (t_map_len t)).
      + cbn in E. destruct E as [E|E]; [discriminate|]. injection E as <-. split; [exact I|apply grows_refl].
      + destruct (map_entries c t _) as [l|]; cbn in E; destruct E as [E|E]; try discriminate. injection E as <-. apply (relabel_hinv t); [apply same_words_refl|reflexivity|exact I].
  Qed.
  Lemma run_all_hinv l : forall t t', hinv t -> Forall (op_ok c V) l -> run_all c t l = Some t' -> hinv t' /\ grows t t'.
  Proof.
    induction l as [|o l IH]; intros t t' I F E; cbn in E.
    - injection E as <-. split; [exact I|apply grows_refl].
    - inversion F as [|? ? Ho Hl]; subst. destruct (run_op c t o) as [t1 []|t1|] eqn:R; [| |discriminate];
        destruct (run_op_hinv t o I Ho t1 ltac:(auto)) as [I1 G1]; destruct (IH t1 t' I1 Hl E) as [I2 G2];
        (split; [exact I2|now apply (grows_trans t t1)]).
  Qed.
  Lemma start_hinv : hinv table_start.
  Proof.
    destruct (lw_zero c V LW) as [Z CZ]. destruct (lw_one c V LW) as [O CO].
    split; try reflexivity.
    - intros [|[|i]] s H; cbn in H; [injection H as <-; reflexivity|injection H as <-; reflexivity|destruct i; discriminate].
    - intros [|[|i]] q H; cbn in H; [injection H as <-|injection H as <-|destruct i; discriminate]; unfold ch; rewrite ?CZ, ?CO; repeat split; assumption.
    - intros h v H. change (t_hash table_start) with [(0%N, 0%Z); (1%N, 1%Z)] in H. cbn [hfind] in H. destruct (N.eqb_spec 0 h) as [<-|]; [injection H as <-; exists (hseq_const true); split; reflexivity|].
      destruct (N.eqb_spec 1 h) as [<-|]; [injection H as <-; exists (hseq_const false); split; reflexivity|discriminate].
  Qed.
  Lemma reachable_hinv t : reachable c V t -> hinv t.
  Proof. intros (l & F & E). apply (run_all_hinv l table_start t start_hinv F E). Qed.
  Lemma later_hinv t t' : reachable c V t -> later c V t t' -> hinv t' /\ grows t t'.
  Proof. intros R (l & F & E). exact (run_all_hinv l t t' (reachable_hinv t R) F E). Qed.
  Lemma run_all_app l : forall l' t, run_all c t (l ++ l') = match run_all c t l with Some t' => run_all c t' l' | None => None end.
  Proof. induction l as [|o l IH]; intros l' t; cbn; [reflexivity|]. destruct (run_op c t o); [apply IH|apply IH|reflexivity]. Qed.
  Lemma reachable_later t t' : reachable c V t -> later c V t t' -> reachable c V t'.
  Proof.
    intros (l & F & E) (l' & F' & E'). exists (l ++ l'). split; [now apply Forall_app|]. now rewrite run_all_app, E.
  Qed.
  Lemma later_trans a b d : later c V a b -> later c V b d -> later c V a d.
  Proof. intros (l & F & E) (l' & F' & E'). exists (l ++ l'). split; [now apply Forall_app|]. now rewrite run_all_app, E. Qed.

  (* ---------------------------------------------------------------- statements *)
  Lemma table_shape t : reachable c V t -> symbol_word t 0 = Some (hseq_const true) /\ symbol_word t 1 = Some (hseq_const false) /\
    (forall i s, nth_error (t_syms t) i = Some s -> sy_id s = i).
  Proof. intro R. pose proof (reachable_hinv t R) as I. split; [apply (hi_zero t I)|]. split; [apply (hi_one t I)|apply (hi_id t I)]. Qed.
  Lemma words_kept t t' id : reachable c V t -> later c V t t' -> id < length (t_syms t) -> symbol_word t' id = symbol_word t id.
  Proof.
    intros R L H. destruct (later_hinv t t' R L) as [_ [G _]]. unfold symbol_word. destruct (nth_error (t_syms t) id) as [s|] eqn:E.
    - destruct (G id s E) as (s' & -> & _ & -> & _). reflexivity.
    - apply nth_error_None in E. lia.
  Qed.
  Lemma never_undefined t o : reachable c V t -> op_ok c V o -> match o with ORegister _ | OMerge _ | OCreate _ _ _ | OFill _ => exists t', run_op c t o = Done t' tt | _ => True end.
  Proof.
    intros R O. pose proof (reachable_hinv t R) as I. destruct o as [q|l|n r i|re im|L|L]; cbn [run_op op_ok] in *; try exact Logic.I.
    - destruct (merge_sequence_symbol t q O) as (q' & M & Vq & _). rewrite M. destruct (symbol_ok_of _ (so_pair c V q' Vq)) as [w S].
      destruct (merge_symbol_total t _ w I S) as (t1 & id & D). rewrite D. cbn. eauto.
    - destruct (merge_symbols_step l t I O) as (t1 & ids & D & _). rewrite D. cbn. eauto.
    - cbn. eauto.
    - unfold fill_to_word_length. destruct (Nat.ltb L (t_map_len t)); [cbn; eauto|].
      destruct (merge_symbols_step _ t I (fill_symbols_ok L O)) as (t1 & ids & D & _). rewrite D. cbn. eauto.
  Qed.
  (** what a hash lookup says *)
  Lemma lookup_word t q id b : hinv t -> V q -> hash_to_index t (hs_hash q) = Some (id, b) ->
    exists w, symbol_word t id = Some w /\ V w /\ if b then pos (cx_conj c w) = pos q /\ pos w <> pos q else pos w = pos q.
  Proof.
    intros I Vq H. unfold hash_to_index in H. destruct (hfind (hs_hash q) (t_hash t)) as [v|] eqn:F; [|discriminate].
    destruct (hi_tab t I _ _ F) as (w & W & D). destruct (hi_seq t I _ _ W) as (Vw & H1 & H2). exists w.
    assert (A : (Z.to_nat v = Z.abs_nat v \/ v < 0)%Z) by lia.
    assert (B : (Z.to_nat (- v) = Z.abs_nat v \/ 0 <= v)%Z) by lia.
    destruct (Z.leb_spec 0 v) as [P|P]; injection H as <- <-.
    - destruct A as [-> |]; [|lia]. repeat split; try assumption. now apply same_pos.
    - destruct B as [-> |]; [|lia]. destruct D as [D1 D2]. repeat split; try assumption.
      + apply same_pos; [now apply (lw_conj c V LW)|assumption|exact D1].
      + intro E. apply D2. change (hs_hash (pos w) = hs_hash (pos q)). now rewrite E.
  Qed.
  Lemma word_lookup t q id w : hinv t -> V q -> symbol_word t id = Some w ->
    (pos w = pos q -> hash_to_index t (hs_hash q) = Some (id, false)) /\
    (pos (cx_conj c w) = pos q -> pos w <> pos q -> hash_to_index t (hs_hash q) = Some (id, true)).
  Proof.
    intros I Vq W. destruct (hi_seq t I _ _ W) as (Vw & H1 & H2). unfold hash_to_index. split.
    - intro E. assert (K : hs_hash w = hs_hash q) by (change (hs_hash (pos w) = hs_hash (pos q)); now rewrite E). rewrite <- K, H1.
      destruct (Z.leb_spec 0 (Z.of_nat id)); [|lia]. now rewrite Nat2Z.id.
    - intros E D. assert (K : ch w = hs_hash q) by (unfold ch; change (hs_hash (pos (cx_conj c w)) = hs_hash (pos q)); now rewrite E).
      rewrite <- K, H2. destruct (N.eqb_spec (ch w) (hs_hash w)) as [X|X].
      + exfalso. apply D. apply same_pos; [assumption..|]. congruence.
      + assert (id <> 0). { intros ->. rewrite (hi_zero t I) in W. injection W as <-. apply X. unfold ch. now rewrite (proj2 (lw_zero c V LW)). }
        destruct (Z.leb_spec 0 (- Z.of_nat id)); [lia|]. now rewrite Z.opp_involutive, Nat2Z.id.
  Qed.
End Hist.
