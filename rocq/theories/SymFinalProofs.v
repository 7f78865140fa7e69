(** The symbol table: lookups, values, basis numbering, flags, index of dictionary words. *)
From Coq Require Import List NArith ZArith Arith Bool Lia.
From Verif Require Import CoreModel CoreSpec CoreProofs FieldModel FieldProofs SymModel SymSpec SymProofs.
Import ListNotations.

Section Lookup.
  Variable c : sctx.
  Variable V : hseq -> Prop.
  Hypothesis LW : lawful c V.
  Lemma lookup_answers t q id cj : reachable c V t -> V q -> (hash_to_index t (hs_hash q) = Some (id, cj) <-> answers c t q id cj).
  Proof.
    intros R Vq. pose proof (reachable_hinv c V LW t R) as I. split.
    - intro H. destruct (lookup_word c V LW t q id cj I Vq H) as (w & W & _ & D). exists w. split; [exact W|exact D].
    - intros (w & W & D). destruct (word_lookup c V LW t q id w I Vq W) as [P Q]. destruct cj; [now apply Q|now apply P].
  Qed.
  Lemma answers_later t t' q id cj : reachable c V t -> later c V t t' -> answers c t q id cj -> answers c t' q id cj.
  Proof.
    intros R L (w & W & D). exists w. split; [|exact D]. rewrite (words_kept c V LW t t' id R L); [exact W|now apply (word_len t id w)].
  Qed.
  Lemma lookup_kept t t' q id cj : reachable c V t -> later c V t t' -> V q -> hash_to_index t (hs_hash q) = Some (id, cj) ->
    hash_to_index t' (hs_hash q) = Some (id, cj).
  Proof.
    intros R L Vq H. apply (lookup_answers t' q id cj); [now apply (reachable_later c V t)|exact Vq|]. apply (answers_later t); try assumption. now apply lookup_answers.
  Qed.
  Lemma to_symbol_found t q id cj : reachable c V t -> hash_to_index t (hs_hash q) = Some (id, cj) -> to_symbol t q = (id, cj).
  Proof.
    intros R H. pose proof (reachable_hinv c V LW t R) as I. unfold to_symbol. rewrite H. f_equal. unfold hash_to_index in H.
    destruct (hfind (hs_hash q) (t_hash t)) as [v|] eqn:F; [|discriminate]. destruct (hi_tab c V t I _ _ F) as (w & W & _).
    assert (E : id = Z.abs_nat v) by (destruct (Z.leb_spec 0 v); injection H; intros; subst; lia). rewrite E. unfold symbol_word in W.
    destruct (nth_error (t_syms t) (Z.abs_nat v)) as [s|] eqn:N; [|discriminate]. now apply (hi_id c V t I).
  Qed.
  (** registering *)
  Notation entry := (table_entry c).
  Lemma entry_ok q : V q -> V (entry q).
  Proof. intro H. unfold table_entry. destruct (cx_alias c); [apply (lw_moment c V LW)|]; now apply (lw_pos c V LW). Qed.
  Lemma pair_of q : V q -> symbol_of c V (symbol_pair q (cx_conj c q)) (pos q).
  Proof.
    intro Vq. destruct (symbol_ok_of c V LW _ (so_pair c V q Vq)) as [w S]. pose proof S as [E _]. cbn in E. injection E as <-. exact S.
  Qed.
  Lemma register_done t q : reachable c V t -> V q -> exists t' id, merge_sequence c t q = Done t' id /\ reachable c V t' /\ later c V t t' /\
    exists cj, hash_to_index t' (hs_hash (entry q)) = Some (id, cj).
  Proof.
    intros R Vq. pose proof (reachable_hinv c V LW t R) as I. pose proof (entry_ok q Vq) as Ve. pose proof (pair_of _ Ve) as S.
    destruct (merge_symbol_total c V t _ _ I S) as (t' & id & E). exists t', id.
    assert (M : merge_sequence c t q = Done t' id) by exact E. split; [exact M|].
    assert (L : later c V t t'). { exists [ORegister q]. split; [repeat constructor; exact Vq|]. cbn [run_all run_op]. now rewrite M. }
    split; [now apply (reachable_later c V t)|]. split; [exact L|].
    destruct (merge_symbol_hinv c V LW t _ _ t' id I S E) as (_ & v & F & A). unfold hash_to_index. change (hs_hash (pos (entry q))) with (hs_hash (entry q)) in F. rewrite F.
    destruct (Z.leb_spec 0 v); eexists; f_equal; f_equal; lia.
  Qed.
  Lemma register_lookup t q t' id : reachable c V t -> V q -> merge_sequence c t q = Done t' id ->
    exists cj, forall t'', later c V t' t'' -> hash_to_index t'' (hs_hash (entry q)) = Some (id, cj) /\ answers c t'' (entry q) id cj.
  Proof.
    intros R Vq E. destruct (register_done t q R Vq) as (t1 & id1 & E1 & R1 & L1 & cj & H). rewrite E in E1. injection E1 as <- <-.
    exists cj. intros t'' L. pose proof (lookup_kept t' t'' _ id cj R1 L (entry_ok q Vq) H) as K. split; [exact K|].
    apply lookup_answers; [now apply (reachable_later c V t')|now apply entry_ok|exact K].
  Qed.
  Lemma register_again t q id cj : reachable c V t -> V q -> hash_to_index t (hs_hash (entry q)) = Some (id, cj) -> merge_sequence c t q = Done t id.
  Proof.
    intros R Vq H. pose proof (reachable_hinv c V LW t R) as I. pose proof (entry_ok q Vq) as Ve. pose proof (pair_of _ Ve) as S.
    unfold hash_to_index in H. destruct (hfind (hs_hash (entry q)) (t_hash t)) as [v|] eqn:F; [|discriminate].
    change (merge_sequence c t q) with (merge_symbol t (symbol_pair (entry q) (cx_conj c (entry q)))).
    rewrite (merge_symbol_found c V t _ (pos (entry q)) v I S F). f_equal. destruct (Z.leb_spec 0 v); injection H as <- _; lia.
  Qed.
  Lemma same_word_hash a b : same_word a b -> hs_hash a = hs_hash b.
  Proof. intro H. change (hs_hash (pos a) = hs_hash (pos b)). now rewrite H. Qed.
  Lemma conj_congr a b : V a -> V b -> same_word a b -> same_word (cx_conj c a) (cx_conj c b).
  Proof.
    intros A B H. unfold same_word. apply (same_pos c V LW); [now apply (lw_conj c V LW)..|]. apply (ch_congr c V LW a b A B). now apply same_word_hash.
  Qed.
  Lemma conj_back a : V a -> same_word (cx_conj c (cx_conj c a)) a.
  Proof. intro A. unfold same_word. now rewrite (lw_invol c V LW). Qed.
  Lemma same_symbol t a b ia ib ca cb : reachable c V t -> V a -> V b -> hash_to_index t (hs_hash a) = Some (ia, ca) -> hash_to_index t (hs_hash b) = Some (ib, cb) ->
    (ia = ib <-> same_word a b \/ conj_words c a b).
  Proof.
    intros R Va Vb Ha Hb. pose proof (reachable_hinv c V LW t R) as I.
    destruct (lookup_word c V LW t a ia ca I Va Ha) as (w & W & Vw & D). destruct (lookup_word c V LW t b ib cb I Vb Hb) as (u & U & Vu & F).
    unfold conj_words. split.
    - intros <-. rewrite W in U. injection U as <-. destruct ca, cb.
      + left. unfold same_word. destruct D, F; congruence.
      + right. destruct D as [D _]. assert (K : same_word (cx_conj c (cx_conj c w)) (cx_conj c a)) by (apply conj_congr; [now apply (lw_conj c V LW)|exact Va|exact D]).
        unfold same_word in *. rewrite (lw_invol c V LW w Vw) in K. congruence.
      + right. destruct F as [F _]. pose proof (conj_congr w a Vw Va D) as K. unfold same_word in *. congruence.
      + left. unfold same_word. congruence.
    - intros [E|E].
      + rewrite (same_word_hash a b E) in Ha. congruence.
      + destruct (word_lookup c V LW t b ia w I Vb W) as [P Q]. destruct ca.
        * destruct D as [D _]. assert (K : same_word (cx_conj c (cx_conj c w)) (cx_conj c a)) by (apply conj_congr; [now apply (lw_conj c V LW)|exact Va|exact D]).
          unfold same_word in *. rewrite (lw_invol c V LW w Vw) in K. specialize (P ltac:(congruence)). congruence.
        * pose proof (conj_congr w a Vw Va D) as K. unfold same_word in *. destruct (N.eq_dec (hs_hash w) (hs_hash b)) as [X|X].
          -- pose proof (same_pos c V LW w b Vw Vb X) as Y. specialize (P Y). congruence.
          -- specialize (Q ltac:(congruence)). assert (Y : pos w <> pos b) by (intro Y; apply X; now apply same_word_hash). specialize (Q Y). congruence.
  Qed.
  (** values *)
  Lemma answers_value (R : rfield) (E : hseq -> cx R) t q id cj : reachable c V t -> V q -> expectation c V R E -> unsigned_conj c V ->
    answers c t q id cj -> symbol_value E t id cj = Some (E (pos q)).
  Proof.
    intros Rt Vq HE HU (w & W & D). unfold symbol_value. rewrite W. cbn. f_equal.
    destruct (hi_seq c V t (reachable_hinv c V LW t Rt) id w W) as (Vw & _).
    destruct cj; [|unfold same_word in D; now rewrite D]. destruct D as [D N]. pose proof (lw_pos c V LW w Vw) as Vp.
    assert (K : cx_conj c (pos w) = pos q).
    { assert (X : pos (cx_conj c (pos w)) = pos q).
      { unfold conj_words, same_word in D. rewrite <- D. apply pos_eq; [symmetry; now apply (conj_phase_hash c V LW)|symmetry; now apply (conj_phase_ops c V LW)]. }
      destruct (HU w Vw) as [U|U]; [|exfalso; apply N; unfold same_word, conj_words in *; congruence].
      rewrite <- X. unfold pos, set_sign in *. destruct (cx_conj c _) as [h o s]; cbn in *. now subst. }
    rewrite <- (ex_conj c V R E HE (pos w) Vp). now rewrite K.
  Qed.
  Lemma where_value (R : rfield) (E : hseq -> cx R) t q id : reachable c V t -> V q -> expectation c V R E -> unsigned_conj c V ->
    lk_symbol (where_ c t q) = Some id -> symbol_value E t id (lk_conj (where_ c t q)) = Some (E (pos q)).
  Proof.
    intros Rt Vq HE HU H. unfold where_ in *. destruct (hash_to_index t (hs_hash q)) as [[i b]|] eqn:F.
    - cbn in *. injection H as <-. apply answers_value; try assumption. now apply lookup_answers.
    - destruct (cx_alias c) eqn:A; [|discriminate]. destruct (N.eqb _ _); [discriminate|].
      destruct (hash_to_index t (hs_hash (cx_moment c q))) as [[i b]|] eqn:G; [|discriminate]. cbn in *. injection H as <-.
      rewrite (answers_value R E t (cx_moment c q) i b); try assumption; [|now apply (lw_moment c V LW)|apply lookup_answers; [exact Rt|now apply (lw_moment c V LW)|exact G]].
      f_equal. pose proof (lw_pos c V LW q Vq) as Vp. rewrite <- (ex_moment c V R E HE A (pos q) Vp). f_equal.
      rewrite (lw_moment_phase c V LW q Vq). rewrite (lw_moment_phase c V LW (pos q) Vp). reflexivity.
  Qed.
  Lemma moment_hash q : V q -> hs_hash (cx_moment c q) = hs_hash (cx_moment c (pos q)).
  Proof. intro H. rewrite (lw_moment_phase c V LW q H). reflexivity. Qed.
  Lemma where_found t q t' id t'' : reachable c V t -> V q -> merge_sequence c t q = Done t' id -> later c V t' t'' ->
    exists i, lk_symbol (where_ c t'' q) = Some i /\ (cx_alias c = false -> i = id).
  Proof.
    intros R Vq E L. destruct (register_lookup t q t' id R Vq E) as (cj & H). destruct (H t'' L) as [K _]. unfold where_.
    destruct (hash_to_index t'' (hs_hash q)) as [[i b]|] eqn:F.
    - exists i. split; [reflexivity|]. intro A. unfold table_entry in K. rewrite A in K. change (hs_hash (pos q)) with (hs_hash q) in K. congruence.
    - unfold table_entry in K. destruct (cx_alias c) eqn:A; [|change (hs_hash (pos q)) with (hs_hash q) in K; congruence].
      rewrite <- moment_hash in K by exact Vq. destruct (N.eqb_spec (hs_hash (cx_moment c q)) (hs_hash q)) as [X|X]; [congruence|].
      rewrite K. exists id. split; [reflexivity|discriminate].
  Qed.
  Lemma register_value (R : rfield) (E : hseq -> cx R) t q t' id t'' : reachable c V t -> V q -> expectation c V R E -> unsigned_conj c V ->
    merge_sequence c t q = Done t' id -> later c V t' t'' ->
    exists cj, symbol_value E t'' id cj = Some (E (pos q)).
  Proof.
    intros Rt Vq HE HU M L. destruct (register_lookup t q t' id Rt Vq M) as (cj & H). destruct (H t'' L) as [_ K]. exists cj.
    assert (Rt' : reachable c V t''). { apply (reachable_later c V t'); [|exact L]. destruct (register_done t q Rt Vq) as (a & b & X & Y & _). congruence. }
    rewrite (answers_value R E t'' (entry q) id cj Rt' (entry_ok q Vq) HE HU K). f_equal. unfold table_entry. destruct (cx_alias c) eqn:A; [|reflexivity].
    pose proof (lw_pos c V LW q Vq) as Vp. rewrite <- (ex_moment c V R E HE A (pos q) Vp). f_equal. rewrite (lw_moment_phase c V LW (pos q) Vp). reflexivity.
  Qed.
End Lookup.

(* ------------------------------------------------------------------ bases *)
Section Bases.
  Lemma combine_snoc {A B} (l : list A) (m : list B) a b : length l = length m -> combine (l ++ [a]) (m ++ [b]) = combine l m ++ [(a, b)].
  Proof. revert m. induction l as [|x l IH]; intros [|y m] H; cbn in *; try discriminate; [reflexivity|]. f_equal. apply IH. lia. Qed.
  Lemma positions_snoc {A} (p : A -> bool) l x : positions p (l ++ [x]) = positions p l ++ (if p x then [length l] else []).
  Proof.
    unfold positions. rewrite app_length. cbn [length]. rewrite Nat.add_1_r, seq_S. cbn [plus]. rewrite combine_snoc by apply seq_length.
    rewrite filter_app, map_app. f_equal. cbn. now destruct (p x).
  Qed.
  Lemma positions_lt {A} (p : A -> bool) l k : In k (positions p l) -> k < length l.
  Proof.
    unfold positions. rewrite in_map_iff. intros ([i a] & <- & H). apply filter_In in H as [H _]. apply in_combine_l in H. apply in_seq in H. cbn in *. lia.
  Qed.
  Definition lift (t : table) (l : list symbol) : table := set_syms t l.
  Lemma push_numbered t done id h a q cq : numbered (lift t done) -> id = length done ->
    let '(t1, re, im) := basis_push t id (negb a) (negb h) in numbered (lift t1 (done ++ [mk_symbol id q cq h a re im])).
  Proof.
    intros H Hid. unfold basis_push. set (re := if negb a then _ else None). set (im := if negb h then _ else None). destruct H as [H1 H2 H3 H4 [H5 H5'] [H6 H6']]. cbn [lift set_syms t_syms t_real t_imag t_im_of_re t_re_of_im] in *.
    assert (B1 : forall k, In k (t_real t) -> k < length done) by (rewrite H1; intro; apply positions_lt).
    assert (B2 : forall k, In k (t_imag t) -> k < length done) by (rewrite H2; intro; apply positions_lt).
    assert (N1 : forall k id', nth_error (if negb a then t_real t ++ [id] else t_real t) k = Some id' <->
        (nth_error (t_real t) k = Some id' \/ (a = false /\ k = length (t_real t) /\ id' = id))).
    { intros k id'. destruct a; cbn; [split; [auto|intros [X|[X _]]; [exact X|discriminate]]|]. rewrite nth_error_snoc. destruct (Nat.eqb_spec k (length (t_real t))) as [->|D].
      - split; [intro X; injection X as <-; auto|]. intros [X|(_ & _ & ->)]; [|reflexivity]. assert (length (t_real t) < length (t_real t)) by (apply nth_error_Some; congruence). lia.
      - split; [auto|]. intros [X|(_ & X & _)]; [exact X|contradiction]. }
    assert (N2 : forall k id', nth_error (if negb h then t_imag t ++ [id] else t_imag t) k = Some id' <->
        (nth_error (t_imag t) k = Some id' \/ (h = false /\ k = length (t_imag t) /\ id' = id))).
    { intros k id'. destruct h; cbn; [split; [auto|intros [X|[X _]]; [exact X|discriminate]]|]. rewrite nth_error_snoc. destruct (Nat.eqb_spec k (length (t_imag t))) as [->|D].
      - split; [intro X; injection X as <-; auto|]. intros [X|(_ & _ & ->)]; [|reflexivity]. assert (length (t_imag t) < length (t_imag t)) by (apply nth_error_Some; congruence). lia.
      - split; [auto|]. intros [X|(_ & X & _)]; [exact X|contradiction]. }
    split; cbn [lift set_syms t_syms t_real t_imag t_im_of_re t_re_of_im].
    - rewrite positions_snoc, <- H1. unfold has_re. cbn [sy_anti]. rewrite Hid. destruct a; cbn; [now rewrite app_nil_r|reflexivity].
    - rewrite positions_snoc, <- H2. unfold has_im. cbn [sy_herm]. rewrite Hid. destruct h; cbn; [now rewrite app_nil_r|reflexivity].
    - intros i s k N. rewrite N1. rewrite nth_error_snoc in N. destruct (Nat.eqb_spec i (length done)) as [->|D].
      + injection N as <-. cbn [sy_re]. subst re id. split.
        * destruct a; cbn; [discriminate|]. intro X. injection X as <-. auto.
        * intros [X|(-> & -> & _)]; [|reflexivity]. apply nth_error_In in X. apply B1 in X. lia.
      + rewrite (H3 i s k N). split; [auto|]. intros [X|(_ & _ & ->)]; [exact X|contradiction].
    - intros i s k N. rewrite N2. rewrite nth_error_snoc in N. destruct (Nat.eqb_spec i (length done)) as [->|D].
      + injection N as <-. cbn [sy_im]. subst im id. split.
        * destruct h; cbn; [discriminate|]. intro X. injection X as <-. auto.
        * intros [X|(-> & -> & _)]; [|reflexivity]. apply nth_error_In in X. apply B2 in X. lia.
      + rewrite (H4 i s k N). split; [auto|]. intros [X|(_ & _ & ->)]; [exact X|contradiction].
    - split; [destruct a; cbn; rewrite ?app_length; cbn; lia|]. intros k i s K N. apply N1 in K. rewrite nth_error_snoc in N.
      destruct (Nat.eqb_spec i (length done)) as [->|D].
      + injection N as <-. cbn [sy_im]. destruct K as [K|(-> & -> & _)]; [apply nth_error_In, B1 in K; lia|]. cbn. rewrite <- H5, nth_error_snoc, Nat.eqb_refl. reflexivity.
      + destruct K as [K|(_ & _ & ->)]; [|contradiction]. pose proof (H5' k i s K N) as X. destruct a; cbn; [exact X|].
        rewrite nth_error_app1; [exact X|]. apply nth_error_Some. congruence.
    - split; [destruct h; cbn; rewrite ?app_length; cbn; lia|]. intros k i s K N. apply N2 in K. rewrite nth_error_snoc in N.
      destruct (Nat.eqb_spec i (length done)) as [->|D].
      + injection N as <-. cbn [sy_re]. destruct K as [K|(-> & -> & _)]; [apply nth_error_In, B2 in K; lia|]. cbn. rewrite <- H6, nth_error_snoc, Nat.eqb_refl. reflexivity.
      + destruct K as [K|(_ & _ & ->)]; [|contradiction]. pose proof (H6' k i s K N) as X. destruct h; cbn; [exact X|].
        rewrite nth_error_app1; [exact X|]. apply nth_error_Some. congruence.
  Qed.
  (** [numbered] looks at symbols and bases only *)
  Lemma numbered_ext t t' : t_syms t = t_syms t' -> t_real t = t_real t' -> t_imag t = t_imag t' -> t_im_of_re t = t_im_of_re t' -> t_re_of_im t = t_re_of_im t' ->
    numbered t -> numbered t'.
  Proof. intros A B C D E [H1 H2 H3 H4 H5 H6]. rewrite A, B, C, D, E in *. split; assumption. Qed.
  Lemma empty_numbered h m n : numbered (mk_table [] h [] [] [] [] m n).
  Proof. split; cbn; try reflexivity; try (intros id s k H; destruct id; discriminate); split; try reflexivity; intros k; destruct k; discriminate. Qed.
  Lemma renumber_numbered l : forall t done, numbered (lift t done) -> (forall i s, nth_error (done ++ l) i = Some s -> sy_id s = i) -> numbered (renumber_loop l t done).
  Proof.
    induction l as [|s l IH]; intros t done H I; cbn [renumber_loop]; [exact H|].
    assert (E : sy_id s = length done) by (apply I; rewrite nth_error_app2, Nat.sub_diag by lia; reflexivity).
    pose proof (push_numbered t done (sy_id s) (sy_herm s) (sy_anti s) (sy_seq s) (sy_conj s) H E) as P.
    destruct (basis_push t (sy_id s) (negb (sy_anti s)) (negb (sy_herm s))) as [[t1 re] im]. apply IH; [exact P|].
    intros i x N. rewrite <- app_assoc in N. cbn in N. destruct (lt_dec i (length done)).
    - apply I. rewrite nth_error_app1 in * by lia. exact N.
    - rewrite nth_error_app2 in N by lia. destruct (i - length done) as [|j] eqn:J.
      + injection N as <-. cbn. lia.
      + cbn in N. apply I. rewrite nth_error_app2 by lia. rewrite J. exact N.
  Qed.
  Lemma renumerate_numbered t : (forall i s, nth_error (t_syms t) i = Some s -> sy_id s = i) -> numbered (renumerate t).
  Proof. intro I. apply renumber_numbered; [apply empty_numbered|exact I]. Qed.
  Lemma start_numbered : numbered table_start.
  Proof.
    split; cbn; try reflexivity.
    - intros [|[|[|i]]] s k H; cbn in H; try discriminate; injection H as <-; cbn.
      + split; [discriminate|]. destruct k as [|[|k]]; cbn; discriminate.
      + split; [intro E; injection E as <-; reflexivity|]. destruct k as [|[|k]]; cbn; try discriminate. reflexivity.
    - intros [|[|[|i]]] s k H; cbn in H; try discriminate; injection H as <-; cbn; (split; [discriminate|destruct k; discriminate]).
    - split; [reflexivity|]. intros [|[|k]] id s H N; cbn in H; try discriminate. injection H as <-. cbn in N. injection N as <-. reflexivity.
    - split; [reflexivity|]. intros [|k]; discriminate.
  Qed.
  Lemma merge_symbol_numbered t s t' id : numbered t -> merge_symbol t s = Done t' id -> numbered t'.
  Proof.
    intros H E. unfold merge_symbol in E. destruct (sy_hash s); [|discriminate]. destruct (sy_hash_conj s); [|discriminate].
    destruct (hfind n (t_hash t)) as [v|]; [destruct (nth_error (t_syms t) (Z.abs_nat v)); [|discriminate]; injection E as <- _; exact H|].
    pose proof (push_numbered t (t_syms t) (length (t_syms t)) (sy_herm s) (sy_anti s) (sy_seq s) (sy_conj s)) as P.
    destruct (basis_push t (length (t_syms t)) (negb (sy_anti s)) (negb (sy_herm s))) as [[t1 re] im] eqn:B. injection E as <- _.
    assert (X : t_syms t1 = t_syms t) by (injection B as <- _ _; reflexivity).
    refine (numbered_ext _ _ _ _ _ _ _ (P _ eq_refl)); try reflexivity.
    - cbn. now rewrite X.
    - revert H. apply numbered_ext; reflexivity.
  Qed.
  Lemma merge_symbols_numbered l : forall t t' ids, numbered t -> merge_symbols t l = Done t' ids -> numbered t'.
  Proof.
    induction l as [|s l IH]; intros t t' ids H E; cbn [merge_symbols] in E; [injection E as <- _; exact H|].
    destruct (merge_symbol t s) as [t1 id| |] eqn:M; try discriminate. destruct (merge_symbols t1 l) as [t2 ids'| |] eqn:M2; try discriminate. injection E as <- _.
    apply (IH t1 t2 ids'); [|exact M2]. now apply (merge_symbol_numbered t s t1 id).
  Qed.
  Lemma create_numbered t r i : numbered t -> numbered (fst (create t r i)).
  Proof.
    intro H. unfold create. pose proof (push_numbered t (t_syms t) (length (t_syms t)) (negb i) (negb r) None None) as P. rewrite !negb_involutive in P.
    destruct (basis_push t (length (t_syms t)) r i) as [[t1 re] im] eqn:B. cbn [fst]. assert (X : t_syms t1 = t_syms t) by (injection B as <- _ _; reflexivity).
    refine (numbered_ext _ _ _ _ _ _ _ (P _ eq_refl)); try reflexivity.
    - cbn. now rewrite X.
    - revert H. apply numbered_ext; reflexivity.
  Qed.
  Lemma create_loop_numbered r i n : forall t, numbered t -> numbered (create_loop n t r i).
  Proof. induction n as [|n IH]; intros t H; [exact H|]. cbn [create_loop]. apply IH. now apply create_numbered. Qed.
  Lemma run_op_numbered c V t o t' : lawful c V -> hinv c V t -> op_ok c V o -> numbered t -> run_op c t o = Done t' tt -> numbered t'.
  Proof.
    intros LW I O H E. destruct o as [q|l|n r i|re im|L|L]; cbn [run_op] in E.
    - destruct (merge_sequence c t q) as [t1 x| |] eqn:M; cbn in E; try discriminate. injection E as <-. exact (merge_symbol_numbered t _ t1 x H M).
    - destruct (merge_symbols t l) as [t1 x| |] eqn:M; cbn in E; try discriminate. injection E as <-. exact (merge_symbols_numbered l t t1 x H M).
    - cbn in E. injection E as <-. now apply create_loop_numbered.
    - destruct (merge_bits t re im) as [t1 x| |] eqn:M; cbn in E; try discriminate. injection E as <-.
      pose proof (merge_bits_hinv c V t re im t1 I (or_intror (ex_intro _ x M))) as [I1 _]. unfold merge_bits in M.
      set (t0 := if Nat.ltb (length (t_syms t)) (length re) then fst (create_many t (length re - length (t_syms t)) true true) else t) in *.
      assert (I0 : hinv c V t0).
      { subst t0. destruct (Nat.ltb _ _); [apply create_loop_hinv; exact I|exact I]. }
      clearbody t0. destruct (flag_loop re im [] (t_syms t0) false) as [[l y] u] eqn:F in M.
      destruct (flag_loop_words _ _ _ _ _ _ _ _ F) as (l' & L & S). cbn in L. subst l'. destruct u, y; try discriminate. injection M as <- _.
      apply renumerate_numbered. cbn [set_syms t_syms]. intros i s N. pose proof (same_words_nth _ _ S i) as K. rewrite N in K.
      destruct (nth_error (t_syms t0) i) as [s0|] eqn:N0; [|contradiction]. rewrite (proj1 K). now apply (hi_id c V t0 I0).
    - unfold fill_to_word_length in E. destruct (Nat.ltb L (t_map_len t)); [cbn in E; injection E as <-; exact H|].
      destruct (merge_symbols t _) as [t1 x| |] eqn:M; cbn in E; try discriminate. injection E as <-. exact (merge_symbols_numbered _ t t1 x H M).
    - unfold update_map in E. destruct (Nat.leb L (t_map_len t)); [cbn in E; injection E as <-; exact H|].
      destruct (map_entries c t _); cbn in E; try discriminate. injection E as <-. revert H. apply numbered_ext; reflexivity.
  Qed.
  Lemma run_ops_numbered c V l : lawful c V -> forall t t', hinv c V t -> Forall (op_ok c V) l -> numbered t -> run_ops c t l = Done t' tt -> numbered t'.
  Proof.
    intro LW. induction l as [|o l IH]; intros t t' I F H E; cbn in E; [injection E as <-; exact H|]. inversion F as [|? ? Ho Hl]; subst.
    destruct (run_op c t o) as [t1 []| |] eqn:R; try discriminate. destruct (run_op_hinv c V LW t o I Ho t1 (or_intror R)) as [I1 _].
    apply (IH t1 t' I1 Hl); [|exact E]. now apply (run_op_numbered c V t o t1).
  Qed.
  Lemma clean_numbered c V t : lawful c V -> reachable_clean c V t -> numbered t.
  Proof. intros LW (l & F & E). exact (run_ops_numbered c V l LW table_start t (start_hinv c V LW) F start_numbered E). Qed.
  Lemma clean_reachable c V t : reachable_clean c V t -> reachable c V t.
  Proof.
    intros (l & F & E). exists l. split; [exact F|]. clear F. revert E. generalize table_start. induction l as [|o l IH]; intros t0 E; cbn in *; [injection E as <-; reflexivity|].
    destruct (run_op c t0 o) as [t1 []| |]; try discriminate. now apply IH.
  Qed.
End Bases.

(* ------------------------------------------------------------------ flags *)
Section Flags.
  Variable c : sctx.
  Variable V : hseq -> Prop.
  Hypothesis LW : lawful c V.
  Definition right (s : symbol) : Prop := forall q, sy_seq s = Some q ->
    (sy_herm s = true <-> cx_conj c (pos q) = pos q) /\ (sy_anti s = true <-> cx_conj c (pos q) = neg (pos q)).
  Lemma smul_sconj s x : smul (smul (sconj s) x) s = x. Proof. destruct s, x; reflexivity. Qed.
  Lemma pair_conj q : V q -> set_sign (cx_conj c q) (smul (hs_sign (cx_conj c q)) (hs_sign q)) = cx_conj c (pos q).
  Proof.
    intro H. rewrite (lw_phase c V LW q H). destruct (cx_conj c (pos q)) as [h o s] eqn:E. unfold set_sign. cbn. now rewrite smul_sconj.
  Qed.
  Lemma pair_right q : V q -> right (symbol_pair q (cx_conj c q)).
  Proof.
    intros H w E. cbn in E. injection E as <-. change (set_sign q SPos) with (pos q). change (pos (pos q)) with (pos q).
    pose proof (lw_pos c V LW q H) as Vp. unfold symbol_pair. rewrite pair_conj by exact H. cbn [sy_herm sy_anti]. change (set_sign q SPos) with (pos q).
    set (d := cx_conj c (pos q)) in *. assert (Vd : V d) by now apply (lw_conj c V LW).
    assert (K : hs_hash (pos q) = hs_hash d -> forall s, hs_sign d = s -> d = set_sign (pos q) s).
    { intros X s Y. pose proof (same_pos c V LW d (pos q) Vd Vp (eq_sym X)) as Z. unfold pos, set_sign in *. destruct d as [h o s0]. cbn in *. injection Z as -> ->. now subst. }
    unfold hs_compare_same_negation. destruct (N.eqb_spec (hs_hash (pos q)) (hs_hash d)) as [X|X]; cbn [negb].
    - specialize (K X). destruct (hs_sign d) eqn:S; rewrite (K _ eq_refl); unfold hs_imaginary, hs_negated, neg, pos, set_sign; cbn; (split; split; intro Y; try discriminate; reflexivity).
    - split; split; intro Y; try discriminate; exfalso; apply X; rewrite Y; reflexivity.
  Qed.
  Lemma one_right q : V q -> cx_conj c q = q -> hs_sign q = SPos \/ hs_sign q = SNeg -> right (symbol_one q).
  Proof.
    intros H E S w W. cbn in W. injection W as <-. cbn.
    assert (K : cx_conj c (pos q) = pos q).
    { pose proof (lw_phase c V LW q H) as P. rewrite E in P. destruct (cx_conj c (pos q)) as [h o s]. destruct q as [h' o' s']. unfold pos, set_sign in *. cbn in *.
      injection P as -> -> P. f_equal. destruct S as [-> | ->], s; cbn in P; congruence. }
    rewrite K. split; [tauto|]. split; [discriminate|]. intro X. unfold neg, pos, set_sign in X. cbn in X. discriminate.
  Qed.
  Lemma merge_flagged t s q t' id : hinv c V t -> symbol_of c V s q -> (right s \/ s = symbol_zero \/ s = symbol_identity) -> flagged c t -> merge_symbol t s = Done t' id -> flagged c t'.
  Proof.
    intros I S R F E. destruct (hfind (hs_hash q) (t_hash t)) as [v|] eqn:G.
    - rewrite (merge_symbol_found c V t s q v I S G) in E. injection E as <- _. exact F.
    - destruct (merge_symbol_new c V t s q t' id I S G E) as (L & (re & im & Y) & _). intros i x w N W.
      rewrite Y, nth_error_snoc in N. destruct (Nat.eqb (Datatypes.S i) (length (t_syms t))) eqn:K.
      + injection N as <-. cbn in *. destruct R as [R|[->| ->]].
        * exact (R w W).
        * exfalso. destruct S as (Q & _). cbn in Q. injection Q as <-.
          destruct (hi_seq c V t I 0 (hseq_const true) (hi_zero c V t I)) as (_ & X & _). congruence.
        * exfalso. destruct S as (Q & _). cbn in Q. injection Q as <-.
          destruct (hi_seq c V t I 1 (hseq_const false) (hi_one c V t I)) as (_ & X & _). congruence.
      + exact (F i x w N W).
  Qed.
  Lemma merges_flagged l : forall t t' ids, hinv c V t -> Forall (symbol_ok c V) l -> Forall (fun s => right s \/ s = symbol_zero \/ s = symbol_identity) l ->
    flagged c t -> merge_symbols t l = Done t' ids -> flagged c t'.
  Proof.
    induction l as [|s l IH]; intros t t' ids I O R F E; cbn [merge_symbols] in E; [injection E as <- _; exact F|].
    inversion O as [|? ? O1 O2]; inversion R as [|? ? R1 R2]; subst. destruct (symbol_ok_of c V LW s O1) as [q S].
    destruct (merge_symbol t s) as [t1 id| |] eqn:M; try discriminate. destruct (merge_symbols t1 l) as [t2 ids'| |] eqn:M2; try discriminate. injection E as <- _.
    destruct (merge_symbol_hinv c V LW t s q t1 id I S M) as [I1 _]. apply (IH t1 t2 ids' I1 O2 R2); [|exact M2]. now apply (merge_flagged t s q t1 id).
  Qed.
  Lemma create_flagged t r i : flagged c t -> flagged c (fst (create t r i)).
  Proof.
    intros F j x w N W. unfold create in N. cbn [basis_push fst push_symbol t_syms] in N. rewrite nth_error_snoc in N.
    destruct (Nat.eqb (S j) (length (t_syms t))); [injection N as <-; discriminate|exact (F j x w N W)].
  Qed.
  Lemma create_loop_flagged r i n : forall t, flagged c t -> flagged c (create_loop n t r i).
  Proof. induction n as [|n IH]; intros t F; [exact F|]. cbn [create_loop]. apply IH. now apply create_flagged. Qed.
  Lemma fill_right l : (forall q, In q l -> V q /\ hs_sign q = SPos) -> (forall q, In q l -> same_word (cx_conj c q) q -> cx_conj c q = q) ->
    forall m, Forall (fun s => right s \/ s = symbol_zero \/ s = symbol_identity) (map snd m) ->
    Forall (fun s => right s \/ s = symbol_zero \/ s = symbol_identity) (map snd (fold_left (fill_entry c) l m)).
  Proof.
    induction l as [|q l IH]; intros O K m F; [exact F|]. cbn [fold_left]. apply IH; [intros; apply O; now right|intros x Hx; apply K; now right|].
    destruct (O q (or_introl eq_refl)) as [Vq Sq]. unfold fill_entry. destruct (cx_alias c && cx_reducible c q); [exact F|].
    destruct (N.eqb_spec (hs_hash q) (hs_hash (cx_conj c q))) as [E|E].
    - apply map_emplace_all; [|exact F]. left. apply one_right; [exact Vq| |now left]. apply K; [now left|].
      apply (same_pos c V LW); [now apply (lw_conj c V LW)|exact Vq|now symmetry].
    - destruct (N.ltb _ _); [|exact F]. apply map_emplace_all; [|exact F]. left. now apply pair_right.
  Qed.
  Lemma run_op_flagged t o t' : hinv c V t -> op_ok c V o -> flags_ok c o -> flagged c t -> (run_op c t o = Throw t' \/ run_op c t o = Done t' tt) -> flagged c t'.
  Proof.
    intros I O K F E. destruct o as [q|l|n r i|re im|L|L]; cbn [run_op flags_ok op_ok] in *.
    - pose proof (entry_ok c V LW q O) as Ve. pose proof (pair_of c V LW _ Ve) as S.
      destruct (merge_symbol_total c V t _ _ I S) as (t1 & id & D). change (merge_sequence c t q) with (merge_symbol t (symbol_pair (table_entry c q) (cx_conj c (table_entry c q)))) in E.
      rewrite D in E. cbn in E. destruct E as [E|E]; [discriminate|]. injection E as <-. apply (merge_flagged t _ _ t1 id I S); [|exact F|exact D]. left. now apply pair_right.
    - destruct (merge_symbols_step c V LW l t I O) as (t1 & ids & D & _). rewrite D in E. cbn in E. destruct E as [E|E]; [discriminate|]. injection E as <-.
      apply (merges_flagged l t t1 ids I O); [|exact F|exact D]. rewrite Forall_forall in *. intros s Hs. specialize (O s Hs). destruct (K s Hs) as [[q ->]|[(q & -> & E1 & E2)|X]]; [| |auto].
      + left. assert (X : sy_conj (symbol_pair q (cx_conj c q)) <> None) by discriminate. destruct O as [| |q0 Vq0 A|q0 Vq0]; [now destruct X..|]. now apply pair_right.
      + left. destruct (symbol_ok_of c V LW _ O) as [w S]. pose proof S as (Q & Vw & _). cbn in Q. injection Q as <-. now apply one_right.
    - cbn in E. destruct E as [E|E]; [discriminate|]. injection E as <-. now apply create_loop_flagged.
    - contradiction.
    - unfold fill_to_word_length in E. destruct (Nat.ltb L (t_map_len t)).
      + cbn in E. destruct E as [E|E]; [discriminate|]. injection E as <-. exact F.
      + destruct (merge_symbols_step c V LW _ t I (fill_symbols_ok c V L O)) as (t1 & ids & D & _). rewrite D in E. cbn in E. destruct E as [E|E]; [discriminate|]. injection E as <-.
        apply (merges_flagged _ t t1 ids I (fill_symbols_ok c V L O)); [|exact F|exact D]. apply fill_right; [exact O|exact K|constructor].
    - unfold update_map in E. destruct (Nat.leb L (t_map_len t)); [|destruct (map_entries c t _)]; cbn in E; destruct E as [E|E]; try discriminate; injection E as <-; exact F.
  Qed.
  Lemma start_flagged : flagged c table_start.
  Proof.
    intros [|[|i]] s w N W; cbn in N; try discriminate. injection N as <-. cbn in W. injection W as <-. cbn.
    destruct (lw_one c V LW) as [_ E]. change (pos (hseq_const false)) with (hseq_const false). rewrite E. split; [tauto|]. split; discriminate.
  Qed.
  Lemma session_flagged l t : Forall (op_ok c V) l -> Forall (flags_ok c) l -> run_all c table_start l = Some t -> flagged c t.
  Proof.
    intros O K E. assert (G : forall t0, hinv c V t0 -> flagged c t0 -> run_all c t0 l = Some t -> flagged c t); [|exact (G table_start (start_hinv c V LW) start_flagged E)].
    clear E. induction l as [|o l IH]; intros t0 I F E; cbn in E; [injection E as <-; exact F|].
    inversion O as [|? ? O1 O2]; inversion K as [|? ? K1 K2]; subst.
    destruct (run_op c t0 o) as [t1 []|t1|] eqn:R; [| |discriminate]; destruct (run_op_hinv c V LW t0 o I O1 t1 ltac:(auto)) as [I1 _];
      (apply (IH O2 K2 t1 I1); [|exact E]); apply (run_op_flagged t0 o t1 I O1 K1 F); auto.
  Qed.
  (** what the flags mean for values *)
  Lemma flags_mean (R : rfield) (E : hseq -> cx R) t id s w : reachable c V t -> expectation c V R E -> flagged c t -> nth_error (t_syms t) (S id) = Some s -> sy_seq s = Some w ->
    (sy_herm s = true -> cim (E (pos w)) = r0 R) /\ (sy_anti s = true -> cre (E (pos w)) = r0 R).
  Proof.
    intros Rt HE F N W. destruct (F id s w N W) as [F1 F2].
    assert (Vw : V w). { apply (hi_seq c V t (reachable_hinv c V LW t Rt) (S id) w). unfold symbol_word. now rewrite N. }
    pose proof (lw_pos c V LW w Vw) as Vp. pose proof (ex_conj c V R E HE (pos w) Vp) as X. split; intro H.
    - apply F1 in H. rewrite H in X. apply creal_part. now symmetry.
    - apply F2 in H. rewrite H in X. apply cimag_part. rewrite <- X.
      assert (Vn : V (neg (pos w))) by (rewrite <- H; now apply (lw_conj c V LW)).
      rewrite (ex_phase c V R E HE (neg (pos w)) Vn). cbn. change (pos (neg (pos w))) with (pos w).
      apply cneg_mul.
  Qed.
End Flags.

(* ------------------------------------------------------------------ index of dictionary words *)
Section Map.
  Variable c : sctx.
  Variable V : hseq -> Prop.
  Hypothesis LW : lawful c V.
  Hypothesis NA : cx_alias c = false.
  Hypothesis NEST : osg_nested c.
  (** entry [v] of the map speaks of word [q] *)
  Definition speaks (t : table) (q : hseq) (v : Z) : Prop :=
    exists w, symbol_word t (Z.abs_nat v) = Some w /\ if Z.ltb v 0 then conj_words c w q else same_word w q.
  Definition minv (t : table) : Prop := Forall2 (speaks t) (cx_osg c (t_map_len t)) (t_map t).
  Lemma speaks_grows t t' q v : grows t t' -> speaks t q v -> speaks t' q v.
  Proof. intros G (w & W & D). exists w. split; [now apply (grows_word t t')|exact D]. Qed.
  Lemma Forall2_mono {A B} (P Q : A -> B -> Prop) l m : (forall a b, P a b -> Q a b) -> Forall2 P l m -> Forall2 Q l m.
  Proof. intros H F. induction F; constructor; auto. Qed.
  Lemma F2_length {A B} (P : A -> B -> Prop) l m : Forall2 P l m -> length l = length m.
  Proof. induction 1; cbn; congruence. Qed.
  Lemma map_entries_speak t l : forall r, hinv c V t -> plain_words t -> (forall q, In q l -> V q /\ hs_sign q = SPos) -> map_entries c t l = Some r -> Forall2 (speaks t) l r.
  Proof.
    induction l as [|q l IH]; intros r I P O E; cbn [map_entries] in E; [injection E as <-; constructor|].
    destruct (O q (or_introl eq_refl)) as [Vq Sq]. destruct (lk_symbol (where_ c t q)) as [id|] eqn:W; [|discriminate].
    destruct (nth_error (t_syms t) id) as [s|] eqn:N; [|discriminate]. destruct (sy_seq s) as [sq|] eqn:S; [|discriminate].
    destruct (map_entries c t l) as [r'|]; [|discriminate]. injection E as <-. constructor; [|apply IH; auto; intros; apply O; now right].
    unfold where_ in W. destruct (hash_to_index t (hs_hash q)) as [[i b]|] eqn:H; [|rewrite NA in W; discriminate]. cbn in W. injection W as ->.
    destruct (lookup_word c V LW t q id b I Vq H) as (w & Ww & Vw & D). pose proof (hi_id c V t I id s N) as ID.
    assert (sq = w) as -> by (unfold symbol_word in Ww; rewrite N, S in Ww; congruence). pose proof (P id w Ww) as Sw.
    exists w. rewrite ID. unfold hs_eqb. rewrite Sq, Sw. destruct b.
    - destruct D as [D D']. assert (X : hs_hash w <> hs_hash q) by (intro X; apply D'; now apply (same_pos c V LW)).
      rewrite (proj2 (N.eqb_neq (hs_hash q) (hs_hash w))) by congruence.
      assert (id <> 0). { intros ->. pose proof (hi_zero c V t I) as Z0. rewrite Z0 in Ww. injection Ww as <-.
        rewrite (proj2 (lw_zero c V LW)) in D. apply D'. exact D. }
      replace (Z.abs_nat (- Z.of_nat id)) with id by lia. split; [exact Ww|]. destruct (Z.ltb_spec (- Z.of_nat id) 0); [exact D|lia].
    - rewrite (same_word_hash w q D), N.eqb_refl. cbn. replace (Z.abs_nat (Z.of_nat id)) with id by lia. split; [exact Ww|]. destruct (Z.ltb_spec (Z.of_nat id) 0); [lia|exact D].
  Qed.
  Lemma In_skipn {A} (x : A) n l : In x (skipn n l) -> In x l.
  Proof. revert l. induction n as [|n IH]; intros [|y l] H; cbn in *; auto. Qed.
  Lemma maps_same t o t' : (run_op c t o = Throw t' \/ run_op c t o = Done t' tt) -> (exists L, o = OUpdateMap L) \/ (t_map t' = t_map t /\ t_map_len t' = t_map_len t).
  Proof.
    assert (MS : forall l t0 t1 ids, merge_symbols t0 l = Done t1 ids -> t_map t1 = t_map t0 /\ t_map_len t1 = t_map_len t0).
    { assert (M1 : forall s t0 t1 id, merge_symbol t0 s = Done t1 id -> t_map t1 = t_map t0 /\ t_map_len t1 = t_map_len t0).
      { intros s t0 t1 id E. unfold merge_symbol in E. destruct (sy_hash s); [|discriminate]. destruct (sy_hash_conj s); [|discriminate].
        destruct (hfind n (t_hash t0)) as [v|]; [destruct (nth_error (t_syms t0) (Z.abs_nat v)); [|discriminate]; injection E as <- _; auto|]. cbn in E. injection E as <- _. auto. }
      induction l as [|s l IH]; intros t0 t1 ids E; cbn [merge_symbols] in E; [injection E as <- _; auto|].
      destruct (merge_symbol t0 s) as [t2 id| |] eqn:A; try discriminate. destruct (merge_symbols t2 l) as [t3 ids'| |] eqn:B; try discriminate. injection E as <- _.
      destruct (M1 _ _ _ _ A), (IH _ _ _ B). split; congruence. }
    assert (MT : forall l t0 t1, merge_symbols t0 l = Throw t1 -> False).
    { assert (M1 : forall s t0 t1, merge_symbol t0 s = Throw t1 -> False).
      { intros s t0 t1 E. unfold merge_symbol in E. destruct (sy_hash s); [|discriminate]. destruct (sy_hash_conj s); [|discriminate].
        destruct (hfind n (t_hash t0)) as [v|]; [destruct (nth_error (t_syms t0) (Z.abs_nat v)); discriminate|]. cbn in E. discriminate. }
      induction l as [|s l IH]; intros t0 t1 E; cbn [merge_symbols] in E; [discriminate|].
      destruct (merge_symbol t0 s) as [t2 id|t2|] eqn:A; try discriminate; [|exact (M1 _ _ _ A)].
      destruct (merge_symbols t2 l) as [t3 ids'|t3|] eqn:B; try discriminate. exact (IH _ _ B). }
    assert (CR : forall r i n t0, t_map (create_loop n t0 r i) = t_map t0 /\ t_map_len (create_loop n t0 r i) = t_map_len t0).
    { intros r i. induction n as [|n IH]; intro t0; [auto|]. cbn [create_loop]. destruct (IH (fst (create t0 r i))). split; [rewrite H|rewrite H0]; reflexivity. }
    assert (RN : forall l t0 d, t_map (renumber_loop l t0 d) = t_map t0 /\ t_map_len (renumber_loop l t0 d) = t_map_len t0).
    { induction l as [|s l IH]; intros t0 d; [auto|]. cbn [renumber_loop basis_push]. match goal with |- context [renumber_loop l ?t1 ?d1] => destruct (IH t1 d1) as [A B] end. split; [rewrite A|rewrite B]; reflexivity. }
    intro E. destruct o as [q|l|n r i|re im|L|L]; cbn [run_op] in E; [right..|left; eauto].
    - pose proof (MS [symbol_pair (if cx_alias c then cx_moment c (set_sign q SPos) else set_sign q SPos) (cx_conj c (if cx_alias c then cx_moment c (set_sign q SPos) else set_sign q SPos))] t) as X.
      pose proof (MT [symbol_pair (if cx_alias c then cx_moment c (set_sign q SPos) else set_sign q SPos) (cx_conj c (if cx_alias c then cx_moment c (set_sign q SPos) else set_sign q SPos))] t) as Y.
      cbn [merge_symbols] in X, Y. change (merge_symbol t (symbol_pair _ _)) with (merge_sequence c t q) in X, Y.
      destruct (merge_sequence c t q) as [t1 id|t1|]; cbn in E; destruct E as [E|E]; try discriminate; injection E as <-; [exact (X _ _ eq_refl)|destruct (Y _ eq_refl)].
    - destruct (merge_symbols t l) as [t1 ids|t1|] eqn:M; cbn in E; destruct E as [E|E]; try discriminate; injection E as <-; [exact (MS _ _ _ _ M)|destruct (MT _ _ _ M)].
    - cbn in E. destruct E as [E|E]; [discriminate|]. injection E as <-. apply CR.
    - unfold merge_bits in E. set (t0 := if Nat.ltb (length (t_syms t)) (length re) then fst (create_many t (length re - length (t_syms t)) true true) else t) in *.
      assert (X : t_map t0 = t_map t /\ t_map_len t0 = t_map_len t). { subst t0. destruct (Nat.ltb _ _); [apply CR|auto]. } clearbody t0.
      destruct (flag_loop re im [] (t_syms t0) false) as [[l y] u] in E. destruct u, y; cbn in E; destruct E as [E|E]; try discriminate; injection E as <-; [|exact X].
      assert (RR : forall t2, t_map (renumerate t2) = t_map t2 /\ t_map_len (renumerate t2) = t_map_len t2) by (intro t2; unfold renumerate; exact (RN (t_syms t2) (mk_table (t_syms t2) (t_hash t2) [] [] [] [] (t_map t2) (t_map_len t2)) [])).
      destruct (RR (set_syms t0 l)) as [A B]. cbn in A, B. destruct X. split; [transitivity (t_map t0)|transitivity (t_map_len t0)]; assumption.
    - unfold fill_to_word_length in E. destruct (Nat.ltb L (t_map_len t)); [cbn in E; destruct E as [E|E]; try discriminate; injection E as <-; auto|].
      destruct (merge_symbols t _) as [t1 ids|t1|] eqn:M; cbn in E; destruct E as [E|E]; try discriminate; injection E as <-; [exact (MS _ _ _ _ M)|destruct (MT _ _ _ M)].
  Qed.
  Lemma run_op_minv t o t' : hinv c V t -> op_ok c V o -> plain_words t -> minv t -> (run_op c t o = Throw t' \/ run_op c t o = Done t' tt) -> minv t'.
  Proof.
    intros I O P M E. destruct (run_op_hinv c V LW t o I O t' E) as [I' G]. destruct (maps_same t o t' E) as [[L ->]|[A B]].
    - cbn [run_op] in E. unfold update_map in E. destruct (Nat.leb_spec L (t_map_len t)) as [X|X]; [cbn in E; destruct E as [E|E]; try discriminate; injection E as <-; exact M|].
      destruct (map_entries c t (skipn (length (t_map t)) (cx_osg c L))) as [r|] eqn:ME; cbn in E; destruct E as [E|E]; try discriminate. injection E as <-. unfold minv. cbn [t_map t_map_len].
      destruct (proj2 NEST (t_map_len t) L) as [more N]; [lia|]. pose proof M as M'. unfold minv in M. pose proof (F2_length _ _ _ M) as LEN.
      rewrite N, <- LEN, skipn_app, skipn_all, Nat.sub_diag in ME. cbn in ME. rewrite N. apply Forall2_app.
      + revert M. apply Forall2_mono. intros q v (w & W & D). exists w. split; [exact W|exact D].
      + assert (O2 : forall q, In q more -> V q /\ hs_sign q = SPos) by (intros q Hq; apply O; rewrite N; apply in_or_app; now right).
        pose proof (map_entries_speak t more r I P O2 ME) as F. revert F. apply Forall2_mono. intros q v (w & W & D). exists w. split; [exact W|exact D].
    - unfold minv. rewrite A, B. revert M. apply Forall2_mono. intros q v. now apply speaks_grows.
  Qed.
  Lemma start_minv : minv table_start.
  Proof.
    unfold minv. cbn. rewrite (proj1 NEST). constructor; [|constructor]. exists (hseq_const false). split; [reflexivity|]. cbn. reflexivity.
  Qed.
  Lemma session_minv l : forall t t', hinv c V t -> Forall (op_ok c V) l -> minv t -> run_all c t l = Some t' -> plain_words t' -> minv t'.
  Proof.
    induction l as [|o l IH]; intros t t' I O M E P; cbn in E; [injection E as <-; exact M|]. inversion O as [|? ? O1 O2]; subst.
    assert (PW : plain_words t).
    { assert (G : grows t t') by (apply (run_all_hinv c V LW (o :: l) t t' I O); exact E). intros id w W. apply (P id w). now apply (grows_word t t'). }
    destruct (run_op c t o) as [t1 []|t1|] eqn:R; [| |discriminate]; destruct (run_op_hinv c V LW t o I O1 t1 ltac:(auto)) as [I1 _];
      (apply (IH t1 t' I1 O2); [|exact E|exact P]); apply (run_op_minv t o t1 I O1 PW M); auto.
  Qed.
  Lemma map_correct t : reachable c V t -> plain_words t -> map_agrees c t /\ length (t_map t) = length (cx_osg c (t_map_len t)).
  Proof.
    intros (l & O & E) P. pose proof (session_minv l table_start t (start_hinv c V LW) O start_minv E P) as M. split; [|symmetry; exact (F2_length _ _ _ M)].
    intros i id cj H. unfold map_index in H. destruct (nth_error (t_map t) i) as [v|] eqn:N; [|discriminate].
    unfold minv in M. revert i N. induction M as [|q v' lq lv S M IH]; intros i N; [destruct i; discriminate|]. destruct i as [|i]; cbn in N.
    - injection N as ->. exists q. split; [reflexivity|]. destruct S as (w & W & D). exists w. destruct (Z.ltb_spec v 0); injection H as <- <-.
      + replace (Z.to_nat (- v)) with (Z.abs_nat v) by lia. auto.
      + replace (Z.to_nat v) with (Z.abs_nat v) by lia. auto.
    - apply IH. exact N.
  Qed.
  (** after a bulk fill every word of the dictionary is found *)
  Lemma emplace_keys h s m k : In k (map fst (map_emplace h s m)) <-> k = h \/ In k (map fst m).
  Proof.
    induction m as [|[a b] m IH]; cbn; [intuition|]. destruct (N.ltb h a); cbn; [intuition|]. destruct (N.eqb_spec h a) as [->|D]; cbn; [intuition|]. rewrite IH. intuition.
  Qed.
  Lemma fill_keys l q : In q l -> N.leb (hs_hash q) (hs_hash (cx_conj c q)) = true -> forall m, In (hs_hash q) (map fst (fold_left (fill_entry c) l m)).
  Proof.
    intros H K. assert (MONO : forall l m k, In k (map fst m) -> In k (map fst (fold_left (fill_entry c) l m))).
    { clear. induction l as [|x l IH]; intros m k H; [exact H|]. cbn [fold_left]. apply IH. unfold fill_entry. destruct (cx_alias c && cx_reducible c x); [exact H|].
      destruct (N.eqb _ _); [|destruct (N.ltb _ _)]; try (apply emplace_keys; now right). exact H. }
    induction l as [|x l IH]; intro m; [destruct H|]. cbn [fold_left]. destruct H as [->|H]; [|apply IH; exact H]. apply MONO. unfold fill_entry. rewrite NA. cbn [andb].
    destruct (N.eqb_spec (hs_hash q) (hs_hash (cx_conj c q))); [apply emplace_keys; now left|].
    apply N.leb_le in K. destruct (N.ltb_spec (hs_hash q) (hs_hash (cx_conj c q))); [apply emplace_keys; now left|lia].
  Qed.
  Lemma fill_key_symbol l : forall m, (forall k s, In (k, s) m -> sy_hash s = Some k) -> forall k s, In (k, s) (fold_left (fill_entry c) l m) -> sy_hash s = Some k.
  Proof.
    assert (EM : forall h s m, sy_hash s = Some h -> (forall k x, In (k, x) m -> sy_hash x = Some k) -> forall k x, In (k, x) (map_emplace h s m) -> sy_hash x = Some k).
    { intros h s m Hs. induction m as [|[a b] m IH]; intros Hm k x; cbn; [intros [E|[]]; congruence|]. destruct (N.ltb h a); [intros [E|E]; [congruence|now apply Hm]|].
      destruct (N.eqb h a); [now apply Hm|]. intros [E|E]; [apply Hm; now left|]. apply IH; [|exact E]. intros; apply Hm; now right. }
    induction l as [|x l IH]; intros m Hm; [exact Hm|]. cbn [fold_left]. apply IH. unfold fill_entry. destruct (cx_alias c && cx_reducible c x); [exact Hm|].
    destruct (N.eqb _ _); [|destruct (N.ltb _ _)]; try exact Hm; apply EM; try exact Hm; reflexivity.
  Qed.
  Lemma merged_found l : forall t t' ids, hinv c V t -> Forall (symbol_ok c V) l -> merge_symbols t l = Done t' ids -> forall s h, In s l -> sy_hash s = Some h -> hfind h (t_hash t') <> None.
  Proof.
    induction l as [|x l IH]; intros t t' ids I O E s h H Hh; [destruct H|]. cbn [merge_symbols] in E. inversion O as [|? ? O1 O2]; subst.
    destruct (merge_symbol t x) as [t1 id| |] eqn:M; try discriminate. destruct (merge_symbols t1 l) as [t2 ids'| |] eqn:M2; try discriminate. injection E as <- _.
    destruct (symbol_ok_of c V LW x O1) as [q S]. destruct (merge_symbol_hinv c V LW t x q t1 id I S M) as (I1 & v & F & _). destruct H as [->|H].
    - destruct S as (_ & _ & Hq & _). rewrite Hh in Hq. injection Hq as ->.
      destruct (merge_symbols_step c V LW l t1 I1 O2) as (t3 & ids3 & E3 & _ & [_ G]). rewrite M2 in E3. injection E3 as <- <-. rewrite (G _ _ F). discriminate.
    - exact (IH t1 t2 ids' I1 O2 M2 s h H Hh).
  Qed.
  Lemma fill_then_map t L t1 n k : reachable c V t -> osg_ok c V L -> osg_conjugates c -> fill_to_word_length c t L = Done t1 (n, k) -> exists t2 b, update_map c t1 L = Done t2 b.
  Proof.
    intros Rt OK OC E. pose proof (reachable_hinv c V LW t Rt) as I. unfold fill_to_word_length in E. unfold update_map.
    destruct (Nat.ltb_spec L (t_map_len t)) as [X|X].
    - injection E as <- _ _. destruct (Nat.leb_spec L (t_map_len t)); [eauto|lia].
    - pose proof (fill_symbols_ok c V L OK) as O. destruct (merge_symbols t _) as [t3 ids| |] eqn:M; try discriminate. injection E as <- _ _.
      destruct (Nat.leb L (t_map_len t3)); [eauto|]. set (l := skipn _ _).
      assert (I3 : hinv c V t3). { destruct (merge_symbols_step c V LW _ t I O) as (t4 & i4 & E4 & I4 & _). rewrite M in E4. injection E4 as <- <-. exact I4. }
      assert (F : forall q, In q l -> V q /\ hfind (hs_hash q) (t_hash t3) <> None).
      { intros q Hq. subst l. apply In_skipn in Hq. destruct (OK q Hq) as [Vq Sq]. split; [exact Vq|].
        assert (KEY : forall x, In x (cx_osg c L) -> N.leb (hs_hash x) (hs_hash (cx_conj c x)) = true -> hfind (hs_hash x) (t_hash t3) <> None).
        { intros x Hx Lx. pose proof (fill_keys (cx_osg c L) x Hx Lx []) as Kx. apply in_map_iff in Kx as ([h s] & E1 & E2). cbn in E1. subst h.
          apply (merged_found _ t t3 ids I O M s); [apply in_map_iff; exists (hs_hash x, s); auto|]. revert E2. apply fill_key_symbol. intros ? ? []. }
        destruct (N.leb (hs_hash q) (hs_hash (cx_conj c q))) eqn:LE; [now apply KEY|]. apply N.leb_gt in LE.
        destruct (OC L q Hq) as (q' & Hq' & D). destruct (OK q' Hq') as [Vq' _]. pose proof (same_word_hash _ _ D) as H1.
        assert (H2 : hs_hash (cx_conj c q') = hs_hash q) by (apply (ch_invol c V LW q' q Vq' Vq); unfold ch; congruence).
        assert (X2 : hfind (hs_hash q') (t_hash t3) <> None) by (apply KEY; [exact Hq'|apply N.leb_le; lia]).
        intro Y. apply X2. pose proof (new_conj_new c V LW t3 q I3 Vq Y) as Z. unfold ch in Z. congruence. }
      assert (ME : exists r, map_entries c t3 l = Some r).
      { clearbody l. induction l as [|q l IH]; [exists []; reflexivity|]. destruct (F q (or_introl eq_refl)) as [Vq Fq].
        destruct IH as [r Er]; [intros; apply F; now right|]. destruct (hfind (hs_hash q) (t_hash t3)) as [v|] eqn:H; [|contradiction].
        destruct (hi_tab c V t3 I3 _ _ H) as (w & W & _). cbn [map_entries]. unfold where_, hash_to_index. rewrite H.
        assert (N : forall i, i = Z.abs_nat v -> exists s, nth_error (t_syms t3) i = Some s /\ sy_seq s = Some w).
        { intros i ->. unfold symbol_word in W. destruct (nth_error (t_syms t3) (Z.abs_nat v)) as [s|]; [eauto|discriminate]. }
        destruct (Z.leb_spec 0 v); cbn [lk_symbol].
        - destruct (N (Z.to_nat v)) as (s & -> & ->); [lia|]. rewrite Er. eauto.
        - destruct (N (Z.to_nat (- v))) as (s & -> & ->); [lia|]. rewrite Er. eauto. }
      destruct ME as [r ->]. eauto.
  Qed.
End Map.

(* ------------------------------------------------------------------ without Hermiticity updates nothing is renumbered *)
Definition extends (t t' : table) : Prop := exists ls lr li, t_syms t' = t_syms t ++ ls /\ t_real t' = t_real t ++ lr /\ t_imag t' = t_imag t ++ li.
Lemma extends_refl t : extends t t. Proof. exists [], [], []. now rewrite !app_nil_r. Qed.
Lemma extends_trans a b d : extends a b -> extends b d -> extends a d.
Proof.
  intros (l1 & l2 & l3 & A1 & A2 & A3) (m1 & m2 & m3 & B1 & B2 & B3). exists (l1 ++ m1), (l2 ++ m2), (l3 ++ m3).
  rewrite B1, B2, B3, A1, A2, A3, !app_assoc. auto.
Qed.
Lemma push_extends t id r i : let '(t1, re, im) := basis_push t id r i in forall h s, extends t (push_symbol (set_hash t1 h) s).
Proof.
  cbn. intros h s. exists [s], (if r then [id] else []), (if i then [id] else []). cbn. destruct r, i; rewrite ?app_nil_r; auto.
Qed.
Lemma merge_symbol_extends t s t' id : merge_symbol t s = Done t' id -> extends t t'.
Proof.
  intro E. unfold merge_symbol in E. destruct (sy_hash s); [|discriminate]. destruct (sy_hash_conj s); [|discriminate].
  destruct (hfind n (t_hash t)) as [v|]; [destruct (nth_error (t_syms t) (Z.abs_nat v)); [|discriminate]; injection E as <- _; apply extends_refl|].
  pose proof (push_extends t (length (t_syms t)) (negb (sy_anti s)) (negb (sy_herm s))) as P.
  destruct (basis_push t (length (t_syms t)) (negb (sy_anti s)) (negb (sy_herm s))) as [[t1 re] im]. injection E as <- _. apply P.
Qed.
Lemma merge_symbols_extends l : forall t t' ids, merge_symbols t l = Done t' ids -> extends t t'.
Proof.
  induction l as [|s l IH]; intros t t' ids E; cbn [merge_symbols] in E; [injection E as <- _; apply extends_refl|].
  destruct (merge_symbol t s) as [t1 id| |] eqn:M; try discriminate. destruct (merge_symbols t1 l) as [t2 ids'| |] eqn:M2; try discriminate. injection E as <- _.
  apply (extends_trans t t1); [now apply (merge_symbol_extends t s t1 id)|now apply (IH t1 t2 ids')].
Qed.
Lemma create_loop_extends r i n : forall t, extends t (create_loop n t r i).
Proof.
  induction n as [|n IH]; intro t; [apply extends_refl|]. cbn [create_loop]. apply (extends_trans t (fst (create t r i))); [|apply IH].
  unfold create. cbn. exists [mk_symbol (length (t_syms t)) None None (negb i) (negb r) (if r then Some (length (t_real t)) else None) (if i then Some (length (t_imag t)) else None)], (if r then [length (t_syms t)] else []), (if i then [length (t_syms t)] else []).
  cbn. destruct r, i; rewrite ?app_nil_r; auto.
Qed.
Lemma run_ops_extends c l : Forall (fun o => match o with OBits _ _ => False | _ => True end) l -> forall t t', run_ops c t l = Done t' tt -> extends t t'.
Proof.
  induction 1 as [|o l H _ IH]; intros t t' E; cbn in E; [injection E as <-; apply extends_refl|].
  destruct (run_op c t o) as [t1 []| |] eqn:R; try discriminate. apply (extends_trans t t1); [|now apply IH]. clear E IH.
  destruct o as [q|m|n r i|re im|L|L]; cbn [run_op] in R; [| | |contradiction| |].
  - destruct (merge_sequence c t q) as [t2 x| |] eqn:M; cbn in R; try discriminate. injection R as <-. exact (merge_symbol_extends t _ t2 x M).
  - destruct (merge_symbols t m) as [t2 x| |] eqn:M; cbn in R; try discriminate. injection R as <-. exact (merge_symbols_extends m t t2 x M).
  - cbn in R. injection R as <-. apply create_loop_extends.
  - unfold fill_to_word_length in R. destruct (Nat.ltb L (t_map_len t)); [cbn in R; injection R as <-; apply extends_refl|].
    destruct (merge_symbols t _) as [t2 x| |] eqn:M; cbn in R; try discriminate. injection R as <-. exact (merge_symbols_extends _ t t2 x M).
  - unfold update_map in R. destruct (Nat.leb L (t_map_len t)); [|destruct (map_entries c t _)]; cbn in R; try discriminate; injection R as <-; [apply extends_refl|].
    exists [], [], []. cbn. now rewrite !app_nil_r.
Qed.
Lemma basis_stable c l t t' : Forall (fun o => match o with OBits _ _ => False | _ => True end) l -> run_ops c t l = Done t' tt ->
  (forall id s, nth_error (t_syms t) id = Some s -> nth_error (t_syms t') id = Some s) /\
  (forall k id, nth_error (t_real t) k = Some id -> nth_error (t_real t') k = Some id) /\
  (forall k id, nth_error (t_imag t) k = Some id -> nth_error (t_imag t') k = Some id).
Proof.
  intros F E. destruct (run_ops_extends c l F t t' E) as (ls & lr & li & A & B & C). rewrite A, B, C.
  assert (G : forall (X : Type) (u v : list X) k x, nth_error u k = Some x -> nth_error (u ++ v) k = Some x).
  { intros X u v k x H. rewrite nth_error_app1; [exact H|]. apply nth_error_Some. congruence. }
  split; [|split]; intros; now apply G.
Qed.
(** in words: the basis indices are a bijection *)
Lemma numbered_bijection t : numbered t -> (forall i s, nth_error (t_syms t) i = Some s -> sy_id s = i) ->
  (forall id s, nth_error (t_syms t) id = Some s -> (has_re s = true <-> exists k, sy_re s = Some k) /\ (has_im s = true <-> exists k, sy_im s = Some k)) /\
  NoDup (t_real t) /\ NoDup (t_imag t).
Proof.
  intros H I.
  assert (ND : forall (p : symbol -> bool) l, NoDup (positions p l)).
  { intros p l. unfold positions. assert (X : NoDup (map fst (combine (seq 0 (length l)) l))).
    { assert (Y : forall (a : list nat) (b : list symbol), length a = length b -> map fst (combine a b) = a).
      { induction a as [|x a IH]; intros [|y b] K; cbn in *; try discriminate; [reflexivity|]. f_equal. apply IH. lia. }
      rewrite Y by apply seq_length. apply seq_NoDup. }
    revert X. generalize (combine (seq 0 (length l)) l). induction l0 as [|x l0 IH]; intro X; cbn; [constructor|]. cbn in X. inversion X as [|? ? N1 N2]; subst.
    destruct (p (snd x)); cbn; [|now apply IH]. constructor; [|now apply IH]. intro K. apply N1. apply in_map_iff in K as (y & <- & K). apply filter_In in K as [K _]. now apply in_map. }
  assert (IN : forall (p : symbol -> bool) l k, In k (positions p l) <-> exists s, nth_error l k = Some s /\ p s = true).
  { intros p l. induction l as [|x l IH] using rev_ind.
    - intro k. cbn. split; [intros []|]. intros (s & E & _). destruct k; discriminate.
    - intro k. rewrite positions_snoc, in_app_iff, IH. rewrite nth_error_snoc. destruct (Nat.eqb_spec k (length l)) as [->|D].
      + split.
        * intros [(s & E & _)|K]; [assert (length l < length l) by (apply nth_error_Some; congruence); lia|]. destruct (p x) eqn:P; [exists x; auto|destruct K].
        * intros (s & E & P). injection E as <-. rewrite P. right. now left.
      + split; [intros [X|K]; [exact X|]|auto]. destruct (p x); [|destruct K]. destruct K as [K|[]]. congruence. }
  split; [|rewrite (nb_real t H), (nb_imag t H); auto]. intros id s N. split.
  - split.
    + intro P. assert (K : In id (t_real t)) by (rewrite (nb_real t H); apply IN; eauto). apply In_nth_error in K as [k K]. exists k. now apply (nb_re t H id s k N).
    + intros [k K]. apply (nb_re t H id s k N) in K. apply nth_error_In in K. rewrite (nb_real t H) in K. apply IN in K as (s' & N' & P). congruence.
  - split.
    + intro P. assert (K : In id (t_imag t)) by (rewrite (nb_imag t H); apply IN; eauto). apply In_nth_error in K as [k K]. exists k. now apply (nb_im t H id s k N).
    + intros [k K]. apply (nb_im t H id s k N) in K. apply nth_error_In in K. rewrite (nb_imag t H) in K. apply IN in K as (s' & N' & P). congruence.
Qed.
