(** Extended matrices made by one thread. *)
From Coq Require Import List ZArith Arith Bool Sorted Permutation Lia.
From Verif Require Import CoreModel FieldModel FieldProofs AlgModel InfModel InfSpec TreeModel FTabModel FTabSpec FTabListProofs FTabProofs FTabTableProofs FTabProductProofs FTabValueProofs ExtMatModel ExtMatSpec.
Import ListNotations.

Lemma put_in {A} cells (f m : nat -> nat -> A) i j : In (i, j) cells -> put cells f m i j = f i j.
Proof.
  intros I. unfold put. destruct (existsb _ cells) eqn:E; [reflexivity|]. exfalso. assert (existsb (fun x => (fst x =? i) && (snd x =? j)) cells = true); [|congruence].
  apply existsb_exists. exists (i, j). split; [exact I|]. cbn. now rewrite !Nat.eqb_refl.
Qed.
Lemma put_out {A} cells (f m : nat -> nat -> A) i j : ~ In (i, j) cells -> put cells f m i j = m i j.
Proof.
  intros N. unfold put. destruct (existsb _ cells) eqn:E; [|reflexivity]. apply existsb_exists in E. destruct E as [[a b] [I E]]. cbn in E.
  apply andb_prop in E. destruct E as [E1 E2]. apply Nat.eqb_eq in E1. apply Nat.eqb_eq in E2. subst. contradiction.
Qed.

Section Ext.
  Variables (outcomes : list nat) (srcs : list (list nat)) (nt : network) (L : nat).
  Hypothesis MK : make_network outcomes srcs = Some nt.
  Variable grow_to : nat -> nat.
  Variables (A : Type) (mono : nat -> A).
  Notation c := (inflate nt L).
  Notation sound_table := (sound_table srcs nt L).
  Notation factor_list := (factor_list srcs nt L).

  Lemma grows_len t t' : grows t t' -> length (ft_syms t) <= length (ft_syms t').
  Proof. intros [m [e [-> _]]]. rewrite app_length. lia. Qed.
  Lemma factors_back t t' k l : sound_table t -> grows t t' -> k < length (ft_syms t) -> factors t' k l -> factors t k l.
  Proof. intros S1 G Lt H. destruct (sound_entry srcs nt L t k S1 Lt) as [e [He _]]. rewrite (factors_fun t' k l (fe_syms e)); [now exists e|exact H|]. apply (grows_factors t); [exact G|now exists e]. Qed.
  Lemma fresh_refl t : sound_table t -> fresh t t.
  Proof. intros [S0 Le] i j l H [e [He _]] _. assert (i < length (ft_entries t)) by (apply nth_error_Some; congruence). lia. Qed.
  Lemma fresh_trans a b d : sound_table a -> sound_table b -> grows a b -> grows b d -> fresh a b -> fresh b d -> fresh a d.
  Proof.
    intros Sa Sb G1 G2 F1 F2 i j l H Hi Hj. destruct (Nat.lt_ge_cases i (length (ft_syms b))) as [Li|Li]; [|now apply (F2 i j l)].
    destruct (Nat.lt_ge_cases j (length (ft_syms b))) as [Lj|Lj]; [|symmetry; now apply (F2 j i l)].
    apply (F1 i j l H); apply (factors_back b d); assumption.
  Qed.
  Lemma register_fresh t t' id ks : sound_table t -> sound_table t' -> grows t t' -> factors t' id ks ->
    (t' = t \/ (id = length (ft_syms t) /\ length (ft_syms t') = S (length (ft_syms t)) /\ forall e, In e (ft_entries t) -> fe_syms e <> ks)) -> fresh t t'.
  Proof.
    intros S1 S2 G Fk [->|[-> [Ln N]]]; [now apply fresh_refl|]. intros i j l H Hi Hj.
    assert (B : forall x, factors t' x l -> x < S (length (ft_syms t))) by (intros x [e [He _]]; rewrite <- Ln; destruct S2 as [S2 Le]; rewrite <- Le; apply nth_error_Some; congruence).
    pose proof (B i Hi). pose proof (B j Hj). assert (i = length (ft_syms t)) as -> by lia. destruct (Nat.eq_dec j (length (ft_syms t))) as [->|Nj]; [reflexivity|]. exfalso.
    rewrite (factors_fun t' _ _ _ Hi Fk) in Hj. apply (factors_back t t') in Hj; [|assumption|assumption|lia]. destruct Hj as [e [He E]]. apply (N e); [eapply nth_error_In; exact He|exact E].
  Qed.
  (** tables that come about by registering products *)
  Definition step_to (t t' : ftab) : Prop := sound_table t' /\ grows t t' /\ fresh t t'.
  Lemma step_refl t : sound_table t -> step_to t t.
  Proof. intros H. split; [exact H|]. split; [apply grows_refl|now apply fresh_refl]. Qed.
  Lemma step_trans a b d : sound_table a -> step_to a b -> step_to b d -> step_to a d.
  Proof. intros Sa [S1 [G1 F1]] [S2 [G2 F2]]. split; [exact S2|]. split; [now apply (grows_trans a b)|now apply (fresh_trans a b)]. Qed.

  Definition prodsym (t : ftab) (id a b : nat) : Prop := exists la lb, factors t a la /\ factors t b lb /\ factors t id (combine_factors la lb).
  Lemma prodsym_grows t t' id a b : grows t t' -> prodsym t id a b -> prodsym t' id a b.
  Proof. intros G [la [lb [X [Y Z]]]]. exists la, lb. repeat split; now apply (grows_factors t). Qed.
  Lemma factors_list t k l : sound_table t -> factors t k l -> factor_list t l.
  Proof. intros S1 [e [He <-]]. apply (entry_list outcomes srcs nt L MK t e S1). eapply nth_error_In. exact He. Qed.
  Lemma prodsym_ok t id a b : sound_table t -> prodsym t id a b -> product_symbol t id a b.
  Proof.
    intros S1 [la [lb [X [Y Z]]]]. pose proof (factors_list t a la S1 X) as Ha. pose proof (factors_list t b lb S1 Y) as Hb. split.
    - destruct Z as [e [He _]]. now apply (se_id _ _ _ _ (proj1 S1) id e).
    - intros R v Mv. destruct X as [ea [Ea <-]], Y as [eb [Eb <-]], Z as [e [He Es]]. destruct Mv as [V0 [V1 V]]. rewrite (V id e He), (V a ea Ea), (V b eb Eb), Es.
      apply cproduct_combine; try assumption; [apply Ha|apply Hb|apply Ha|apply Hb].
  Qed.
  Lemma prodsym_sym_value t id a b : product_symbol t id a b -> product_symbol t id b a.
  Proof. intros [H1 H2]. split; [exact H1|]. intros R v Mv. rewrite (H2 R v Mv). apply (Rmul_comm (cx_ring R)). Qed.
  Lemma known t k : sound_table t -> k < length (ft_syms t) -> exists e, entry_of t k = FOk e /\ nth_error (ft_entries t) k = Some e.
  Proof. apply (entry_ok srcs nt L). Qed.

  (** capacity *)
  Lemma combine_size t l r t' id : combine_and_register grow_to t l r = FOk (t', id) ->
    length (ft_entries t) <= length (ft_entries t') <= S (length (ft_entries t)) /\ (length (ft_entries t) < ft_cap t -> ft_cap t' = ft_cap t).
  Proof.
    unfold combine_and_register, create_product. destruct (find_factors t (combine_factors l r)); [intros E; injection E as <- <-; split; [lia|auto]|].
    destruct (sequences_of _ _); try discriminate. cbn [fbind]. intros E. injection E as <- <-. unfold add_index, push_entry, set_syms. cbn [ft_entries ft_cap]. rewrite app_length. cbn [length]. split; [lia|].
    intros Lt. destruct (Nat.ltb_spec (length (ft_entries t)) (ft_cap t)); [reflexivity|lia].
  Qed.

  (** * Rows *)
  Lemma row_ok : forall exts t m source k row col, sound_table t -> factors t k source -> (forall s, In s exts -> s < length (ft_syms t)) -> row < col ->
    exists t' m', extend_row mono grow_to t m source row col exts = FOk (t', m') /\ step_to t t' /\
      (length (ft_entries t') <= length (ft_entries t) + length exts /\ (length (ft_entries t) + length exts <= ft_cap t -> ft_cap t' = ft_cap t)) /\
      (forall j b, nth_error exts j = Some b -> exists id, m' row (col + j) = mono id /\ m' (col + j) row = mono id /\ prodsym t' id k b) /\
      (forall x y, ~ (x = row /\ col <= y) -> ~ (y = row /\ col <= x) -> m' x y = m x y).
  Proof.
    induction exts as [|s exts IH]; intros t m source k row col S1 Fk He Lt.
    - exists t, m. split; [reflexivity|]. split; [now apply step_refl|]. split; [split; [cbn; lia|auto]|]. split; [intros [|j] b H; discriminate|auto].
    - destruct (known t s S1 (He s (or_introl eq_refl))) as [e [E1 E2]].
      assert (Fs : factors t s (fe_syms e)) by now exists e.
      destruct (combine_register_spec outcomes srcs nt L MK grow_to t source (fe_syms e) S1 (factors_list t k _ S1 Fk) (factors_list t s _ S1 Fs)) as [t1 [id [C1 [C2 [C3 [C4 C5]]]]]].
      assert (St : step_to t t1) by (split; [exact C2|split; [exact C3|eapply register_fresh; eassumption]]).
      destruct (combine_size _ _ _ _ _ C1) as [Z1 Z2].
      destruct (IH t1 (put (both row col) (fun _ _ => mono id) m) source k row (S col) C2) as [t' [m' [B1 [B2 [B3 [B4 B5]]]]]].
      + now apply (grows_factors t).
      + intros x I. pose proof (grows_len t t1 C3). specialize (He x (or_intror I)). lia.
      + lia.
      + exists t', m'. split; [cbn [extend_row]; rewrite E1; cbn [fbind]; rewrite C1; exact B1|]. split; [now apply (step_trans t t1)|]. split; [|split].
        * cbn [length]. destruct B3 as [B3 B3']. split; [lia|]. intros H. rewrite <- Z2 by lia. apply B3'. rewrite Z2; lia.
        * intros [|j] b Hj.
          -- cbn in Hj. injection Hj as <-. exists id. rewrite Nat.add_0_r. rewrite !B5 by lia. rewrite !put_in by (cbn; auto).
             split; [reflexivity|]. split; [reflexivity|]. apply (prodsym_grows t1); [apply B2|]. exists source, (fe_syms e). repeat split; [now apply (grows_factors t)..|exact C4].
          -- cbn in Hj. replace (col + S j) with (S col + j) by lia. now apply B4.
        * intros x y N1 N2. rewrite B5 by lia. apply put_out. cbn. intros [E|[E|[]]]; injection E as <- <-; [apply N1|apply N2]; lia.
  Qed.
  Lemma find_symbol t k q : sound_table t -> symbol_seq t k q -> find_seq q (ft_syms t) = Some k.
  Proof.
    intros S1 H. destruct (find_seq q (ft_syms t)) as [j|] eqn:E; [|exfalso; now apply (find_seq_none _ _ E k)].
    apply find_seq_some in E. f_equal. apply (se_once _ _ _ _ (proj1 S1) j k q E H).
  Qed.
  Notation settles := (settles nt L).
  Lemma generator_settles t w k r : sound_table t -> moment_of nt L w r -> symbol_seq t k (Some r) -> settles (fun fuel scratch => generator_symbol c fuel scratch t w) k.
  Proof.
    intros S1 Hm Hk. unfold generator_symbol.
    apply (settles_bind nt L (fun fuel scratch => canonical_seq c fuel scratch (Some w)) (fun _ _ q => match find_seq q (ft_syms t) with Some k => FOk k | None => FUndef end) (Some r));
      [exact (canonical_settles nt L w r Hm)|]. rewrite (find_symbol t k _ S1 Hk). apply settles_ret.
  Qed.
  Lemma gens_grow t t' words cols : grows t t' -> generators nt L t words cols -> generators nt L t' words cols.
  Proof. intros G. apply forall2_imp. intros w k [N [r [H1 H2]]]. split; [exact N|]. exists r. split; [exact H1|now apply (grows_seq t)]. Qed.
  Lemma rows_ok exts n : forall words cols t m row, sound_table t -> generators nt L t words cols -> (forall s, In s exts -> s < length (ft_syms t)) -> row + length words = n ->
    exists t' m', settles (fun fuel scratch => extend_rows mono c fuel scratch grow_to t m n row words exts) (t', m') /\ step_to t t' /\
      (length (ft_entries t') <= length (ft_entries t) + length words * length exts /\ (length (ft_entries t) + length words * length exts <= ft_cap t -> ft_cap t' = ft_cap t)) /\
      (forall i a j b, nth_error cols i = Some a -> nth_error exts j = Some b -> exists id, m' (row + i) (n + j) = mono id /\ m' (n + j) (row + i) = mono id /\ prodsym t' id a b) /\
      (forall x y, ~ (row <= x < n /\ n <= y) -> ~ (row <= y < n /\ n <= x) -> m' x y = m x y).
  Proof.
    induction words as [|w words IH]; intros cols t m row S1 G He Hn; destruct cols as [|k cols'];
      try (exfalso; now inversion G).
    - exists t, m. split; [apply settles_ret|]. split; [now apply step_refl|]. split; [split; [cbn; lia|auto]|]. split; [intros [|i] a j b H; discriminate|auto].
    - inversion_clear G as [|x0 y0 l0 l0' [N [r [H1 H2]]] G']. assert (Kk : k < length (ft_syms t)) by (apply nth_error_Some; unfold symbol_seq in H2; congruence).
      destruct (known t k S1 Kk) as [e [E1 E2]]. cbn [length] in Hn.
      destruct (row_ok exts t m (fe_syms e) k row n S1) as [t1 [m1 [A1 [A2 [A3 [A4 A5]]]]]]; [now exists e|exact He|lia|].
      destruct (IH cols' t1 m1 (S row) (proj1 A2)) as [t' [m' [B1 [B2 [B3 [B4 B5]]]]]].
      + apply (gens_grow t); [apply A2|exact G'].
      + intros x I. pose proof (grows_len t t1 (proj1 (proj2 A2))). specialize (He x I). lia.
      + lia.
      + exists t', m'. split; [|split; [now apply (step_trans t t1)|split; [|split]]].
        * cbn [extend_rows]. apply (settles_bind nt L (fun fuel scratch => generator_symbol c fuel scratch t w) (fun fuel scratch k => fbind (entry_of t k) (fun e =>
            fbind (extend_row mono grow_to t m (fe_syms e) row n exts) (fun x => let '(t', m') := x in extend_rows mono c fuel scratch grow_to t' m' n (S row) words exts))) k);
            [exact (generator_settles t w k r S1 H1 H2)|]. rewrite E1. cbn [fbind]. rewrite A1. cbn [fbind]. exact B1.
        * cbn [length]. destruct A3 as [A3 A3'], B3 as [B3 B3']. split; [lia|]. intros H. rewrite <- A3' by lia. apply B3'. rewrite A3'; lia.
        * intros [|i] a j b Hi Hj.
          -- cbn in Hi. injection Hi as <-. rewrite Nat.add_0_r. destruct (A4 j b Hj) as [id [X [Y Z]]]. exists id. rewrite !B5 by lia.
             split; [exact X|]. split; [exact Y|]. apply (prodsym_grows t1); [apply B2|exact Z].
          -- replace (row + S i) with (S row + i) by lia. now apply B4.
        * intros x y N1 N2. rewrite B5 by lia. apply A5; lia.
  Qed.

  (** * The bottom right block *)
  Lemma moved_cap t t' : ft_cap t > length (ft_entries t) -> moved t t' = false.
  Proof. intros H. unfold moved. destruct (Nat.leb_spec (ft_cap t) (length (ft_entries t))); [lia|]. apply andb_false_r. Qed.
  Lemma corner_row_ok : forall exts t m valid rowf k row col, sound_table t -> factors t k rowf -> (forall s, In s exts -> s < length (ft_syms t)) -> row < col ->
    (corner_row mono grow_to t m valid rowf row col exts = FUndef /\ exts <> [] /\ (valid = false \/ length (ft_entries t) + length exts > ft_cap t)) \/
    exists t' m', corner_row mono grow_to t m valid rowf row col exts = FOk (t', m') /\ step_to t t' /\
      (length (ft_entries t') <= length (ft_entries t) + length exts /\ (length (ft_entries t) + length exts <= ft_cap t -> ft_cap t' = ft_cap t)) /\
      (forall j b, nth_error exts j = Some b -> exists id, m' row (col + j) = mono id /\ m' (col + j) row = mono id /\ prodsym t' id k b) /\
      (forall x y, ~ (x = row /\ col <= y) -> ~ (y = row /\ col <= x) -> m' x y = m x y).
  Proof.
    induction exts as [|s exts IH]; intros t m valid rowf k row col S1 Fk He Lt.
    - right. exists t, m. split; [reflexivity|]. split; [now apply step_refl|]. split; [split; [cbn; lia|auto]|]. split; [intros [|j] b H; discriminate|auto].
    - destruct (known t s S1 (He s (or_introl eq_refl))) as [e [E1 E2]].
      cbn [corner_row]. rewrite E1. cbn [fbind]. destruct valid; cbn [negb]; [|left; split; [reflexivity|split; [discriminate|now left]]].
      assert (Fs : factors t s (fe_syms e)) by now exists e.
      destruct (combine_register_spec outcomes srcs nt L MK grow_to t rowf (fe_syms e) S1 (factors_list t k _ S1 Fk) (factors_list t s _ S1 Fs)) as [t1 [id [C1 [C2 [C3 [C4 C5]]]]]].
      assert (St : step_to t t1) by (split; [exact C2|split; [exact C3|eapply register_fresh; eassumption]]).
      destruct (combine_size _ _ _ _ _ C1) as [Z1 Z2]. rewrite C1. cbn [fbind].
      destruct (IH t1 (put (both row col) (fun _ _ => mono id) m) (negb (moved t t1)) rowf k row (S col) C2) as [[U1 [U2 U3]]|[t' [m' [B1 [B2 [B3 [B4 B5]]]]]]].
      + now apply (grows_factors t).
      + intros x I. pose proof (grows_len t t1 C3). specialize (He x (or_intror I)). lia.
      + lia.
      + left. split; [exact U1|]. split; [discriminate|]. right. cbn [length]. destruct (Nat.lt_ge_cases (ft_cap t) (length (ft_entries t) + S (length exts))) as [X|X]; [lia|exfalso].
        destruct U3 as [U3|U3]; [rewrite moved_cap in U3 by lia; discriminate|]. rewrite Z2 in U3 by lia. lia.
      + right. exists t', m'. split; [exact B1|]. split; [now apply (step_trans t t1)|]. split; [|split].
        * cbn [length]. destruct B3 as [B3 B3']. split; [lia|]. intros H. rewrite <- Z2 by lia. apply B3'. rewrite Z2; lia.
        * intros [|j] b Hj.
          -- cbn in Hj. injection Hj as <-. exists id. rewrite Nat.add_0_r. rewrite !B5 by lia. rewrite !put_in by (cbn; auto).
             split; [reflexivity|]. split; [reflexivity|]. apply (prodsym_grows t1); [apply B2|]. exists rowf, (fe_syms e). repeat split; [now apply (grows_factors t)..|exact C4].
          -- cbn in Hj. replace (col + S j) with (S col + j) by lia. now apply B4.
        * intros x y N1 N2. rewrite B5 by lia. apply put_out. cbn. intros [E|[E|[]]]; injection E as <- <-; [apply N1|apply N2]; lia.
  Qed.
  Lemma corner_ok : forall exts t m row, sound_table t -> (forall s, In s exts -> s < length (ft_syms t)) ->
    (corner mono grow_to t m row exts = FUndef /\ 2 <= length exts /\ length (ft_entries t) + length exts * length exts > ft_cap t) \/
    exists t' m', corner mono grow_to t m row exts = FOk (t', m') /\ step_to t t' /\
      (forall i a j b, nth_error exts i = Some a -> nth_error exts j = Some b -> exists id, m' (row + i) (row + j) = mono id /\ m' (row + j) (row + i) = mono id /\ (prodsym t' id a b \/ prodsym t' id b a)) /\
      (forall x y, x < row \/ y < row -> m' x y = m x y).
  Proof.
    induction exts as [|s exts IH]; intros t m row S1 He.
    - right. exists t, m. split; [reflexivity|]. split; [now apply step_refl|]. split; [intros [|i] a j b H; discriminate|auto].
    - destruct (known t s S1 (He s (or_introl eq_refl))) as [e [E1 E2]]. cbn [corner]. rewrite E1. cbn [fbind].
      assert (Fs : factors t s (fe_syms e)) by now exists e.
      destruct (combine_register_spec outcomes srcs nt L MK grow_to t (fe_syms e) (fe_syms e) S1 (factors_list t s _ S1 Fs) (factors_list t s _ S1 Fs)) as [t1 [id [C1 [C2 [C3 [C4 C5]]]]]].
      assert (St : step_to t t1) by (split; [exact C2|split; [exact C3|eapply register_fresh; eassumption]]).
      destruct (combine_size _ _ _ _ _ C1) as [Z1 Z2]. rewrite C1. cbn [fbind].
      assert (He1 : forall x, In x exts -> x < length (ft_syms t1)) by (intros x I; pose proof (grows_len t t1 C3); specialize (He x (or_intror I)); lia).
      destruct (corner_row_ok exts t1 (put [(row, row)] (fun _ _ => mono id) m) (negb (moved t t1)) (fe_syms e) s row (S row) C2) as [[U1 [U2 U3]]|[t2 [m2 [B1 [B2 [B3 [B4 B5]]]]]]].
      + now apply (grows_factors t).
      + exact He1.
      + lia.
      + left. rewrite U1. split; [reflexivity|]. cbn [length]. split; [destruct exts; [congruence|cbn; lia]|].
        destruct (Nat.lt_ge_cases (ft_cap t) (length (ft_entries t) + S (length exts) * S (length exts))) as [X|X]; [lia|exfalso].
        destruct U3 as [U3|U3]; [rewrite moved_cap in U3 by nia; discriminate|]. rewrite Z2 in U3 by nia. nia.
      + rewrite B1. cbn [fbind]. destruct (IH t2 m2 (S row) (proj1 B2)) as [[U1 [U2 U3]]|[t' [m' [D1 [D2 [D3 D4]]]]]].
        * intros x I. pose proof (grows_len t1 t2 (proj1 (proj2 B2))). specialize (He1 x I). lia.
        * left. split; [exact U1|]. cbn [length]. split; [lia|]. destruct B3 as [B3 B3'].
          destruct (Nat.lt_ge_cases (ft_cap t) (length (ft_entries t) + S (length exts) * S (length exts))) as [X|X]; [lia|exfalso].
          rewrite B3', Z2 in U3 by nia. nia.
        * right. exists t', m'. split; [exact D1|]. split; [apply (step_trans t t1 t' S1 St); apply (step_trans t1 t2 t' C2 B2 D2)|]. split.
          -- assert (G2 : grows t2 t') by apply D2. assert (G1 : grows t1 t') by (apply (grows_trans t1 t2); [apply B2|exact G2]).
             intros [|i] a [|j] b Hi Hj; cbn in Hi, Hj.
             ++ injection Hi as <-. injection Hj as <-. exists id. rewrite Nat.add_0_r, D4, B5, put_in by (lia || (cbn; auto)). split; [reflexivity|]. split; [reflexivity|]. left.
                apply (prodsym_grows t1); [exact G1|]. exists (fe_syms e), (fe_syms e). repeat split; [now apply (grows_factors t)..|exact C4].
             ++ injection Hi as <-. destruct (B4 j b Hj) as [id' [X [Y Z]]]. exists id'. rewrite Nat.add_0_r, !D4 by lia. replace (row + S j) with (S row + j) by lia.
                split; [exact X|]. split; [exact Y|]. left. now apply (prodsym_grows t2).
             ++ injection Hj as <-. destruct (B4 i a Hi) as [id' [X [Y Z]]]. exists id'. rewrite Nat.add_0_r, !D4 by lia. replace (row + S i) with (S row + i) by lia.
                split; [exact Y|]. split; [exact X|]. right. now apply (prodsym_grows t2).
             ++ replace (row + S i) with (S row + i) by lia. replace (row + S j) with (S row + j) by lia. now apply D3.
          -- intros x y H. rewrite D4, B5 by lia. apply put_out. cbn. intros [E|[]]. injection E as <- <-. lia.
  Qed.

  (** * The whole matrix *)
  Lemma prodsym_either t id a b : sound_table t -> prodsym t id a b \/ prodsym t id b a -> product_symbol t id a b.
  Proof. intros S1 [H|H]; [now apply prodsym_ok|]. apply prodsym_sym_value. now apply prodsym_ok. Qed.
  Lemma single_unknown t src words exts fuel scratch : (exists s, In s exts /\ length (ft_syms t) <= s) ->
    extend_single mono c fuel scratch grow_to t (length words) src words exts = FThrow.
  Proof.
    intros [s [I H]]. unfold extend_single. assert (existsb (fun s => length (ft_syms t) <=? s) exts = true) as ->; [|reflexivity].
    apply existsb_exists. exists s. split; [exact I|]. now apply Nat.leb_le.
  Qed.
  Lemma single_ok t src words cols exts : sound_table t -> generators nt L t words cols -> (forall s, In s exts -> s < length (ft_syms t)) ->
    (2 <= length exts /\ ft_cap t < length (ft_entries t) + (length cols + length exts) * length exts /\
      (exists k, forall fuel scratch, k <= fuel -> length scratch = total_sources nt L -> extend_single mono c fuel scratch grow_to t (length words) src words exts = FUndef) /\
      (forall fuel scratch, length scratch = total_sources nt L -> extend_single mono c fuel scratch grow_to t (length words) src words exts = FUndef \/ extend_single mono c fuel scratch grow_to t (length words) src words exts = FFuel)) \/
    exists t' m, settles (fun fuel scratch => extend_single mono c fuel scratch grow_to t (length words) src words exts) (t', m) /\
      sound_table t' /\ grows t t' /\ fresh t t' /\ extended mono t' src cols exts m.
  Proof.
    intros S1 G He. assert (Ln : length words = length cols) by (apply (forall2_len _ _ _ G)).
    assert (Ex : existsb (fun s => length (ft_syms t) <=? s) exts = false).
    { destruct (existsb _ exts) eqn:E; [|reflexivity]. apply existsb_exists in E. destruct E as [s [I H]]. apply Nat.leb_le in H. specialize (He s I). lia. }
    destruct (rows_ok exts (length words) words cols t (pad mono (length words) src) 0 S1 G He eq_refl) as [t1 [m1 [A1 [A2 [A3 [A4 A5]]]]]].
    destruct (corner_ok exts t1 m1 (length words) (proj1 A2)) as [[U1 [U2 U3]]|[t' [m [B1 [B2 [B3 B4]]]]]].
    - intros s I. pose proof (grows_len t t1 (proj1 (proj2 A2))). specialize (He s I). lia.
    - left. split; [exact U2|]. split.
      + destruct A3 as [A3 A3']. rewrite Ln in *. destruct (Nat.lt_ge_cases (ft_cap t) (length (ft_entries t) + (length cols + length exts) * length exts)) as [X|X]; [exact X|exfalso].
        rewrite A3' in U3 by nia. nia.
      + destruct A1 as [[k A1] A1']. unfold extend_single. rewrite Ex. split.
        * exists k. intros fuel scratch Hf Hs. rewrite A1 by assumption. exact U1.
        * intros fuel scratch Hs. destruct (A1' fuel scratch Hs) as [-> | ->]; cbn [fbind]; auto.
    - right. exists t', m. split; [|split; [apply B2|split; [|split; [|split]]]].
      + unfold extend_single. rewrite Ex.
        apply (settles_bind nt L (fun fuel scratch => extend_rows mono c fuel scratch grow_to t (pad mono (length words) src) (length words) 0 words exts)
          (fun _ _ x => let '(t', m') := x in corner mono grow_to t' m' (length words) exts) (t1, m1)); [exact A1|]. rewrite B1. apply settles_ret.
      + apply (grows_trans t t1); [apply A2|apply B2].
      + apply (fresh_trans t t1); try assumption; [apply A2|apply A2|apply B2|apply A2|apply B2].
      + intros i j Hi Hj. rewrite <- Ln in *. rewrite B4 by lia. rewrite A5 by lia. unfold pad. destruct (Nat.ltb_spec i (length words)); [|lia]. destruct (Nat.ltb_spec j (length words)); [|lia]. reflexivity.
      + intros i j a b Hi Hj. assert (i < length cols) by (apply nth_error_Some; congruence). rewrite <- Ln in *. destruct (A4 i a j b Hi Hj) as [id [X [Y Z]]]. cbn in X, Y.
        exists id. rewrite !B4 by lia. split; [exact X|]. split; [exact Y|]. apply prodsym_ok; [apply B2|]. apply (prodsym_grows t1); [apply B2|exact Z].
      + intros i j a b Hi Hj. rewrite <- Ln. destruct (B3 i a j b Hi Hj) as [id [X [Y Z]]]. exists id. split; [exact X|]. split; [exact Y|]. apply prodsym_either; [apply B2|exact Z].
  Qed.
End Ext.
