(** The storages of the library, one by one. *)
From Coq Require Import List NArith ZArith Arith Bool Lia Sorted.
From Verif Require Import CoreModel CoreSpec CoreProofs FieldModel PolyModel SymModel SymSpec PolySpec TreeModel TreeSpec TreeProofs MsModel PolyFinalProofs IdxModel IdxSpec IdxProofs.
Import ListNotations.
Local Open Scope nat_scope.

(** * Vectors *)
Lemma vset_nth v i o j d : i < length v -> nth j (vset v i o) d = if Nat.eqb i j then o else nth j v d.
Proof. revert i j. induction v as [|x v IH]; intros i j H; [cbn in H; lia|]. destruct i, j; cbn; try reflexivity. apply IH. cbn in H. lia. Qed.
Lemma vset_len v i o : length (vset v i o) = length v.
Proof. revert i. induction v as [|x v IH]; intros [|i]; cbn; auto. Qed.
Lemma vinsert_find v i o j : vfind (fst (vinsert v i o)) j = if Z.eqb (vfind v j) (-1) then if Nat.eqb i j then o else (-1)%Z else vfind v j.
Proof.
  assert (F : forall v j, vfind v j = nth j v (-1)%Z).
  { intros v0 j0. unfold vfind. destruct (Nat.leb_spec (length v0) j0); [now rewrite nth_overflow|reflexivity]. }
  rewrite !F. unfold vinsert. destruct (Nat.leb_spec (length v) i) as [L|L]; cbn [fst].
  - destruct (Nat.lt_ge_cases j (length v)) as [J|J].
    + rewrite app_nth1 by exact J. destruct (Nat.eqb_spec i j); [lia|]. destruct (Z.eqb_spec (nth j v (-1)%Z) (-1)); assumption || reflexivity.
    + rewrite app_nth2, (nth_overflow v) by exact J. cbn [Z.eqb Pos.eqb]. destruct (Nat.lt_ge_cases (j - length v) (i - length v)) as [G|G].
      * rewrite app_nth1 by (rewrite repeat_length; exact G). rewrite nth_repeat. destruct (Nat.eqb_spec i j); [lia|reflexivity].
      * rewrite app_nth2; rewrite repeat_length; [|exact G]. destruct (Nat.eqb_spec i j) as [->|Ne]; [replace (j - length v - (j - length v)) with 0 by lia; reflexivity|]. apply nth_overflow. cbn. lia.
  - destruct (Z.eqb_spec (nth i v (-1)%Z) (-1)) as [E|E]; cbn [fst].
    + rewrite vset_nth by exact L. destruct (Nat.eqb_spec i j) as [<-|Ne]; [rewrite E; reflexivity|]. destruct (Z.eqb_spec (nth j v (-1)%Z) (-1)); assumption || reflexivity.
    + destruct (Z.eqb_spec (nth j v (-1)%Z) (-1)) as [E'|E']; [|reflexivity]. destruct (Nat.eqb_spec i j) as [->|]; congruence.
Qed.
Definition vat (v : list Z) (i : nat) : option Z := if Z.eqb (vfind v i) (-1) then None else Some (vfind v i).
Lemma vector_faithful : faithful any eq vector_storage.
Proof.
  apply (faithful_from any eq Nat.eqb vector_storage vat).
  - intros a b _ _. apply Nat.eqb_eq.
  - intros hist k V _. revert k. induction hist as [|e hist IH] using rev_ind; intros k.
    + unfold vat. destruct k; reflexivity.
    + apply valid_app in V. destruct V as [V [_ Pe]]. specialize (IH V). rewrite after_app, first_app, <- IH. cbn [vector_storage st_insert]. unfold vat. rewrite vinsert_find.
      destruct (Z.eqb (vfind (after vector_storage hist) k) (-1)) eqn:E; cbn [vector_storage] in E |- *; rewrite ?E; [|reflexivity].
      destruct (Nat.eqb (fst e) k); [|reflexivity]. destruct (Z.eqb_spec (snd e) (-1)); [lia|reflexivity].
  - intros s k. cbn. unfold vat. destruct (Z.eqb_spec (vfind s k) (-1)); congruence.
  - intros hist k _ _. cbn [vector_storage st_contains]. unfold vat, vcontains, vfind. destruct (length _ <=? k); [reflexivity|]. destruct (Z.eqb _ (-1)); reflexivity.
  - intros hist k o _ _ _. cbn [vector_storage st_insert]. unfold vat, vinsert, vfind. destruct (length _ <=? k); [reflexivity|]. destruct (Z.eqb _ (-1)); reflexivity.
Qed.

(** * The tree of extended matrices *)
Lemma name_inj a b : (0 <= a < 2 ^ 32)%Z -> (0 <= b < 2 ^ 32)%Z -> to_symbol_name a = to_symbol_name b -> a = b.
Proof.
  unfold to_symbol_name. intros A B E. assert (E' : ((a + 2 ^ 31) mod 2 ^ 32 = (b + 2 ^ 31) mod 2 ^ 32)%Z) by lia. clear E.
  assert (P : (2 ^ 32 = 4294967296)%Z) by reflexivity. assert (P' : (2 ^ 31 = 2147483648)%Z) by reflexivity. rewrite P, P' in *. clear P P'.
  pose proof (Z.div_mod (a + 2147483648) 4294967296 ltac:(lia)). pose proof (Z.div_mod (b + 2147483648) 4294967296 ltac:(lia)).
  assert (0 <= (a + 2147483648) / 4294967296 < 2)%Z by (split; [apply Z.div_pos; lia|apply Z.div_lt_upper_bound; lia]).
  assert (0 <= (b + 2147483648) / 4294967296 < 2)%Z by (split; [apply Z.div_pos; lia|apply Z.div_lt_upper_bound; lia]). lia.
Qed.
Definition ext_path (k : ext_index) : list Z := to_symbol_name (fst k) :: snd k.
Lemma ext_at_find t k : ext_at t k = t_find (ext_path k) t.
Proof. unfold ext_at, ext_path. cbn. destruct (child _ _); reflexivity. Qed.
Lemma leaf_add (p : list Z) (v : Z) x : t_add_if_new true p v (t_leaf x) = t_add_if_new false p v (t_leaf x).
Proof. destruct p as [|y p]; reflexivity. Qed.
Lemma leaf_result (p : list Z) (v : Z) x : t_add_if_new_result true p v (t_leaf x) = t_add_if_new_result false p v (t_leaf x).
Proof. destruct p as [|y p]; reflexivity. Qed.
Lemma ext_insert_add t k o : ext_insert t k o = (t_add_if_new false (ext_path k) o t, t_add_if_new_result false (ext_path k) o t).
Proof.
  unfold ext_insert, ext_path. f_equal.
  - cbn [t_add_if_new]. f_equal. generalize (t_children t). intros l. induction l as [|c l IH]; cbn; [now rewrite leaf_add|]. destruct (Z.ltb _ _); [now rewrite IH|]. destruct (Z.eqb _ _); [reflexivity|]. now rewrite leaf_add.
  - cbn [t_add_if_new_result]. destruct (child _ _); [reflexivity|]. now rewrite leaf_result.
Qed.
Definition ext_history (hist : list (ext_index * Z)) : texp Z := fold_left (fun e x => TAddIfNew e (ext_path (fst x)) (snd x)) hist TNew.
Lemma ext_after hist : after extended_storage hist = t_eval (ext_history hist).
Proof.
  induction hist as [|e hist IH] using rev_ind; [reflexivity|]. rewrite after_app, IH. cbn [extended_storage st_insert]. rewrite ext_insert_add. unfold ext_history. rewrite fold_left_app. reflexivity.
Qed.
Definition ext_same (a b : ext_index) : bool := if path_eq_dec (ext_path b) (ext_path a) then true else false.
Lemma ext_entry hist k : entry (ext_history hist) (ext_path k) = first_with ext_same hist k.
Proof.
  induction hist as [|e hist IH] using rev_ind; [reflexivity|]. rewrite first_app, <- IH. unfold ext_history at 1. rewrite fold_left_app. cbn [fold_left entry]. fold (ext_history hist).
  destruct (entry (ext_history hist) (ext_path k)); [reflexivity|]. unfold ext_same. destruct (path_eq_dec _ _); reflexivity.
Qed.
Lemma extended_faithful : faithful level_fits eq extended_storage.
Proof.
  apply (faithful_from level_fits eq ext_same extended_storage ext_at).
  - intros [a la] [b lb] A B. unfold ext_same, ext_path. cbn [fst snd]. destruct (path_eq_dec _ _) as [E|E]; split; intro H; try discriminate; try reflexivity.
    + injection E as E1 E2. apply name_inj in E1; [congruence|exact B|exact A].
    + exfalso. apply E. injection H as -> ->. reflexivity.
  - intros hist k _ _. rewrite ext_at_find, ext_after, find_entry. apply ext_entry.
  - reflexivity.
  - reflexivity.
  - intros hist k o _ _ _. cbn [extended_storage st_insert]. rewrite ext_insert_add. cbn [snd]. rewrite ext_at_find. pose proof (ext_after hist) as E. cbn [extended_storage] in E. 
    change (snd (ext_insert (after extended_storage hist) k o) = match t_find (ext_path k) (after extended_storage hist) with Some o' => (o', false) | None => (o, true) end) || idtac.
    rewrite E, find_entry. apply add_if_new_returns.
Qed.

(** * Orders *)
Lemma both {A B} (x y : A * B) : fst x = fst y -> snd x = snd y -> x = y. Proof. destruct x, y. cbn. congruence. Qed.
Lemma sub_faithful : faithful any eq (map_storage sub_less).
Proof.
  apply (map_faithful any sub_less).
  - pose proof (lex_sw any any Z.ltb Z.ltb z_sw z_sw z_tie) as [A B C]. constructor; intros; [apply A|apply (B x y z)|apply C]; repeat split; assumption.
  - intros a b _ _. unfold sub_less. rewrite (lex_tie any any Z.ltb Z.ltb z_sw z_tie a b ltac:(split; exact I) ltac:(split; exact I)). split.
    + intros [E [F G]]. apply both; [exact E|]. now apply z_tie.
    + intros ->. rewrite Z.ltb_irrefl. auto.
Qed.
Lemma nn_faithful : faithful any eq (map_storage nn_less).
Proof.
  apply (map_faithful any nn_less nn_sw). intros a b _ _. split; [intros [E F]; now apply nn_tie|]. intros ->. rewrite (sw_irr _ _ nn_sw b I). auto.
Qed.
Section Words.
  Variables r L : nat.
  Hypothesis C : (count_words (N.of_nat r) L < two64)%N.
  Lemma loc_up_to_sign : faithful (fun k => hashed r L (snd k)) (fun a b => fst a = fst b /\ same_up_to_sign (snd a) (snd b)) (map_storage loc_less).
  Proof.
    apply (map_faithful (fun k => hashed r L (snd k)) loc_less).
    - pose proof (lex_sw any (hashed r L) Nat.ltb word_less nat_sw (word_sw _) nat_tie) as [A B D]. constructor; intros; [apply A|apply (B x y z)|apply D]; repeat split; assumption || apply H || apply H0 || apply H1.
    - intros a b A B. unfold loc_less. rewrite (lex_tie any (hashed r L) Nat.ltb word_less nat_sw nat_tie a b (Logic.conj I A) (Logic.conj I B)). rewrite (word_tie r L _ _ C A B). reflexivity.
  Qed.
  Lemma pauli_up_to_sign : faithful (fun k => hashed r L (snd k)) (fun a b => fst a = fst b /\ same_up_to_sign (snd a) (snd b)) (map_storage pauli_less).
  Proof.
    apply (map_faithful (fun k => hashed r L (snd k)) pauli_less).
    - pose proof (lex_sw any (hashed r L) nn_less word_less nn_sw (word_sw _) nn_tie) as [A B D]. constructor; intros; [apply A|apply (B x y z)|apply D]; repeat split; assumption || apply H || apply H0 || apply H1.
    - intros a b A B. unfold pauli_less. rewrite (lex_tie any (hashed r L) nn_less word_less nn_sw nn_tie a b (Logic.conj I A) (Logic.conj I B)). rewrite (word_tie r L _ _ C A B). reflexivity.
  Qed.
End Words.
Lemma faithful_weaken {K} (ok ok' : K -> Prop) (same same' : K -> K -> Prop) S : (forall k, ok' k -> ok k) -> (forall a b, ok' a -> ok' b -> (same' a b <-> same a b)) ->
  faithful ok same S -> faithful ok' same' S.
Proof.
  intros O E [F1 F2 F3 F4 F5].
  assert (V : forall h, valid ok' h -> valid ok h) by (intros h H k o I; destruct (H k o I); auto).
  assert (St : forall h k o, valid ok' h -> ok' k -> (stored same' h k o <-> stored same h k o)).
  { intros h k o Vh Ok. split; intros [b [k' [l [-> [A B]]]]]; exists b, k', l; (split; [reflexivity|]); (split; [apply E; auto; apply (Vh k' o), in_or_app; right; now left|]);
      intros e I X; apply (B e I); apply E; auto; destruct e as [ke oe]; apply (Vh ke oe), in_or_app; now left. }
  assert (Ms : forall h k, valid ok' h -> ok' k -> missing same' h k -> missing same h k).
  { intros h k Vh Ok M e I X. apply (M e I). apply E; auto. destruct e as [ke oe]. now apply (Vh ke oe). }
  constructor.
  - intros h k o Vh Ok X. apply F1; auto. now apply St.
  - intros h k Vh Ok X. apply F2; auto.
  - intros h k Vh Ok. rewrite F3 by auto. split; intros [o X]; exists o; now apply St.
  - intros h k o o' Vh Ok X G. apply F4; auto. now apply St.
  - intros h k o' Vh Ok X G. apply F5; auto.
Qed.
Lemma unsigned_same r L a b : unsigned r L a -> unsigned r L b -> (a = b <-> same_up_to_sign a b).
Proof.
  intros [[A1 [A2 A3]] A4] [[B1 [B2 B3]] B4]. unfold same_up_to_sign. split; [now intros ->|]. intros E. destruct a, b. cbn in *. congruence.
Qed.
Lemma loc_unsigned r L : (count_words (N.of_nat r) L < two64)%N -> faithful (fun k => unsigned r L (snd k)) eq (map_storage loc_less).
Proof.
  intros C. eapply faithful_weaken; [| |exact (loc_up_to_sign r L C)].
  - intros k [H _]. exact H.
  - intros a b A B. cbv beta in *. rewrite <- (unsigned_same r L _ _ A B). split; [intros ->; auto|intros [X Y]; now apply both].
Qed.
Lemma pauli_unsigned r L : (count_words (N.of_nat r) L < two64)%N -> faithful (fun k => unsigned r L (snd k)) eq (map_storage pauli_less).
Proof.
  intros C. eapply faithful_weaken; [| |exact (pauli_up_to_sign r L C)].
  - intros k [H _]. exact H.
  - intros a b A B. cbv beta in *. rewrite <- (unsigned_same r L _ _ A B). split; [intros ->; auto|intros [X Y]; now apply both].
Qed.
Section Poly.
  Variables (R : rfield) (t : table) (lt : mono R -> mono R -> bool) (rcmp : R -> R -> Z).
  Hypothesis TO : term_order t lt.
  Hypothesis EC : exact_compare rcmp.
  Lemma poly_sw : strict_weak (Forall (in_table t)) (poly_less (cmp_coefs rcmp lt)). Proof. apply (order_coefs_spec R t lt rcmp TO EC). Qed.
  Lemma poly_tie p q : Forall (in_table t) p -> Forall (in_table t) q -> (poly_less (cmp_coefs rcmp lt) p q = false /\ poly_less (cmp_coefs rcmp lt) q p = false <-> p = q).
  Proof. intros P Q. split; [intros [A B]; now apply (order_coefs_spec R t lt rcmp TO EC)|]. intros ->. rewrite (sw_irr _ _ poly_sw q Q). auto. Qed.
  Lemma poly_faithful : faithful (poly_ok t) eq (polynomial_storage (poly_index_less rcmp lt)).
  Proof.
    apply (polynomial_faithful (poly_ok t) (poly_index_less rcmp lt)).
    - pose proof (lex_sw any (Forall (in_table t)) Nat.ltb (poly_less (cmp_coefs rcmp lt)) nat_sw poly_sw nat_tie) as [A B C]. constructor; intros; [apply A|apply (B x y z)|apply C]; repeat split; assumption.
    - intros a b A B. unfold poly_index_less. rewrite (lex_tie any (Forall (in_table t)) Nat.ltb (poly_less (cmp_coefs rcmp lt)) nat_sw nat_tie a b (Logic.conj I A) (Logic.conj I B)). rewrite (poly_tie _ _ A B).
      split; [intros [X Y]; now apply both|intros ->; auto].
  Qed.
  Lemma nn_poly_faithful : faithful (poly_ok t) eq (polynomial_storage (nn_poly_less rcmp lt)).
  Proof.
    apply (polynomial_faithful (poly_ok t) (nn_poly_less rcmp lt)).
    - pose proof (lex_sw any (Forall (in_table t)) nn_less (poly_less (cmp_coefs rcmp lt)) nn_sw poly_sw nn_tie) as [A B C]. constructor; intros; [apply A|apply (B x y z)|apply C]; repeat split; assumption.
    - intros a b A B. unfold nn_poly_less. rewrite (lex_tie any (Forall (in_table t)) nn_less (poly_less (cmp_coefs rcmp lt)) nn_sw nn_tie a b (Logic.conj I A) (Logic.conj I B)). rewrite (poly_tie _ _ A B).
      split; [intros [X Y]; now apply both|intros ->; auto].
  Qed.
End Poly.
