From Coq Require Import NArith ZArith Arith Bool List Lia.
From Verif Require Import CoreModel FieldModel FieldProofs SymModel SymSpec SymProofs SymFinalProofs PolyModel PolySpec PolyProofs PolyTableProofs PolyFinalProofs.
From Verif Require RawModel RawProofs.
From Verif Require Import StgModel StgSpec StgProofs.
Import ListNotations.
Local Open Scope list_scope.
Local Open Scope nat_scope.

Section Sessions.
  Variables (c : sctx) (V : hseq -> Prop).
  Hypothesis LW : lawful c V.
  Variable R : rfield.
  Variable E : hseq -> cx R.
  Hypothesis EX : expectation c V R E.
  Hypothesis UC : unsigned_conj c V.
  Notation term := (PolyModel.mono R).
  Notation raw_ok := (@raw_ok R V).
  Implicit Types (t : table) (x : sterm (R:=R)) (raw : list (hseq * cx R)) (l : list (sterm (R:=R))).

  Lemma pos_pos q : pos (pos q) = pos q. Proof. reflexivity. Qed.
  (** the symbol made for an unknown word *)
  Lemma not_found t q : V q -> lk_symbol (where_ c t q) = None -> lk_conj (where_ c t q) = false /\ hfind (hs_hash (table_entry c q)) (t_hash t) = None.
  Proof.
    intros Vq. unfold where_, table_entry. destruct (hash_to_index t (hs_hash q)) as [[i b]|] eqn:H; [discriminate|].
    assert (N : hfind (hs_hash q) (t_hash t) = None) by (unfold hash_to_index in H; now destruct (hfind (hs_hash q) (t_hash t))).
    destruct (cx_alias c); [|intros _; split; [reflexivity|exact N]].
    rewrite <- (moment_hash c V LW q Vq). destruct (N.eqb_spec (hs_hash (cx_moment c q)) (hs_hash q)) as [X|X]; [intros _; rewrite X; split; [reflexivity|exact N]|].
    destruct (hash_to_index t (hs_hash (cx_moment c q))) as [[i b]|] eqn:H2; [discriminate|]. intros _. split; [reflexivity|].
    unfold hash_to_index in H2. now destruct (hfind (hs_hash (cx_moment c q)) (t_hash t)).
  Qed.
  Lemma made t q t1 id : V q -> lk_symbol (where_ c t q) = None -> merge_sequence c t q = Done t1 id -> symbol_word t1 id = Some (pos (table_entry c q)).
  Proof.
    intros Vq H M. destruct (not_found t q Vq H) as [_ N]. unfold merge_sequence in M. change (set_sign q SPos) with (pos q) in M. fold (table_entry c q) in M.
    set (e := table_entry c q) in *. unfold merge_symbol in M.
    unfold symbol_pair in M. cbn [sy_hash sy_hash_conj sy_seq sy_conj sy_herm sy_anti] in M.
    unfold sy_hash, sy_hash_conj in M. cbn [sy_seq sy_conj] in M. cbn [option_map] in M. change (hs_hash (set_sign e SPos)) with (hs_hash e) in M. rewrite N in M.
    unfold basis_push in M. injection M as <- <-. unfold symbol_word, push_symbol, set_hash. cbn [t_syms]. rewrite nth_error_app2 by lia. rewrite Nat.sub_diag. reflexivity.
  Qed.
  Lemma entry_value q : V q -> E (pos (table_entry c q)) = E (pos q).
  Proof.
    intro Vq. unfold table_entry. destruct (cx_alias c) eqn:A; [|reflexivity]. pose proof (lw_pos c V LW q Vq) as Vp.
    assert (S : pos (cx_moment c (pos q)) = cx_moment c (pos q)).
    { rewrite (lw_moment_phase c V LW (pos q) Vp). reflexivity. }
    rewrite S. now apply (ex_moment c V R E EX A).
  Qed.

  Definition settled t x : Prop := exists id, s_id x = Some id /\ forall t'' v, later c V t t'' -> agrees E t'' v ->
    in_table t'' (PolyModel.mk_mono id (s_cj x) (s_f x)) /\ term_value v (PolyModel.mk_mono id (s_cj x) (s_f x)) = cmul (s_f x) (E (pos (s_seq x))).
  Lemma settled_later t t' x : later c V t t' -> settled t x -> settled t' x.
  Proof. intros L (id & H & G). exists id. split; [assumption|]. intros t'' v L' A. apply G; [exact (later_trans c V _ _ _ L L')|assumption]. Qed.
  Lemma look_up_settled t x : reachable c V t -> V (s_seq x) -> s_id (look_up c t x) = None \/ settled t (look_up c t x).
  Proof.
    intros RT Vq. destruct (lk_symbol (where_ c t (s_seq x))) as [id|] eqn:K; [right|left; exact K]. exists id. split; [exact K|]. intros t'' v L A.
    cbn [look_up s_cj s_f s_seq]. exact (lookup_term c V LW R E EX UC t t'' v (s_seq x) (s_f x) id RT L Vq A K).
  Qed.
  Lemma make_settled t x : reachable c V t -> V (s_seq x) -> exists t1 y, look_up_or_make c t x = Done t1 y /\ reachable c V t1 /\ later c V t t1 /\ settled t1 y /\ s_seq y = s_seq x /\ s_f y = s_f x.
  Proof.
    intros RT Vq. unfold look_up_or_make. cbv zeta. destruct (lk_symbol (where_ c t (s_seq x))) as [id|] eqn:K.
    - do 2 eexists. split; [reflexivity|]. split; [assumption|]. split; [apply later_refl|]. split; [|split; reflexivity]. exists id. split; [reflexivity|]. intros t'' v L A.
      cbn [s_cj s_f s_seq]. exact (lookup_term c V LW R E EX UC t t'' v (s_seq x) (s_f x) id RT L Vq A K).
    - destruct (register_done c V LW t (s_seq x) RT Vq) as (t1 & id & M & RT1 & LT1 & _). rewrite M. do 2 eexists. split; [reflexivity|]. split; [assumption|]. split; [assumption|].
      split; [|split; reflexivity]. exists id. split; [reflexivity|]. intros t'' v L A. cbn [s_cj s_f s_seq]. destruct (not_found t (s_seq x) Vq K) as [-> _].
      pose proof (made t (s_seq x) t1 id Vq K M) as W. pose proof (word_len t1 id _ W) as B.
      assert (W' : symbol_word t'' id = Some (pos (table_entry c (s_seq x)))) by (rewrite (words_kept c V LW t1 t'' id RT1 L B); exact W).
      split; [exact (word_len t'' id _ W')|]. unfold term_value. cbn [m_id m_cj m_f]. rewrite (A id _ W'). change (pos (pos (table_entry c (s_seq x)))) with (pos (table_entry c (s_seq x))).
      now rewrite (entry_value (s_seq x) Vq).
  Qed.
  Lemma register_settled l : forall t, reachable c V t -> Forall (fun x => V (s_seq x)) l -> Forall (fun x => s_id x = None \/ settled t x) l ->
    exists t' ys, register_loop c t l = Done t' ys /\ reachable c V t' /\ later c V t t' /\ Forall (settled t') ys /\ pairs ys = pairs l.
  Proof.
    induction l as [|x l IH]; intros t RT FV F.
    - exists t, []. split; [reflexivity|]. split; [assumption|]. split; [apply later_refl|]. split; [constructor|reflexivity].
    - inversion FV as [|? ? Vx FV']; subst. inversion F as [|? ? Hx F']; subst. cbn [register_loop].
      assert (G : exists t1 y, (if known x then Done t x else look_up_or_make c t x) = Done t1 y /\ reachable c V t1 /\ later c V t t1 /\ settled t1 y /\ s_seq y = s_seq x /\ s_f y = s_f x).
      { unfold known. destruct Hx as [-> |Hx]; [now apply make_settled|]. destruct Hx as (id & Hi & Q). pose proof (ex_intro (fun id => _) id (conj Hi Q) : settled t x) as S. rewrite Hi.
        exists t, x. split; [reflexivity|]. split; [assumption|]. split; [apply later_refl|]. split; [exact S|split; reflexivity]. }
      destruct G as (t1 & y & -> & RT1 & L1 & Sy & Eq & Ef).
      assert (F1 : Forall (fun x => s_id x = None \/ settled t1 x) l).
      { apply Forall_forall. intros z Hz. rewrite Forall_forall in F'. destruct (F' z Hz) as [N|S]; [now left|right; exact (settled_later t t1 z L1 S)]. }
      destruct (IH t1 RT1 FV' F1) as (t2 & ys & -> & RT2 & L2 & Fy & Er). exists t2, (y :: ys). split; [reflexivity|]. split; [assumption|]. split; [exact (later_trans c V _ _ _ L1 L2)|].
      split; [constructor; [exact (settled_later t1 t2 y L2 Sy)|assumption]|]. unfold pairs in *. cbn [map]. now rewrite Eq, Ef, Er.
  Qed.
  Lemma settled_terms t l : Forall (settled t) l -> exists ms, terms_of l = Some ms /\ forall t'' v, later c V t t'' -> agrees E t'' v ->
    Forall (in_table t'') ms /\ value v ms = raw_value E (pairs l).
  Proof.
    intro F. induction F as [|x l (id & Hi & G) F (ms & Et & IH)].
    - exists []. split; [reflexivity|]. intros t'' v _ _. split; [constructor|reflexivity].
    - exists (PolyModel.mk_mono id (s_cj x) (s_f x) :: ms). split; [cbn [terms_of]; unfold term_of; now rewrite Hi, Et|]. intros t'' v L A. destruct (G t'' v L A) as [G1 G2].
      destruct (IH t'' v L A) as [I1 I2]. split; [constructor; assumption|]. rewrite value_cons, G2, I2. reflexivity.
  Qed.
  Lemma raw_op_value raw : unphased raw -> raw_value E raw = op_value E raw.
  Proof.
    intro F. induction F as [|[[h o s] w] raw H F IH]; [reflexivity|]. cbn in H. subst s. unfold raw_value, op_value in *. cbn [fold_right fst snd]. now rewrite IH.
  Qed.
  Variables (lt : term -> term -> bool) (srt : list term -> list term).
  Notation right_poly := (right_poly E lt srt).
  Lemma settled_poly t t'' l : Forall (settled t) l -> later c V t t'' -> right_poly t'' l (pairs l).
  Proof.
    intros F L HS. destruct (settled_terms t l F) as (ms & Et & G). exists (make_poly t'' srt ms). split; [unfold to_polynomial; now rewrite Et|]. split.
    - intro HO. apply make_poly_canonical; [exact HO|exact HS|]. apply (G t'' (word_values R E (fun _ => c0) t'') L (values_agree R E _ t'')).
    - intros v A AG. destruct (G t'' v L AG) as [I1 I2]. assert (Q : value v (make_poly t'' srt ms) = raw_value E (pairs l)) by now rewrite (make_poly_value R t'' lt srt HS ms v I1 A).
      split; [exact Q|]. intro U. rewrite Q. now apply raw_op_value.
  Qed.
  Lemma staged_words raw : raw_ok raw -> Forall (fun x => V (s_seq x)) (staged raw).
  Proof. intro F. unfold staged. apply Forall_map. exact F. Qed.

  Lemma register_poly t raw : reachable c V t -> raw_ok raw -> exists t' ys, find_or_register c t (staged raw) false = Done t' ys /\ later c V t t' /\
    forall t'', later c V t' t'' -> right_poly t'' ys raw.
  Proof.
    intros RT F. destruct (register_settled (staged raw) t RT (staged_words raw F)) as (t' & ys & M & RT' & L & S & Er).
    - unfold staged. apply Forall_map. apply Forall_forall. intros x _. now left.
    - exists t', ys. split; [exact M|]. split; [exact L|]. intros t'' L''. rewrite raw_back in Er. rewrite <- Er. exact (settled_poly t' t'' ys S L'').
  Qed.
  Lemma looked_raw t l : pairs (map (look_up c t) l) = pairs l.
  Proof. unfold pairs. rewrite map_map. reflexivity. Qed.
  Lemma looked_words t l : Forall (fun x => V (s_seq x)) l -> Forall (fun x => V (s_seq x)) (map (look_up c t) l).
  Proof. intro F. apply Forall_map. exact F. Qed.
  Lemma looked_settled t l : reachable c V t -> Forall (fun x => V (s_seq x)) l -> Forall (fun x => s_id x = None \/ settled t x) (map (look_up c t) l).
  Proof. intros RT F. apply Forall_map. apply Forall_forall. intros x Hx. rewrite Forall_forall in F. apply look_up_settled; [assumption|now apply F]. Qed.
  Lemma known_settled t l : Forall (fun x => s_id x = None \/ settled t x) l -> forallb known l = true -> Forall (settled t) l.
  Proof.
    intros F K. rewrite forallb_forall in K. apply Forall_forall. intros x Hx. rewrite Forall_forall in F. destruct (F x Hx) as [N|S]; [|exact S]. specialize (K x Hx). unfold known in K. rewrite N in K. discriminate.
  Qed.
  Lemma find_register_poly t0 t1 raw ts ready : reachable c V t0 -> raw_ok raw -> later c V t0 t1 -> find_quietly c t0 (staged raw) = (ts, ready) ->
    exists t2 ys, find_or_register c t1 ts ready = Done t2 ys /\ later c V t1 t2 /\ forall t3, later c V t2 t3 -> right_poly t3 ys raw.
  Proof.
    intros RT F L Q. unfold find_quietly in Q. injection Q as <- <-. pose proof (staged_words raw F) as FV. pose proof (looked_settled t0 _ RT FV) as FS. pose proof (looked_words t0 _ FV) as FW.
    assert (Er0 : pairs (map (look_up c t0) (staged raw)) = raw) by (rewrite looked_raw; apply raw_back).
    unfold find_or_register. destruct (forallb known (map (look_up c t0) (staged raw))) eqn:K.
    - exists t1, (map (look_up c t0) (staged raw)). split; [reflexivity|]. split; [apply later_refl|]. intros t3 L3. rewrite <- Er0 at 2. apply (settled_poly t0); [now apply known_settled|].
      exact (later_trans c V _ _ _ L L3).
    - assert (FS1 : Forall (fun x => s_id x = None \/ settled t1 x) (map (look_up c t0) (staged raw))).
      { apply Forall_forall. intros z Hz. rewrite Forall_forall in FS. destruct (FS z Hz) as [N|S]; [now left|right; exact (settled_later t0 t1 z L S)]. }
      destruct (register_settled _ t1 (reachable_later c V t0 t1 RT L) FW FS1) as (t' & ys & M & RT' & L' & S & Er). exists t', ys. split; [exact M|]. split; [exact L'|].
      intros t'' L''. rewrite Er0 in Er. rewrite <- Er. exact (settled_poly t' t'' ys S L'').
  Qed.
  Lemma quiet_ready t raw : snd (find_quietly c t (staged raw)) = true <-> Forall (fun z => has_symbol c t (fst z)) raw.
  Proof.
    unfold find_quietly. cbn [snd]. unfold staged. rewrite map_map. unfold has_symbol. induction raw as [|[q w] raw IH]; cbn [map forallb]; [split; [constructor|reflexivity]|].
    rewrite andb_true_iff, IH. unfold known at 1. cbn [look_up s_id s_seq fst]. destruct (lk_symbol (where_ c t q)) as [id|] eqn:K; split.
    - intros [_ F]. constructor; [cbn [fst]; rewrite K; eauto|assumption].
    - intro F. inversion F; subst. auto.
    - intros [H _]. discriminate.
    - intro F. inversion F as [|? ? (id & H) ?]; subst. cbn [fst] in H. congruence.
  Qed.
  Lemma find_ok t raw ts : find_symbols c t (staged raw) = SOk ts <-> Forall (fun z => has_symbol c t (fst z)) raw /\ ts = map (look_up c t) (staged raw).
  Proof.
    unfold find_symbols. rewrite (with_index_iff _ (fun x y => known (look_up c t x) = true /\ y = look_up c t x)).
    - rewrite <- (quiet_ready t raw). unfold find_quietly. cbn [snd]. generalize (staged raw). intro l. split.
      + intro F. induction F as [|x y l ts [H ->] F [IH1 IH2]]; [split; reflexivity|]. cbn [map forallb]. rewrite H, IH1, <- IH2. split; reflexivity.
      + intros [K ->]. induction l as [|x l IH]; cbn [map forallb] in *; [constructor|]. apply andb_true_iff in K as [K1 K2]. constructor; auto.
    - intros j x y _. unfold look_up_or_throw. destruct (known (look_up c t x)); split; [intros [= <-]; auto|intros [_ ->]; reflexivity|discriminate|intros [[=] _]].
  Qed.
  Lemma find_err t raw e : find_symbols c t (staged raw) = SErr e <->
    exists j q w, e = SNoSymbol (j + 1) /\ nth_error raw j = Some (q, w) /\ ~ has_symbol c t q /\ forall i z, i < j -> nth_error raw i = Some z -> has_symbol c t (fst z).
  Proof.
    assert (KH : forall q (w : cx R), known (look_up c t (mk_sterm q w None false)) = true <-> has_symbol c t q).
    { intros q w. unfold known, has_symbol. cbn [look_up s_id s_seq]. destruct (lk_symbol (where_ c t q)) as [id|]; split; [eauto|reflexivity|discriminate|intros (id & [=])]. }
    assert (NE : forall i, nth_error (staged raw) i = option_map (fun z => mk_sterm (fst z) (snd z) None false) (nth_error raw i)).
    { intro i. unfold staged. apply nth_error_map. }
    unfold find_symbols. rewrite with_index_err. split.
    - intros (j & x & Hj & He & Hb). rewrite NE in Hj. destruct (nth_error raw j) as [[q w]|] eqn:Ej; [|discriminate]. cbn in Hj. injection Hj as <-.
      unfold look_up_or_throw in He. destruct (known (look_up c t (mk_sterm q w None false))) eqn:K; [discriminate|]. injection He as <-. exists j, q, w. split; [reflexivity|]. split; [exact Ej|].
      split; [intro H; apply (KH q w) in H; congruence|]. intros i [q' w'] Hi Hx. destruct (Hb i (mk_sterm q' w' None false) Hi) as (y & Hy); [rewrite NE, Hx; reflexivity|].
      unfold look_up_or_throw in Hy. destruct (known (look_up c t (mk_sterm q' w' None false))) eqn:K'; [|discriminate]. exact (proj1 (KH q' w') K').
    - intros (j & q & w & -> & Hj & Hn & Hb). exists j, (mk_sterm q w None false). split; [rewrite NE, Hj; reflexivity|]. split.
      + unfold look_up_or_throw. destruct (known (look_up c t (mk_sterm q w None false))) eqn:K; [now apply KH in K|reflexivity].
      + intros i x Hi Hx. rewrite NE in Hx. destruct (nth_error raw i) as [[q' w']|] eqn:Ei; [|discriminate]. cbn in Hx. injection Hx as <-. eexists. unfold look_up_or_throw.
        rewrite (proj2 (KH q' w')); [reflexivity|]. exact (Hb i (q', w') Hi Ei).
  Qed.
  Lemma find_poly t t' raw ts : reachable c V t -> raw_ok raw -> later c V t t' -> find_symbols c t (staged raw) = SOk ts -> right_poly t' ts raw.
  Proof.
    intros RT F L H. apply find_ok in H as [K ->]. apply quiet_ready in K. unfold find_quietly in K. cbn [snd] in K. pose proof (looked_settled t _ RT (staged_words raw F)) as FS.
    assert (Er0 : pairs (map (look_up c t) (staged raw)) = raw) by (rewrite looked_raw; apply raw_back). rewrite <- Er0 at 2. exact (settled_poly t t' _ (known_settled t _ FS K) L).
  Qed.
  Add Field CfStg : (cx_field R).
  Lemma raw_kept raw : raw_ok raw -> map fst (to_raw (staged raw)) = map (fun z => pos (fst z)) raw /\ raw_value E (to_raw (staged raw)) = op_value E raw.
  Proof.
    intro F. unfold to_raw, staged. rewrite map_map. cbn [s_seq s_f]. induction F as [|[q w] raw Vq F [IH1 IH2]]; [split; reflexivity|]. cbn [map fst snd s_seq s_f] in *. destruct (RawProofs.raw_elem_pos R q w) as [P1 _].
    split; [f_equal; [exact P1|exact IH1]|]. unfold raw_value, op_value in *. cbn [fold_right fst snd]. rewrite IH2. f_equal. replace (fst (RawModel.raw_elem q w)) with (pos q) by (symmetry; exact P1). change (pos (pos q)) with (pos q). rewrite (ex_phase c V R E EX q Vq).
    unfold RawModel.raw_elem. destruct (hs_sign q); cbn [snd sphase]; ring.
  Qed.
  (** from the array to the polynomial *)
  Lemma whole scan16 trunc16 of_z n_ops resolve a (l : list (list nat * cx R)) t : casts16 (R:=R) trunc16 of_z -> plain_cell of_z a -> seq_denotes scan16 of_z a l -> Forall (fun z => Forall (fun o => o < n_ops) (fst z)) l ->
    reachable c V t -> raw_ok (map (fun z => (resolve (fst z), snd z)) l) ->
    exists ts t' ys, read_staging scan16 trunc16 of_z a = SOk l /\ supply_context n_ops resolve l = SOk ts /\ find_or_register c t ts false = Done t' ys /\ later c V t t' /\
      forall t'', later c V t' t'' -> right_poly t'' ys (map (fun z => (resolve (fst z), snd z)) l).
  Proof.
    intros HC P D F RT RO. destruct (register_poly t _ RT RO) as (t' & ys & M & L & G). exists (staged (map (fun z => (resolve (fst z), snd z)) l)), t', ys.
    split; [apply (read_iff scan16 trunc16 of_z HC a l P); exact D|]. split; [apply supply_iff; split; [exact F|reflexivity]|]. split; [exact M|]. split; [exact L|exact G].
  Qed.
End Sessions.
