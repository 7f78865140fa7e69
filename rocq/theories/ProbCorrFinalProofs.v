(** The statements about correlators and conversions put together. *)
From Coq Require Import List NArith ZArith Arith Bool Lia Permutation Sorted Field_theory Ring Field.
From Verif Require Import CoreModel CoreSpec AlgModel FieldModel FieldProofs SymModel SymSpec PolyModel PolySpec PolyProofs PolyOpsProofs PolyFinalProofs
  EnumModel EnumSpec EnumProofs PartitionProofs CombModel CombSpec TensorModel TensorSpec TensorProofs TensorFinalProofs ProbModel ProbSpec ProbProofs ProbTensorProofs ProbFinalProofs ProbCorrProofs.
Import ListNotations.
Local Open Scope nat_scope.

Section Corr.
  Context {R : rfield}.
  Add Field Rk : (r_field R).
  Add Field Ck : (cx_field R).
  Notation C := (cx R).
  Notation mono := (mono R).
  Variable sc : list party.
  Variable choice : list nat.
  Hypothesis BIN : all_binary sc.
  Hypothesis CH : chosen sc choice.
  Hypothesis SM : small (map cg_dim sc).
  Variable sym : N -> option nat.
  Variables psort factory : list mono -> list mono.
  Hypothesis PS : forall l, Permutation l (psort l).
  Variable P : list report -> C.
  Hypothesis CS : consistent sc P.
  Variable v : nat -> C.
  Hypothesis EN : entries sc P v.
  Lemma fc_dims : map (fun p : party => S (length p)) sc = map cg_dim sc.
  Proof. apply map_ext_in. intros p Hp. symmetry. apply binary_dim. unfold all_binary in BIN. rewrite Forall_forall in BIN. now apply BIN. Qed.
  Lemma keep_meaning bits : length bits = count_true (on choice) ->
    joint_operator sc (map rep (keep choice bits)) /\ column_position (map cg_dim sc) (keep choice bits) = cg_position sc (map rep (keep choice bits)).
  Proof. intro L. destruct (rep_joint sc (keep choice bits) BIN (keep_chosen sc choice CH bits L)) as [J E]. split; [exact J|]. unfold cg_position. now rewrite E. Qed.
  Lemma entries_keep bits : length bits = count_true (on choice) -> v (S (column_position (map cg_dim sc) (keep choice bits))) = P (map rep (keep choice bits)).
  Proof. intro L. destruct (keep_meaning bits L) as [J ->]. now apply EN. Qed.
  Lemma sum_corr l : good choice l -> csum (map (fun x : list nat * C => cmul (snd x) (P (map rep (fst x)))) l) = correlator P choice.
  Proof. intros [_ G]. rewrite (expand sc choice BIN CH P CS). apply (G (fun x => P (map rep x))). Qed.
  Lemma value_ents l : good choice l -> value v (map (ent_term sc) l) = correlator P choice.
  Proof.
    intro G. rewrite <- (sum_corr l G). rewrite value_csum, map_map. f_equal. apply map_ext_in. intros x Hx. destruct G as [G _]. destruct (G x Hx) as (bits & L & E).
    unfold term_value, ent_term. cbn [m_f m_cj m_id]. rewrite E, entries_keep by exact L. reflexivity.
  Qed.
  Lemma zero_choice : count_true (on choice) = 0 -> choice = repeat 0 (length choice).
  Proof. intro Z. pose proof (choice_keep choice) as E. rewrite Z in E. cbn [repeat] in E. rewrite E at 1. apply keep_none; [reflexivity|cbn; now rewrite Z]. Qed.
  Lemma none_corr : count_true (on choice) = 0 -> correlator P choice = P (map (fun _ => None) sc).
  Proof.
    intro Z. rewrite (zero_choice Z). pose proof (f2_length _ _ _ CH) as L. rewrite <- L. clear. revert P. induction sc as [|p s IH]; intro P; [reflexivity|]. cbn. apply (IH (fun es => P (None :: es))).
  Qed.
  Lemma none_joint : joint_operator sc (map (fun _ => None) sc) /\ cg_position sc (map (fun _ => None) sc) = 0.
  Proof. clear. unfold cg_position, joint_operator. induction sc as [|p s [IH1 IH2]]; [split; [constructor|reflexivity]|]. split; [constructor; [exact I|exact IH1]|]. cbn [map].
    change (places cg_place (p :: s) (None :: map (fun _ => None) s)) with (0 :: places cg_place s (map (fun _ => None) s)). cbn [column_position]. rewrite IH2. lia. Qed.
  Lemma correlator_spec fuel : 2 ^ length sc <= fuel -> exists e,
    make_correlator (map cg_dim sc) sym psort factory fuel (map (fun p : party => S (length p)) sc) choice = Ret (Value e) /\ value v (el_cg e) = correlator P choice.
  Proof.
    intro F. rewrite fc_dims. destruct (correlator_shape sc choice BIN CH SM sym psort factory fuel F) as (l & e & Run & G & Sh). exists e. split; [exact Run|].
    assert (POS : Forall (fun x : mono => 0 < m_id x) (map (ent_term sc) l)). { apply Forall_forall. intros x Hx. apply in_map_iff in Hx as (y & <- & _). cbn. lia. }
    destruct Sh as [[Z ->]|[[Z [-> _]]|[Z [-> _]]]].
    - cbn [make_id el_cg scalar]. unfold poly_of_mono. cbn [m_id Nat.eqb negb andb m_f]. unfold scalar, poly_of_mono. cbn [m_id Nat.eqb negb andb m_f]. destruct (is_zero (@c1 R)) eqn:Q; [apply is_zero_true in Q; now apply c1_neq_0 in Q|].
      cbn [negb value fold_right]. unfold term_value. cbn [m_f m_cj m_id]. rewrite (none_corr Z). destruct none_joint as [J E]. pose proof (EN _ J) as E2. rewrite E in E2. rewrite E2. ring.
    - rewrite (plain_value psort PS v _ POS). now apply value_ents.
    - rewrite (plain_value psort PS v _ POS). now apply value_ents.
  Qed.
End Corr.

Section Resolve.
  Context {R : rfield}.
  Add Field Rl : (r_field R).
  Add Field Cl : (cx_field R).
  Notation C := (cx R).
  Notation mono := (mono R).
  Variable t : table.
  Variable lt : mono -> mono -> bool.
  Variable srt : list mono -> list mono.
  Hypothesis TO : term_order t lt.
  Hypothesis ST : sorts t lt srt.
  Variable sym : N -> option nat.
  Hypothesis INT : forall o id, sym o = Some id -> id < length (t_syms t).
  Definition look (x : mono) : found R := lookup sym (N.of_nat (m_id x - 1)) (m_f x).
  Lemma resolve_spec (l : list mono) v w p : (forall x id, In x l -> sym (N.of_nat (m_id x - 1)) = Some id -> m_cj x = false /\ w id = v (m_id x)) -> assignment t w ->
    symbol_terms (map look l) = Some p -> canonical t lt (make_poly t srt p) /\ value w (make_poly t srt p) = value v l.
  Proof.
    intros H A E.
    assert (OK : Forall (in_table t) p).
    { apply Forall_forall. intros x Hx. destruct (symbol_terms_in _ p x E Hx) as (y & Hy & E1 & _). apply in_map_iff in Hy as (z & <- & Hz). cbn in E1. exact (INT _ _ E1). }
    destruct (construct_spec R t lt srt p TO ST OK) as [K1 K2]. split; [exact K1|]. rewrite (K2 w A). clear K1 K2 OK. revert p E. induction l as [|x l IH]; intros p E; cbn in E.
    - injection E as <-. reflexivity.
    - destruct (sym (N.of_nat (m_id x - 1))) as [id|] eqn:Q; [|discriminate]. destruct (symbol_terms (map look l)) as [r|] eqn:Q2; [|discriminate]. injection E as <-.
      rewrite !value_cons, (IH (fun y i Hy => H y i (or_intror Hy)) r eq_refl). f_equal. destruct (H x id (or_introl eq_refl) Q) as [E1 E2].
      unfold term_value. cbn. now rewrite E1, E2.
  Qed.
  Lemma attempt_spec (e : element R) : let (e', b) := attempt_symbol_resolution sym (make_poly t srt) e in
    el_cg e' = el_cg e /\ (b = true <-> forall x, In x (el_cg e) -> sym (N.of_nat (m_id x - 1)) <> None) /\ (b = false -> e' = e) /\
    forall v w, (forall x id, In x (el_cg e) -> sym (N.of_nat (m_id x - 1)) = Some id -> m_cj x = false /\ w id = v (m_id x)) -> assignment t w -> b = true ->
      exists p, el_symbol e' = Some p /\ canonical t lt p /\ value w p = value v (el_cg e).
  Proof.
    unfold attempt_symbol_resolution. change (fun x => lookup sym (N.of_nat (m_id x - 1)) (m_f x)) with look. destruct (symbol_terms (map look (el_cg e))) as [l|] eqn:Q; cbn [el_cg el_symbol].
    - split; [reflexivity|]. split; [|split; [discriminate|]].
      + split; [intros _ x Hx E|reflexivity]. enough (symbol_terms (map look (el_cg e)) = None) by congruence. apply symbol_terms_none. exists (look x). split; [now apply in_map|exact E].
      + intros v w H A _. eexists. split; [reflexivity|]. now apply resolve_spec.
    - split; [reflexivity|]. split; [|split; [reflexivity|intros v w _ _ ?; discriminate]]. split; [discriminate|]. intro H. exfalso.
      apply symbol_terms_none in Q as (y & Hy & E). apply in_map_iff in Hy as (x & <- & Hx). now apply (H x Hx).
  Qed.
  (* correlators *)
  Variable sc : list party.
  Variable choice : list nat.
  Hypothesis BIN : all_binary sc.
  Hypothesis CH : chosen sc choice.
  Hypothesis SM : small (map cg_dim sc).
  Variable psort : list mono -> list mono.
  Hypothesis PS : forall l, Permutation l (psort l).
  Variable P : list report -> C.
  Hypothesis CS : consistent sc P.
  Variable v : nat -> C.
  Hypothesis EN : entries sc P v.
  Variable w : nat -> C.
  Hypothesis SE : symbol_entries sc P sym w.
  Hypothesis AS : assignment t w.
  Hypothesis NORM : P (map (fun _ => None) sc) = c1.
  Hypothesis STS : starts t.
  Lemma all_zero_index (x : list nat) : forallb (Nat.eqb 0) x = true -> x = repeat 0 (length x).
  Proof. induction x as [|a x IH]; [reflexivity|]. cbn. destruct a; [|discriminate]. intro H. f_equal. now apply IH. Qed.
  Lemma positive_value l : good choice l -> forall p, all_positive sc sym l = Some p -> Forall (in_table t) p /\ value w p = correlator P choice.
  Proof.
    intros G p E. rewrite <- (sum_corr sc choice BIN CH P CS l G). destruct G as [G _]. revert p E. induction l as [|x l IH]; intros p E; cbn in E.
    - injection E as <-. split; [constructor|reflexivity].
    - destruct (positive sc sym x) as [m|] eqn:Q; [|discriminate]. destruct (all_positive sc sym l) as [r|] eqn:Q2; [|discriminate]. injection E as <-.
      destruct (IH (fun y Hy => G y (or_intror Hy)) r eq_refl) as [I1 I2]. destruct (G x (or_introl eq_refl)) as (bits & L & EX).
      destruct (keep_meaning sc choice BIN CH bits L) as [J PO]. rewrite <- EX in J, PO. cbn [map csum]. rewrite value_cons, I2.
      enough (in_table t m /\ term_value w m = cmul (snd x) (P (map rep (fst x)))) as [H1 H2] by (split; [constructor; assumption|now rewrite H2]).
      unfold positive in Q. destruct (forallb (Nat.eqb 0) (fst x)) eqn:Z.
      + injection Q as <-. split; [exact (in_table_one t STS (snd x))|]. unfold term_value, one_term. cbn [m_f m_cj m_id]. rewrite (as_one t w AS).
        replace (map rep (fst x)) with (map (fun _ : party => @None (nat * nat)) sc); [now rewrite NORM|].
        pose proof (f2_length _ _ _ J) as LL. rewrite map_length in LL. rewrite (all_zero_index _ Z), <- LL. clear. induction sc as [|p s IH]; [reflexivity|]. cbn. now f_equal.
      + unfold positive_symbol in Q. destruct (sym (N.of_nat (column_position (map cg_dim sc) (fst x)))) as [[|id]|] eqn:SY; try discriminate. injection Q as <-.
        split; [exact (INT _ _ SY)|]. unfold term_value. cbn [m_f m_cj m_id]. f_equal. apply (SE _ _ J). now rewrite <- PO.
  Qed.
  Lemma correlator_symbols fuel e : 2 ^ length sc <= fuel ->
    make_correlator (map cg_dim sc) sym psort (make_poly t srt) fuel (map (fun p : party => S (length p)) sc) choice = Ret (Value e) ->
    ((forall es, joint_operator sc es -> exists id, sym (N.of_nat (cg_position sc es)) = Some (S id)) -> el_symbol e <> None) /\
    forall p, el_symbol e = Some p -> canonical t lt p /\ value w p = correlator P choice.
  Proof.
    intros F Run. rewrite (fc_dims sc BIN) in Run. destruct (correlator_shape sc choice BIN CH SM sym psort (make_poly t srt) fuel F) as (l & e' & Run' & G & Sh).
    rewrite Run in Run'. injection Run' as <-.
    assert (POS : Forall (fun x : mono => 0 < m_id x) (map (ent_term sc) l)). { apply Forall_forall. intros x Hx. apply in_map_iff in Hx as (y & <- & _). cbn. lia. }
    destruct Sh as [[Z ->]|[[Z [E1 E2]]|[Z [E1 E2]]]].
    - cbn [make_id el_symbol]. split; [discriminate|]. intros p Hp. injection Hp as <-. destruct (scalar_spec t lt STS c1) as [K1 K2]. split; [exact K1|].
      rewrite (K2 w AS), (none_corr sc choice CH P Z). now symmetry.
    - rewrite E2. change (fun x => lookup sym (N.of_nat (m_id x - 1)) (m_f x)) with look.
      assert (TS : forall x, In x (el_cg e) -> m_cj x = false /\ exists es, joint_operator sc es /\ m_id x = S (cg_position sc es)).
      { intros x Hx. rewrite E1 in Hx. apply plain_in in Hx as (z & Hz & S0); [|exact PS]. apply same_term_spec in S0 as [-> ->]. apply in_map_iff in Hz as (y & <- & Hy).
        destruct G as [G _]. destruct (G y Hy) as (bits & L & EY). destruct (keep_meaning sc choice BIN CH bits L) as [J PO]. cbn [ent_term m_cj m_id]. split; [reflexivity|].
        exists (map rep (keep choice bits)). split; [exact J|]. now rewrite EY, PO. }
      split.
      + intros H E. destruct (symbol_terms (map look (el_cg e))) eqn:Q; [discriminate|]. apply symbol_terms_none in Q as (y & Hy & Ey). apply in_map_iff in Hy as (x & <- & Hx).
        destruct (TS x Hx) as (_ & es & J & I1). destruct (H es J) as (id & Hid). cbn in Ey. rewrite I1, Nat.sub_succ, Nat.sub_0_r in Ey. congruence.
      + intros p Hp. destruct (symbol_terms (map look (el_cg e))) as [q|] eqn:Q; [|discriminate]. injection Hp as <-.
        destruct (resolve_spec (el_cg e) v w q) as [K1 K2]; [|exact AS|exact Q|].
        * intros x id Hx Sx. destruct (TS x Hx) as (Cj & es & J & I1). split; [exact Cj|]. rewrite I1, (EN es J). rewrite I1, Nat.sub_succ, Nat.sub_0_r in Sx. now apply (SE es).
        * split; [exact K1|]. rewrite K2, E1, (plain_value psort PS v _ POS). now apply value_ents.
    - rewrite E2. split.
      + intros H E. destruct (all_positive sc sym l) as [q|] eqn:Q; [discriminate|]. clear - H G Q BIN CH. destruct G as [G _]. induction l as [|x l IH]; [discriminate|]. cbn in Q.
        destruct (positive sc sym x) as [m|] eqn:Q1.
        * destruct (all_positive sc sym l) as [r|]; [discriminate|]. apply IH; [intros y Hy; apply G; now right|reflexivity].
        * unfold positive in Q1. destruct (forallb _ _); [discriminate|]. destruct (G x (or_introl eq_refl)) as (bits & L & EX).
          destruct (keep_meaning sc choice BIN CH bits L) as [J PO]. rewrite <- EX in J, PO. destruct (H _ J) as (id & Hid). unfold positive_symbol in Q1. rewrite PO, Hid in Q1. discriminate.
      + intros p Hp. destruct (all_positive sc sym l) as [q|] eqn:Q; [|discriminate]. injection Hp as <-. destruct (positive_value l G q Q) as [OK V].
        destruct (construct_spec R t lt srt q TO ST OK) as [K1 K2]. split; [exact K1|]. rewrite (K2 w AS). exact V.
  Qed.
End Resolve.
