(** The statements of ProbProps.v put together. *)
From Coq Require Import List NArith ZArith Arith Bool Lia Permutation Sorted Field_theory Ring Field.
From Verif Require Import CoreModel CoreSpec AlgModel FieldModel FieldProofs SymModel SymSpec PolyModel PolySpec PolyProofs PolyOpsProofs PolyFinalProofs
  EnumModel EnumSpec EnumProofs PartitionProofs CombModel CombSpec TensorModel TensorSpec TensorProofs TensorFinalProofs ProbModel ProbSpec ProbProofs ProbTensorProofs.
Import ListNotations.
Local Open Scope nat_scope.

(* ------------------------------------------------------------ the untabled polynomials *)
Section Plain.
  Context {R : rfield}.
  Add Field Rp : (r_field R).
  Add Field Cp : (cx_field R).
  Notation C := (cx R).
  Notation mono := (mono R).
  Lemma value_ext v v' (l : list mono) : Forall (fun x => v (m_id x) = v' (m_id x)) l -> value v l = value v' l.
  Proof. induction 1 as [|x l H F IH]; [reflexivity|]. rewrite !value_cons, IH. f_equal. unfold term_value. now rewrite H. Qed.
  Variable psort : list mono -> list mono.
  Hypothesis PS : forall l, Permutation l (psort l).
  Lemma plain_in l z : In z (make_plain psort l) -> exists y, In y l /\ same_term z y = true.
  Proof.
    intro H. unfold make_plain, tidy, remove_zeros in H. apply filter_In in H as [H _]. destruct (1 <? length l).
    - unfold remove_duplicates in H. destruct (psort l) as [|x l'] eqn:E; [easy|].
      apply dedup_in in H as [y [Hy S]]. exists y. split; [|exact S]. eapply Permutation_in; [apply Permutation_sym; apply PS|now rewrite E].
    - exists z. split; [exact H|apply same_refl].
  Qed.
  Lemma plain_value v l : Forall (fun x => 0 < m_id x) l -> value v (make_plain psort l) = value v l.
  Proof.
    intro F. set (v' := fun n => match n with O => c0 | S _ => v n end).
    assert (E : forall x : mono, 0 < m_id x -> v (m_id x) = v' (m_id x)). { intros x Hx. unfold v'. destruct (m_id x); [lia|reflexivity]. }
    rewrite (value_ext v v'), (value_ext v v' l).
    - unfold make_plain, tidy. rewrite (value_zeros R v' _ eq_refl). destruct (1 <? length l); [|reflexivity].
      rewrite value_duplicates. symmetry. apply value_perm, PS.
    - rewrite Forall_forall in *. intros x Hx. now apply E, F.
    - apply Forall_forall. intros x Hx. apply E. apply plain_in in Hx as (y & Hy & S). apply same_term_spec in S as [-> _].
      rewrite Forall_forall in F. now apply F.
  Qed.
End Plain.

Section Final.
  Context {R : rfield}.
  Add Field Rg : (r_field R).
  Add Field Cg : (cx_field R).
  Notation C := (cx R).
  Notation mono := (mono R).
  Definition terms_of (g : N -> C) (l : list (found R)) : C := csum (map (fun y : found R => cmul (snd (fst y)) (g (fst (fst y)))) l).
  Lemma cg_terms_value v (l : list (found R)) : value v (map cg_term l) = terms_of (fun o => v (S (N.to_nat o))) l.
  Proof. unfold terms_of. rewrite value_csum, map_map. reflexivity. Qed.
  Lemma symbol_terms_value w (l : list (found R)) p g : symbol_terms l = Some p -> (forall y id, In y l -> snd y = Some id -> w id = g (fst (fst y))) -> value w p = terms_of g l.
  Proof.
    revert p. induction l as [|[[o f] s] l IH]; intros p E H; cbn in E; [injection E as <-; reflexivity|].
    destruct s as [id|]; [|discriminate]. destruct (symbol_terms l) as [r|] eqn:Q; [|discriminate]. injection E as <-. rewrite value_cons, (IH r eq_refl).
    - unfold terms_of. cbn [map csum fst snd]. f_equal. unfold term_value. cbn. f_equal. apply (H (o, f, Some id)); [now left|reflexivity].
    - intros y i Hy. apply H. now right.
  Qed.
  Lemma symbol_terms_none (l : list (found R)) : symbol_terms l = None <-> exists y, In y l /\ snd y = None.
  Proof.
    induction l as [|[[o f] s] l IH]; cbn; [split; [discriminate|intros (y & [] & _)]|].
    destruct s as [id|].
    - destruct (symbol_terms l); split; intro H; try discriminate.
      + destruct H as (y & [<-|Hy] & E); [discriminate|]. destruct IH as [_ IH]. enough (Some l0 = None) by discriminate. apply IH. eauto.
      + destruct IH as [IH _]. destruct (IH eq_refl) as (y & Hy & E). eauto.
      + reflexivity.
    - split; [intros _|reflexivity]. exists (o, f, None). auto.
  Qed.
  Lemma symbol_terms_in (l : list (found R)) p x : symbol_terms l = Some p -> In x p -> exists y, In y l /\ snd y = Some (m_id x) /\ m_cj x = false.
  Proof.
    revert p. induction l as [|[[o f] s] l IH]; intros p E H; cbn in E; [injection E as <-; destruct H|].
    destruct s as [id|]; [|discriminate]. destruct (symbol_terms l) as [r|] eqn:Q; [|discriminate]. injection E as <-. destruct H as [<-|H].
    - exists (o, f, Some id). cbn. auto.
    - destruct (IH r eq_refl H) as (y & Hy & E). exists y. split; [now right|exact E].
  Qed.
  Variable sc : list party.
  Variable sym : N -> option nat.
  Hypothesis NE : sc <> [].
  Hypothesis RM : Forall real_mmts sc.
  Hypothesis SM : small (map cg_dim sc).
  Lemma dims_pos : Forall (fun d => 0 < d) (map cg_dim sc).
  Proof. apply Forall_forall. intros d H. apply in_map_iff in H as (p & <- & _). unfold cg_dim. lia. Qed.
  (* positions of the Collins-Gisin tensor are those of reports with operators *)
  Lemma party_places p i : i < cg_dim p -> exists e, has_operator p e /\ cg_place p e = i.
  Proof.
    unfold cg_dim. destruct i as [|i]; [exists None; split; [exact I|reflexivity]|]. intro H.
    assert (G : exists m a, has_operator p (Some (m, a)) /\ list_sum (map operators (firstn m p)) + a = i).
    { assert (L : i < list_sum (map operators p)) by lia. clear H. revert i L. induction p as [|q p IH]; intros i L; [cbn in L; lia|].
      destruct (Nat.lt_ge_cases i (operators q)) as [Q|Q].
      - exists 0, i. split; [|reflexivity]. destruct q as [k x]. exists k, x. auto.
      - cbn in L. unfold list_sum in IH. destruct (IH (i - operators q)) as (m & a & (k & x & N & A) & E); [lia|].
        exists (S m), a. split; [exists k, x; auto|]. cbn [firstn map]. cbn. unfold list_sum. lia. }
    destruct G as (m & a & Ho & E). exists (Some (m, a)). split; [exact Ho|]. cbn [cg_place]. lia.
  Qed.
  Lemma all_places x : index_of (map cg_dim sc) x -> exists es, joint_operator sc es /\ places cg_place sc es = x.
  Proof.
    clear. unfold index_of. remember (map cg_dim sc) as ds eqn:E. intro H. revert sc E. induction H as [|i d x ds' Hi H IH]; intros sc E.
    - destruct sc; [|discriminate]. exists []. split; [constructor|reflexivity].
    - destruct sc as [|p sc']; [discriminate|]. injection E as -> E. destruct (IH sc' E) as (es & J & Q). destruct (party_places p _ Hi) as (e & He & P).
      exists (e :: es). split; [now constructor|]. cbn. unfold places in Q. rewrite P. f_equal. exact Q.
  Qed.
  Variables psort factory : list mono -> list mono.
  Hypothesis PS : forall l, Permutation l (psort l).
  Variable P : list report -> C.
  Hypothesis CS : consistent sc P.
  (* one lemma for both kinds of element *)
  Lemma probability_terms es fuel axes : joint sc es -> make_axes (map (@length _) sc) (concat sc) = Value axes ->
    2 ^ length sc <= fuel -> volume (map cg_dim sc) <= fuel -> exists (l : list (found R)) e,
    make_probability (map cg_dim sc) sym psort factory fuel axes (places full_place sc es) = Ret (Value e) /\
    (forall y, In y l -> exists es', joint_operator sc es' /\ fst (fst y) = N.of_nat (cg_position sc es') /\ snd y = sym (fst (fst y))) /\
    (forall g, (forall es', joint_operator sc es' -> g (N.of_nat (cg_position sc es')) = P es') -> terms_of g l = P es) /\
    ((exists y, l = [y] /\ el_cg e = poly_of_mono (cg_term y) /\ el_symbol e = match snd y with Some id => Some (poly_of_mono (mk_mono id false (snd (fst y)))) | None => None end) \/
     (el_cg e = make_plain psort (map cg_term l) /\ el_symbol e = option_map factory (symbol_terms l))).
  Proof.
    intros J A F1 F2. rewrite make_axes_spec in A by exact RM. injection A as <-. unfold make_probability, lift. rewrite element_info_spec by assumption.
    cbv zeta. fold (cells sc es). unfold pbind at 1. cbn [bind].
    pose proof (cells_inside sc es J) as IN. pose proof (trues_length 0 (flags (cells sc es))) as TL. rewrite TL.
    assert (LC : count_true (flags (cells sc es)) <= length sc).
    { assert (LL : length (flags (cells sc es)) = length sc). { unfold flags. rewrite map_length. unfold cells. rewrite map_length, combine_length.
        assert (length sc = length es) by (clear - J; induction J; cbn; congruence). lia. }
      rewrite <- LL. generalize (flags (cells sc es)). clear. intro l. induction l as [|[] l IH]; cbn; lia. }
    assert (MEAN : forall g, (forall es', joint_operator sc es' -> g (N.of_nat (cg_position sc es')) = P es') ->
      subtract R (cells sc es) (fun x => g (N.of_nat (column_position (map cg_dim sc) x))) = P es).
    { intros g Hg. apply subtract_meaning; auto. }
    destruct (Nat.eqb_spec (count_true (flags (cells sc es))) 0) as [Z|Z].
    - assert (B : forall f, subtract R (cells sc es) f = f (bases (cells sc es))).
      { clear - Z. generalize dependent (cells sc es). induction l as [|[[[] b] f0] l IH]; intros Z f; cbn in Z; [reflexivity|discriminate|].
        cbn [subtract bases map fst snd]. apply (IH Z (fun l => f (b :: l))). }
      assert (IX : index_of (map cg_dim sc) (bases (cells sc es))).
      { clear - IN Z. unfold index_of. revert IN Z. generalize (cells sc es) (map cg_dim sc). intros l ds H. induction H as [|d [[im b] f] ds l (H1 & H2 & H3) _ IH]; intro Z; [constructor|].
        cbn in Z. destruct im; [discriminate|]. cbn [bases map fst snd]. constructor; [specialize (H1 eq_refl); lia|]. now apply IH. }
      rewrite offset_checked by assumption. unfold pbind. cbn [bind].
      set (o := N.of_nat (column_position (map cg_dim sc) (bases (cells sc es)))).
      exists [lookup sym o c1]. eexists. split; [reflexivity|]. split; [|split].
      + intros y [<-|[]]. destruct (all_places _ IX) as (es' & J' & E'). exists es'. split; [exact J'|]. split; [|reflexivity].
        cbn. unfold o, cg_position. now rewrite E'.
      + intros g Hg. specialize (MEAN g Hg). rewrite B in MEAN. fold o in MEAN. rewrite <- MEAN. unfold terms_of. cbn [map csum lookup fst snd]. ring.
      + left. eexists. split; [reflexivity|]. split; reflexivity.
    - destruct (levels_sum (R := R) (map cg_dim sc) sym SM (cells sc es)) with (fuel := fuel) as (l & Run & Src & Sum); auto using dims_pos.
      + intro E. rewrite E in Z. cbn in Z. lia.
      + lia.
      + etransitivity; [|exact F1]. apply Nat.pow_le_mono_r; lia.
      + unfold impl in Run. rewrite Run. unfold pbind. cbn [bind]. exists l. eexists. split; [reflexivity|]. split; [|split].
        * intros y Hy. destruct (Src y Hy) as (x & Hx & s & ->). destruct (all_places x Hx) as (es' & J' & E'). exists es'. split; [exact J'|].
          cbn. unfold cg_position. now rewrite E'.
        * intros g Hg. unfold terms_of. rewrite Sum. now apply MEAN.
        * right. split; reflexivity.
  Qed.
  Lemma probability_spec es fuel v : joint sc es -> entries sc P v -> 2 ^ length sc + volume (map cg_dim sc) <= fuel ->
    exists axes e, make_axes (map (@length _) sc) (concat sc) = Value axes /\
      make_probability (map cg_dim sc) sym psort factory fuel axes (places full_place sc es) = Ret (Value e) /\
      value v (el_cg e) = P es /\
      forall x, In x (el_cg e) -> m_cj x = false /\ exists es', joint_operator sc es' /\ m_id x = S (cg_position sc es').
  Proof.
    intros J EN F. exists (map axis_of sc). destruct (probability_terms es fuel (map axis_of sc) J) as (l & e & Run & Src & Sum & Sh); [now apply make_axes_spec|lia|lia|].
    exists e. split; [now apply make_axes_spec|]. split; [exact Run|].
    assert (VV : value v (map cg_term l) = P es). { rewrite cg_terms_value. apply Sum. intros es' J'. rewrite Nat2N.id. now apply EN. }
    assert (ID : forall y, In y l -> exists es', joint_operator sc es' /\ m_id (cg_term y) = S (cg_position sc es') /\ m_cj (cg_term y) = false).
    { intros y Hy. destruct (Src y Hy) as (es' & J' & E & _). exists es'. split; [exact J'|]. cbn. rewrite E, Nat2N.id. auto. }
    destruct Sh as [(y & -> & -> & _)|[-> _]].
    - split.
      + rewrite <- VV. cbn [map]. unfold poly_of_mono. destruct (ID y (or_introl eq_refl)) as (es' & _ & E & _). rewrite E. cbn [Nat.eqb negb andb].
        destruct (is_zero (m_f (cg_term y))) eqn:Z; cbn [negb]; [|reflexivity]. apply is_zero_true in Z. cbn [value fold_right]. unfold term_value. rewrite Z. ring.
      + intros x Hx. unfold poly_of_mono in Hx. destruct (negb _ && negb _); [|destruct Hx]. destruct Hx as [<-|[]].
        destruct (ID y (or_introl eq_refl)) as (es' & J' & E & K). split; [exact K|]. eauto.
    - split.
      + rewrite plain_value; [exact VV|exact PS|]. apply Forall_forall. intros x Hx. apply in_map_iff in Hx as (y & <- & _). cbn. lia.
      + intros x Hx. apply plain_in in Hx as (z & Hz & S0); [|exact PS]. apply same_term_spec in S0 as [-> ->]. apply in_map_iff in Hz as (y & <- & Hy).
        destruct (ID y Hy) as (es' & J' & E & K). split; [exact K|]. eauto.
  Qed.
End Final.

Section Symbols.
  Context {R : rfield}.
  Add Field Rh : (r_field R).
  Add Field Ch : (cx_field R).
  Notation C := (cx R).
  Notation mono := (mono R).
  Variable t : table.
  Variable lt : mono -> mono -> bool.
  Variable srt : list mono -> list mono.
  Hypothesis TO : term_order t lt.
  Hypothesis ST : sorts t lt srt.
  Variable sym : N -> option nat.
  Hypothesis INT : forall o id, sym o = Some id -> id < length (t_syms t).
  Lemma symbol_spec sc es fuel P v w psort axes e : Forall real_mmts sc -> small (map cg_dim sc) -> (forall l, Permutation l (psort l)) ->
    consistent sc P -> joint sc es -> 2 ^ length sc + volume (map cg_dim sc) <= fuel -> entries sc P v -> symbol_entries sc P sym w -> assignment t w ->
    make_axes (map (@length _) sc) (concat sc) = Value axes ->
    make_probability (map cg_dim sc) sym psort (make_poly t srt) fuel axes (places full_place sc es) = Ret (Value e) ->
    ((forall es', joint_operator sc es' -> sym (N.of_nat (cg_position sc es')) <> None) -> el_symbol e <> None) /\
    forall p, el_symbol e = Some p -> canonical t lt p /\ value w p = P es /\
      forall x, In x (el_cg e) -> sym (N.of_nat (m_id x - 1)) <> None.
  Proof.
    intros RM SM PS CS J F EN SE AS AX Run. destruct (probability_terms sc sym RM SM psort (make_poly t srt) P CS es fuel axes J AX) as (l & e' & Run' & Src & Sum & Sh); [lia|lia|].
    rewrite Run in Run'. injection Run' as <-.
    assert (VAL : forall p, symbol_terms l = Some p -> value w p = P es).
    { intros p Hp. assert (Hg : forall es', joint_operator sc es' -> (fun o => v (S (N.to_nat o))) (N.of_nat (cg_position sc es')) = P es').
      { intros es' J'. cbv beta. rewrite Nat2N.id. now apply EN. }
      rewrite <- (Sum _ Hg). apply symbol_terms_value; [exact Hp|].
      intros y id Hy E. destruct (Src y Hy) as (es' & J' & E' & E2). rewrite E', Hg by exact J'. apply (SE es'); [exact J'|]. rewrite <- E', <- E2. exact E. }
    assert (OK : forall p, symbol_terms l = Some p -> Forall (in_table t) p).
    { intros p Hp. apply Forall_forall. intros x Hx. destruct (symbol_terms_in l p x Hp Hx) as (y & Hy & E & _). destruct (Src y Hy) as (_ & _ & _ & E2).
      rewrite E2 in E. exact (INT _ _ E). }
    assert (ALL : forall p, symbol_terms l = Some p -> forall y, In y l -> sym (fst (fst y)) <> None).
    { intros p Hp y Hy E. destruct (Src y Hy) as (_ & _ & _ & E2). enough (symbol_terms l = None) by congruence. apply symbol_terms_none. exists y. split; [exact Hy|congruence]. }
    destruct Sh as [(y & -> & -> & E)|[-> ->]].
    - cbn [symbol_terms] in *. destruct y as [[o f] s]. cbn [fst snd] in *. rewrite E. clear E. split.
      + intros H E. destruct s; [discriminate|]. destruct (Src _ (or_introl eq_refl)) as (es' & J' & E1 & E2). cbn in E1, E2. apply (H es' J'). congruence.
      + intros p Hp. destruct s as [id|]; [|discriminate]. injection Hp as <-. specialize (VAL _ eq_refl). specialize (OK _ eq_refl). specialize (ALL _ eq_refl).
        inversion OK; subst. destruct (monomial_spec R t lt (mk_mono id false f)) as [M1 M2]; [assumption|reflexivity|].
        split; [exact M1|]. split.
        * rewrite M2 by apply (as_zero t w AS). rewrite <- VAL. cbn [value fold_right]. ring.
        * intros x Hx. unfold poly_of_mono in Hx. destruct (negb _ && negb _); [|destruct Hx]. destruct Hx as [<-|[]]. cbn [cg_term m_id fst].
          rewrite Nat.sub_succ, Nat.sub_0_r, N2Nat.id. apply (ALL (o, f, Some id)). now left.
    - split.
      + intros H E. destruct (symbol_terms l) eqn:Q; [discriminate|]. apply symbol_terms_none in Q as (y & Hy & Ey).
        destruct (Src y Hy) as (es' & J' & E1 & E2). apply (H es' J'). congruence.
      + intros p Hp. destruct (symbol_terms l) as [q|] eqn:Q; [|discriminate]. injection Hp as <-. destruct (construct_spec R t lt srt q TO ST (OK q eq_refl)) as [K1 K2].
        split; [exact K1|]. split; [rewrite (K2 w AS); now apply VAL|].
        intros x Hx. apply plain_in in Hx as (z & Hz & S0); [|exact PS]. apply same_term_spec in S0 as [-> _]. apply in_map_iff in Hz as (y & <- & Hy). cbn [cg_term m_id].
        rewrite Nat.sub_succ, Nat.sub_0_r, N2Nat.id. exact (ALL q eq_refl y Hy).
  Qed.
  (* ---- value rules *)
  Hypothesis STS : starts t.
  Lemma in_table_one f : @in_table R t (mk_mono 1 false f).
  Proof. destruct STS as (s0 & s1 & l & E & _). unfold in_table. rewrite E. cbn. lia. Qed.
  Lemma scalar_spec (f : C) : canonical t lt (scalar f) /\ forall w, assignment t w -> value w (scalar f) = f.
  Proof.
    destruct (monomial_spec R t lt (mk_mono 1 false f)) as [M1 M2]; [apply in_table_one|reflexivity|]. split; [exact M1|]. intros w A.
    unfold scalar. rewrite M2 by apply (as_zero t w A). unfold term_value. cbn. rewrite (as_one t w A). ring.
  Qed.
  Definition meaning (w : nat -> C) (c : option (list mono)) : C := match c with None => c1 | Some p => value w p end.
  Lemma value_rules_spec c elems : (forall p, c = Some p -> canonical t lt p) -> (forall e p, In e elems -> el_symbol e = Some p -> canonical t lt p) -> forall values,
    length elems <= length values -> Forall (fun e => el_symbol e <> None) elems ->
    exists rules, value_rules (append lt) c elems values = Value rules /\ Forall (canonical t lt) rules /\ length rules = length elems /\
      forall w i e p x r, assignment t w -> nth_error elems i = Some e -> el_symbol e = Some p -> nth_error values i = Some x -> nth_error rules i = Some r ->
        value w r = csub (value w p) (cmul (creal x) (meaning w c)).
  Proof.
    intros HC HE. induction elems as [|e elems IH]; intros values L S0.
    - exists []. cbn. repeat split; auto. intros w i e p x r _ N. destruct i; discriminate.
    - inversion S0 as [|? ? S1 S2]; subst. destruct values as [|x values]; [cbn in L; lia|]. cbn in L.
      destruct (IH) with (values := values) as (rules & E & K & Lr & V); [intros; eapply HE; [right; eassumption|eassumption]|lia|exact S2|].
      cbn [value_rules]. destruct (el_symbol e) as [p|] eqn:Q; [|congruence]. rewrite E. cbn [tbind].
      set (tail := match c with Some q => scale (copp (creal x)) q | None => scalar (copp (creal x)) end).
      assert (TK : canonical t lt tail /\ forall w, assignment t w -> value w tail = copp (cmul (creal x) (meaning w c))).
      { unfold tail, meaning. destruct c as [q|].
        - destruct (scale_spec R t lt (copp (creal x)) q TO (HC q eq_refl)) as [A B]. split; [exact A|]. intros w _. rewrite B. ring.
        - destruct (scalar_spec (copp (creal x))) as [A B]. split; [exact A|]. intros w W. rewrite B by exact W. ring. }
      destruct TK as [TK TV]. destruct (sum_spec R t lt p tail TO (HE e p (or_introl eq_refl) Q) TK) as (U1 & U2 & U3).
      eexists. split; [reflexivity|]. split; [constructor; [now rewrite U3|exact K]|]. split; [cbn; congruence|].
      intros w [|i] e' p' x' r W N1 N2 N3 N4; cbn in N1, N3, N4.
      + injection N1 as <-. injection N3 as <-. injection N4 as <-. rewrite Q in N2. injection N2 as <-. rewrite U3, U2, TV by exact W. ring.
      + eapply V; eassumption.
  Qed.
  Lemma value_rules_throw c elems : Exists (fun e : element R => el_symbol e = None) elems -> forall values, length elems <= length values -> value_rules (append lt) c elems values = Throws.
  Proof.
    induction elems as [|e elems IH]; intros H values L; [inversion H|]. cbn [value_rules]. destruct (el_symbol e) as [p|] eqn:Q; [|reflexivity].
    destruct values as [|x values]; [cbn in L; lia|]. inversion H; subst; [congruence|]. rewrite IH; [reflexivity|assumption|cbn in L; lia].
  Qed.
End Symbols.
