(** Expansion of a rulebook to the products of symbols. *)
From Coq Require Import List ZArith Arith Bool Sorted Permutation Lia.
From Verif Require Import CoreModel FieldModel FieldProofs AlgModel InfModel InfSpec.
From Verif Require Import SymModel SymSpec PolyModel PolySpec RuleModel RuleSpec RuleThmProofs FTabModel FTabSpec FTabProductProofs FTabValueProofs FTabPolyProofs.
Import ListNotations.

Lemma solves_app {R : rfield} (v : nat -> cx R) a b : solves v (a ++ b) <-> solves v a /\ solves v b.
Proof. unfold solves. split; [intros H; split; intros p I; apply H; apply in_app_iff; auto|]. intros [A B] p I. apply in_app_iff in I. destruct I; auto. Qed.
Lemma in_skipn {A} n (l : list A) x : In x (skipn n l) -> In x l.
Proof. revert l. induction n as [|n IH]; intros l I; [exact I|]. destruct l; [destruct I|]. right. now apply IH. Qed.

Section Expand.
  Variables (outcomes : list nat) (srcs : list (list nat)) (nt : network) (L : nat).
  Hypothesis MK : make_network outcomes srcs = Some nt.
  Variable R : rfield.
  Add Ring Cr : (cx_ring R).
  Notation mono := (mono R).
  Variables (F : factory R) (t : ftab).
  Hypothesis FO : factory_ok F.
  Hypothesis S1 : sound_table srcs nt L t.
  Hypothesis SS : same_symbols F t.
  Notation T := (fa_table F).
  Variable psrt : list (list mono) -> list (list mono).
  Hypothesis PS : forall l, Permutation l (psrt l).
  Variables (fuel from : nat) (b : rulebook (R := R)) (eqs : list (list mono)).
  Hypothesis Ses : session F psrt b eqs.

  (** what happens if there is something to do *)
  Definition work : Prop := rb_safe b = true /\ rb_rules b <> [].
  Lemma expand_cases : 
    (~ work /\ expand_rulebook F psrt fuel t from b = XDone (enable_expansion b) 0) \/
    (work /\ expand_symbols F t (rb_rules b) (skipn from (ft_entries t)) = FThrow /\ expand_rulebook F psrt fuel t from b = XThrow (enable_expansion b)) \/
    (work /\ exists raw, expand_symbols F t (rb_rules b) (skipn from (ft_entries t)) = FOk raw /\
      expand_rulebook F psrt fuel t from b =
        match complete F psrt fuel (set_raw (enable_expansion b) (rb_raw b ++ raw)) with
        | RDone b3 n => XDone (disable_expansion b3) (Z.of_nat n - Z.of_nat (length (rb_rules b)))
        | RThrow b3 => XThrow b3
        | _ => XOther
        end).
  Proof.
    unfold expand_rulebook, work. destruct (rb_safe b) eqn:Sf; cbn [negb]; [|left; split; [intros [E _]; discriminate|reflexivity]].
    destruct (rb_rules b) as [|r rs] eqn:Er; [left; split; [intros [_ E]; congruence|reflexivity]|]. right. rewrite <- Er.
    assert (W : true = true /\ rb_rules b <> []) by (split; [reflexivity|congruence]).
    destruct (symbols_spec outcomes srcs nt L MK R F t FO S1 SS (rb_rules b) (t_form R F FO psrt PS b eqs Ses) (skipn from (ft_entries t))) as [[raw [A _]]|[A _]]; [intros e I; now apply in_skipn in I| |].
    - right. split; [exact W|]. exists raw. split; [exact A|]. rewrite A. unfold add_raw_rules, locked. cbn [enable_expansion rb_expand rb_uses]. rewrite Sf. cbn [orb negb andb]. reflexivity.
    - left. rewrite A. auto.
  Qed.
  Lemma grown_session raw : (forall p, In p raw -> PolySpec.canonical T (fa_lt F) p) -> session F psrt (set_raw (enable_expansion b) (rb_raw b ++ raw)) (eqs ++ raw) \/ locked (enable_expansion b) = true.
  Proof.
    intros H. destruct (locked (enable_expansion b)) eqn:Lk; [now right|]. left. apply (s_add F psrt (enable_expansion b) eqs raw _ 0); [now apply s_enable|now apply Forall_forall|].
    unfold add_raw_rules. rewrite Lk. reflexivity.
  Qed.
  Lemma open_when_working : work -> locked (enable_expansion b) = false.
  Proof. intros [Sf _]. unfold locked. cbn. now rewrite Sf. Qed.
  Lemma raw_facts raw : expand_symbols F t (rb_rules b) (skipn from (ft_entries t)) = FOk raw ->
    (forall p, In p raw -> PolySpec.canonical T (fa_lt F) p) /\ length raw <= length (ft_entries t) /\
    (forall v, assignment T v -> multiplicative t v -> obeys v (rb_rules b) -> solves v raw) /\
    (forall e, In e (skipn from (ft_entries t)) -> affected (rb_rules b) e -> exists p' p, In p' raw /\ (forall v, assignment T v -> value v p' = csub (value v p) (v (fe_id e))) /\
      forall v, assignment T v -> multiplicative t v -> value v p = cproduct (rule_value v (rb_rules b)) (fe_syms e)).
  Proof.
    intros E. pose proof (t_form R F FO psrt PS b eqs Ses) as TR.
    destruct (symbols_spec outcomes srcs nt L MK R F t FO S1 SS (rb_rules b) TR (skipn from (ft_entries t))) as [[raw' [A [B [D G]]]]|[A _]]; [intros e I; now apply in_skipn in I| |congruence].
    assert (raw' = raw) as -> by congruence. split; [intros p I; destruct (D p I) as [e [_ [C _]]]; exact C|]. split; [pose proof (skipn_length from (ft_entries t)); lia|]. split.
    - intros v Av Mv Ob p I. destruct (D p I) as [e [J K]]. apply in_skipn in J. apply (rule_for_solved srcs nt L R F t S1 (rb_rules b) e p v J K Av Mv Ob).
    - intros e I Af. destruct (G e I Af) as [p' [J [_ [p [X Y]]]]]. exists p', p. auto.
  Qed.
  Lemma x_done b' n : expand_rulebook F psrt fuel t from b = XDone b' n ->
    (forall v, assignment T v -> multiplicative t v -> (obeys v (rb_rules b') /\ solves v (rb_raw b') <-> obeys v (rb_rules b) /\ solves v (rb_raw b))) /\
    (rb_safe b = true -> rb_rules b <> [] ->
      rb_raw b' = [] /\ rb_expand b' = false /\ (n = Z.of_nat (length (rb_rules b')) - 2 * Z.of_nat (length (rb_rules b)))%Z /\
      forall e, In e (skipn from (ft_entries t)) -> affected (rb_rules b) e ->
        exists p, (forall v, assignment T v -> multiplicative t v -> value v p = cproduct (rule_value v (rb_rules b)) (fe_syms e)) /\
          forall v, assignment T v -> obeys v (rb_rules b') -> v (fe_id e) = value v p) /\
    (rb_safe b = false \/ rb_rules b = [] -> rb_rules b' = rb_rules b /\ rb_raw b' = rb_raw b /\ n = 0%Z).
  Proof.
    intros H. destruct expand_cases as [[W E]|[[W [_ E]]|[W [raw [Er E]]]]]; rewrite E in H; [|discriminate|].
    - injection H as <- <-. cbn. split; [tauto|]. split; [intros X Y; destruct W; split; auto|auto].
    - destruct (raw_facts raw Er) as [Cr [_ [Sv Hp]]]. destruct (grown_session raw Cr) as [Sg|Lk]; [|rewrite (open_when_working W) in Lk; discriminate].
      destruct (complete F psrt fuel (set_raw (enable_expansion b) (rb_raw b ++ raw))) as [b3 m|b3| |] eqn:Cm; try discriminate. injection H as <- <-.
      destruct (t_complete R F FO psrt PS _ _ fuel b3 m Sg Cm) as [T1 [T2 T3]]. cbn [disable_expansion rb_rules rb_raw rb_expand].
      split; [|split].
      + intros v Av Mv. rewrite T1. pose proof (t_equations R F FO psrt PS b eqs Ses v Av) as Q. rewrite (T2 v Av), solves_app. split.
        * intros [[A B] _]. tauto.
        * intros A. pose proof (proj2 Q A) as B. split; [|intros p []]. split; [exact B|]. apply Sv; tauto.
      + intros _ _. split; [exact T1|]. split; [reflexivity|]. split; [change (rb_rules (set_raw (enable_expansion b) (rb_raw b ++ raw))) with (rb_rules b) in T3; lia|].
        intros e I Af. destruct (Hp e I Af) as [p' [p [J [X Y]]]]. exists p. split; [exact Y|]. intros v Av Ob. apply (T2 v Av) in Ob. apply solves_app in Ob. destruct Ob as [_ Ob].
        specialize (Ob p' J). rewrite (X v Av) in Ob. transitivity (cadd (v (fe_id e)) (csub (value v p) (v (fe_id e)))); [rewrite Ob; ring|ring].
      + intros [X|X]; destruct W; congruence.
  Qed.
  Lemma x_throw b' : expand_rulebook F psrt fuel t from b = XThrow b' ->
    (rb_rules b' = rb_rules b /\ rb_raw b' = rb_raw b /\ exists i j, no_product t i j) \/ (forall v, assignment T v -> multiplicative t v -> ~ (obeys v (rb_rules b) /\ solves v (rb_raw b))).
  Proof.
    intros H. destruct expand_cases as [[W E]|[[W [Er E]]|[W [raw [Er E]]]]]; rewrite E in H; [discriminate| |].
    - injection H as <-. left. split; [reflexivity|]. split; [reflexivity|].
      destruct (symbols_spec outcomes srcs nt L MK R F t FO S1 SS (rb_rules b) (t_form R F FO psrt PS b eqs Ses) (skipn from (ft_entries t))) as [[raw' [A _]]|[A B]]; [intros e I; now apply in_skipn in I|congruence|exact B].
    - destruct (raw_facts raw Er) as [Cr [_ [Sv Hp]]]. destruct (grown_session raw Cr) as [Sg|Lk]; [|rewrite (open_when_working W) in Lk; discriminate].
      destruct (complete F psrt fuel (set_raw (enable_expansion b) (rb_raw b ++ raw))) as [b3 m|b3| |] eqn:Cm; try discriminate. right. intros v Av Mv Ob.
      destruct (t_throw R F FO psrt PS _ _ fuel b3 Sg Cm) as [[Lk _]|[_ K]].
      + change (locked (enable_expansion b) = true) in Lk. rewrite (open_when_working W) in Lk. discriminate.
      + apply (K v Av). apply solves_app. split; [now apply (t_equations R F FO psrt PS b eqs Ses v Av)|]. apply Sv; tauto.
  Qed.
  Lemma x_total : has_roots F -> 2 * (length (rb_raw b) + length (ft_entries t)) <= fuel -> expand_rulebook F psrt fuel t from b <> XOther.
  Proof.
    intros Hr Le. destruct expand_cases as [[W E]|[[W [Er E]]|[W [raw [Er E]]]]]; rewrite E; try discriminate.
    destruct (raw_facts raw Er) as [Cr [Ln _]]. destruct (grown_session raw Cr) as [Sg|Lk]; [|rewrite (open_when_working W) in Lk; discriminate].
    destruct (t_stops R F FO psrt PS _ _ fuel Sg) as [A B]; [cbn; rewrite app_length; lia|].
    destruct (complete F psrt fuel (set_raw (enable_expansion b) (rb_raw b ++ raw))); try discriminate; [|congruence].
    destruct (B eq_refl) as [z [X Y]]. exfalso. now apply (Hr z X).
  Qed.
End Expand.
