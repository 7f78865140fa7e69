(** Proofs about single moment rules. *)
From Coq Require Import List NArith ZArith Arith Bool Sorted Permutation Lia Ring Field.
From Verif Require Import CoreModel FieldModel FieldProofs SymModel SymSpec PolyModel PolySpec PolyProofs PolyOpsProofs PolyTableProofs PolyFinalProofs RuleModel RuleSpec.
Import ListNotations.

Lemma rev_last {A} (l : list A) x l' : rev l = x :: l' -> l = rev l' ++ [x].
Proof. intro H. rewrite <- (rev_involutive l), H. reflexivity. Qed.
Lemma sorted_app {A} (r : A -> A -> Prop) l l' : StronglySorted r l -> StronglySorted r l' -> (forall x y, In x l -> In y l' -> r x y) ->
  StronglySorted r (l ++ l').
Proof.
  induction 1 as [|x l S IH Fx]; intros S' H; [exact S'|]. cbn. constructor; [apply IH; auto; intros; apply H; [now right|auto]|].
  apply Forall_app. split; [exact Fx|]. apply Forall_forall. intros y Hy. apply H; [now left|exact Hy].
Qed.
Lemma sorted_app_inv {A} (r : A -> A -> Prop) l l' : StronglySorted r (l ++ l') -> StronglySorted r l /\ StronglySorted r l' /\ forall x y, In x l -> In y l' -> r x y.
Proof.
  induction l as [|x l IH]; cbn; intro S; [repeat split; [constructor|exact S|easy]|]. inversion S as [|? ? S1 F1]. subst.
  destruct (IH S1) as [A1 [A2 A3]]. apply Forall_app in F1 as [F1 F2]. repeat split; auto; [now constructor|].
  intros a b [<-|Ha] Hb; [rewrite Forall_forall in F2; auto|auto].
Qed.

Section Rules.
  Variable R : rfield.
  Add Field Rf : (r_field R).
  Add Field Cf : (cx_field R).
  Notation mono := (mono R).
  Notation rule := (rule R).
  Variable F : factory R.
  Hypothesis FO : factory_ok F.
  Notation t := (fa_table F).
  Notation lt := (fa_lt F).
  Notation srt := (fa_sort F).
  Notation ok := (@in_table R t).
  Notation len := (length (t_syms t)).
  Notation canon := (canonical t lt).
  Notation asg := (assignment (R := R) t).
  Implicit Types (u v w : nat -> cx R) (p q : list mono).
  Let HO := fo_order F FO.
  Let HS := fo_sort F FO.

  (** symbols that come before symbol [i] *)
  Definition lower (i : nat) (p : list mono) : Prop := forall x, In x p -> key_less F (m_id x) i = true.
  Lemma key_irr i : i < len -> key_less F i i = false.
  Proof. intro L. apply (lt_irr R t lt HO). exact L. Qed.
  Lemma key_trans i j k : i < len -> j < len -> k < len -> key_less F i j = true -> key_less F j k = true -> key_less F i k = true.
  Proof. intros A B C. now apply (lt_trans R t lt HO). Qed.
  Lemma key_total i j : i < len -> j < len -> key_less F i j = false -> key_less F j i = false -> i = j.
  Proof. intros A B C D. pose proof (lt_total R t lt HO _ _ (A : ok (mk_mono i false c1)) (B : ok (mk_mono j false c1)) C D) as E. now apply same_term_spec in E as [E _]. Qed.
  Lemma key_asym i j : i < len -> j < len -> key_less F i j = true -> key_less F j i = false.
  Proof. intros A B. now apply (lt_asym R t lt HO). Qed.
  Lemma key_neq i j : i < len -> key_less F i j = true -> i <> j.
  Proof. intros A H E. subst j. rewrite (key_irr i A) in H. discriminate. Qed.
  Lemma lt_key x y : ok x -> ok y -> m_id x <> m_id y -> (lt x y = true <-> key_less F (m_id x) (m_id y) = true).
  Proof.
    intros A B N. destruct HO as [rk [I E]]. unfold key_less. rewrite (E x y A B), (E (mk_mono (m_id x) false c1) (mk_mono (m_id y) false c1) A B). cbn.
    split; (intros [H|[H _]]; [now left|contradiction]).
  Qed.
  Lemma lower_neq i p x : i < len -> Forall ok p -> lower i p -> In x p -> m_id x <> i.
  Proof. intros L K H Hx. apply (key_neq (m_id x) i); [rewrite Forall_forall in K; now apply K|now apply H]. Qed.

  (** values *)
  Lemma value_ext u w p : (forall x, In x p -> u (m_id x) = w (m_id x)) -> value u p = value w p.
  Proof.
    induction p as [|x p IH]; intro H; [reflexivity|]. rewrite !(value_cons R). unfold term_value. rewrite (H x (or_introl eq_refl)), IH; [reflexivity|].
    intros y Hy. apply H. now right.
  Qed.
  Lemma value_one v x : value v [x] = term_value v x. Proof. rewrite (value_cons R). cbn [value fold_right]. ring. Qed.
  Lemma unique p q : canon p -> canon q -> (forall v, asg v -> value v p = value v q) -> p = q.
  Proof. intros A B C. exact (canonical_unique R t lt HO p q (fo_starts F FO) (fo_null F FO) A B C). Qed.
  Lemma canon_ok p : canon p -> Forall ok p. Proof. apply canonical_ok. Qed.
  Lemma canon_app p q : canon (p ++ q) -> canon p /\ canon q.
  Proof.
    intro C. destruct (sorted_app_inv _ _ _ (cp_sorted t lt _ C)) as [A [B _]].
    split; constructor; auto; intros x Hx; apply (cp_terms t lt _ C); apply in_or_app; auto.
  Qed.
  (** adding larger terms at the end *)
  Lemma canon_join p q : canon p -> canon q -> (forall x y, In x p -> In y q -> key_less F (m_id x) (m_id y) = true) -> canon (p ++ q).
  Proof.
    intros A B H. constructor.
    - apply sorted_app; [apply A|apply B|]. intros x y Hx Hy. pose proof (canon_ok p A) as K. pose proof (canon_ok q B) as K'. rewrite Forall_forall in K, K'.
      apply (proj2 (lt_key x y (K x Hx) (K' y Hy) (key_neq _ _ (K x Hx) (H x y Hx Hy)))). now apply H.
    - intros x Hx. apply in_app_or in Hx as [Hx|Hx]; [now apply A|now apply B].
  Qed.
  Lemma canon_one x : ok x -> m_f x <> c0 -> m_id x <> 0 -> (herm t (m_id x) = true \/ anti t (m_id x) = true -> m_cj x = false) -> canon [x].
  Proof. intros A B C D. constructor; [repeat constructor|]. intros y [<-|[]]. auto. Qed.
  Lemma canon_pair i a b : i < len -> i <> 0 -> herm t i = false -> anti t i = false -> a <> c0 -> b <> c0 -> canon [mk_mono i false a; mk_mono i true b].
  Proof.
    intros A N H1 H2 B C. constructor.
    - repeat constructor. destruct HO as [rk [I E]]. apply E; [exact A|exact A|right; cbn; auto].
    - assert (Q : herm t i = true \/ anti t i = true -> forall d : bool, d = false) by (intros [Q|Q]; congruence).
      intros y [<-|[<-|[]]]; cbn; repeat split; auto.
  Qed.
  Lemma lower_snoc p x : canon (p ++ [x]) -> (forall y, In y p -> m_id y <> m_id x) -> lower (m_id x) p.
  Proof.
    intros C N y Hy. destruct (sorted_app_inv _ _ _ (cp_sorted t lt _ C)) as [_ [_ H]]. pose proof (canon_ok _ C) as K. rewrite Forall_forall in K.
    apply (proj1 (lt_key y x (K y (in_or_app _ _ _ (or_introl Hy))) (K x (in_or_app p [x] x (or_intror (in_eq x [])))) (N y Hy))). apply H; [exact Hy|now left].
  Qed.

  (** ** splitting off the last terms *)
  Inductive view : list mono -> Prop :=
  | view_nil : view []
  | view_one p x : canon p -> lower (m_id x) p -> canon (p ++ [x]) -> view (p ++ [x])
  | view_two p i a b : canon p -> lower i p -> i < len -> i <> 0 -> herm t i = false -> anti t i = false -> a <> c0 -> b <> c0 ->
      view (p ++ [mk_mono i false a; mk_mono i true b]).
  Lemma canon_view q : canon q -> view q.
  Proof.
    intro C. destruct (rev q) as [|x l] eqn:E; [apply (f_equal (@rev _)) in E; rewrite rev_involutive in E; subst q; constructor|].
    apply rev_last in E. subst q. destruct (canon_app _ _ C) as [Cp _]. destruct l as [|y l].
    - apply view_one; [exact Cp| |exact C]. intros z [].
    - cbn [rev] in *. set (p := rev l) in *. destruct (Nat.eq_dec (m_id y) (m_id x)) as [E|E].
      + rewrite <- app_assoc in *. cbn [app] in *. destruct (canon_app _ _ C) as [Cp' Cxy]. destruct (pair_facts R t lt HO y x [] Cxy E) as [A1 [A2 [A3 A4]]].
        pose proof (cp_terms t lt _ Cxy y (or_introl eq_refl)) as [K1 [K2 [K3 _]]]. pose proof (cp_terms t lt _ Cxy x (or_intror (or_introl eq_refl))) as [K4 [K5 [K6 _]]].
        destruct y as [i cy fy], x as [j cx fx]. cbn in *. subst j cy cx. apply view_two; auto.
        intros z Hz. destruct (sorted_app_inv _ _ _ (cp_sorted t lt _ C)) as [_ [_ H]]. pose proof (canon_ok _ Cp') as K. rewrite Forall_forall in K.
        assert (Q := H z (mk_mono i false fy) Hz (or_introl eq_refl)).
        destruct HO as [rk [I O]]. unfold key_less. apply O; [apply (K z Hz)|exact K1|]. left. cbn. apply O in Q; [|apply (K z Hz)|exact K1]. cbn in Q.
        destruct Q as [Q|[Q1 [Q2 Q3]]]; [exact Q|discriminate].
      + apply view_one; [exact Cp| |exact C]. apply lower_snoc; [exact C|]. intros z Hz G. apply in_app_or in Hz as [Hz|[<-|[]]]; [|contradiction].
        destruct (sorted_app_inv _ _ _ (cp_sorted t lt _ C)) as [S1 [_ H]]. destruct (sorted_app_inv _ _ _ S1) as [_ [_ H1]].
        pose proof (canon_ok _ C) as K. rewrite Forall_forall in K.
        assert (Kz : ok z) by (apply K; apply in_or_app; left; apply in_or_app; auto).
        assert (Ky : ok y) by (apply K; apply in_or_app; left; apply in_or_app; right; now left).
        assert (Kx : ok x) by (apply K; apply in_or_app; right; now left).
        assert (Q1 := H1 z y Hz (or_introl eq_refl)). assert (Q2 := H y x (in_or_app p [y] y (or_intror (in_eq y []))) (or_introl eq_refl)).
        destruct HO as [rk [I O]]. apply O in Q1; auto. apply O in Q2; auto.
        destruct Q1 as [Q1|[Q1 _]]; [|congruence]. destruct Q2 as [Q2|[Q2 _]]; [|congruence]. rewrite G in Q1. lia.
  Qed.

  (** ** the operations keep sets of symbols *)
  Definition within (Q : nat -> Prop) (p : list mono) : Prop := forall x, In x p -> Q (m_id x).
  Lemma within_tidy Q s l : (forall z, In z (tidy s l) -> exists y, In y l /\ same_term z y = true) -> within Q l -> within Q (tidy s l).
  Proof. intros H A x Hx. destruct (H x Hx) as [y [Hy S]]. apply same_term_spec in S as [S _]. rewrite S. now apply A. Qed.
  Lemma within_build Q l : Forall ok l -> within Q l -> within Q (make_poly t srt l).
  Proof.
    intros K A. unfold make_poly, fix_cc_in_place. cbn [fst andb]. apply within_tidy.
    - intros z Hz. apply (tidy_in R t lt srt HS); [apply in_table_map; [apply fix_term_id|exact K]|exact Hz].
    - intros x Hx. apply in_map_iff in Hx as [y [<- Hy]]. rewrite fix_term_id. now apply A.
  Qed.
  Lemma within_scale Q f p : within Q p -> within Q (scale f p).
  Proof.
    intros A x Hx. unfold scale in Hx. destruct (is_zero f); [easy|]. destruct (ceqb f c1); [now apply A|].
    apply in_map_iff in Hx as [y [<- Hy]]. exact (A y Hy).
  Qed.
  Lemma within_conj Q p : canon p -> within Q p -> within Q (conjugate_poly t p).
  Proof.
    intros C A x Hx. rewrite (conj_cform R t lt HO p C) in Hx. apply cform_ids in Hx as [y [Hy ->]]. rewrite conj_id. now apply A.
  Qed.
  Lemma within_append Q p q : within Q p -> within Q q -> within Q (append lt p q).
  Proof.
    intros A B x Hx. rewrite append_merge in Hx. apply merge_in in Hx as [[y [Hy S]] _]. apply same_term_spec in S as [S _]. rewrite S.
    destruct Hy as [Hy|Hy]; [now apply A|now apply B].
  Qed.
  Lemma within_put (Q : nat -> Prop) i cj (f : cx R) : Q i -> within Q (put i cj f).
  Proof. intros A x Hx. unfold put in Hx. destruct (is_zero f); [easy|]. destruct Hx as [<-|[]]. exact A. Qed.
  Lemma within_app Q l l' : within Q l -> within Q l' -> within Q (l ++ l').
  Proof. intros A B x Hx. apply in_app_or in Hx as [Hx|Hx]; auto. Qed.
  Lemma within_parts Q : forall p, within Q p -> within Q (real_terms p) /\ within Q (imag_terms p).
  Proof.
    induction p as [|x|x y p IH IH'] using (two_ind R); intro A.
    - split; intros z [].
    - assert (Qx := A x (or_introl eq_refl)). cbn. destruct (m_cj x); split; repeat apply within_app; try (now apply within_put); intros z [].
    - assert (Qx := A x (or_introl eq_refl)). assert (Qy := A y (or_intror (or_introl eq_refl))).
      destruct (IH (fun z Hz => A z (or_intror (or_intror Hz)))) as [I1 I2]. destruct (IH' (fun z Hz => A z (or_intror Hz))) as [J1 J2].
      change (real_terms (x :: y :: p)) with (if m_cj x then put (m_id x) false (cmul half (cconj (m_f x))) ++ put (m_id x) true (cmul half (m_f x)) ++ real_terms (y :: p)
        else if Nat.eqb (m_id x) (m_id y) then put (m_id x) false (cmul half (cadd (m_f x) (cconj (m_f y)))) ++ put (m_id x) true (cmul half (cadd (cconj (m_f x)) (m_f y))) ++ real_terms p
        else put (m_id x) false (cmul half (m_f x)) ++ put (m_id x) true (cmul half (cconj (m_f x))) ++ real_terms (y :: p)).
      change (imag_terms (x :: y :: p)) with (if m_cj x then put (m_id x) false (cmul ihalf (cconj (m_f x))) ++ put (m_id x) true (cmul mihalf (m_f x)) ++ imag_terms (y :: p)
        else if Nat.eqb (m_id x) (m_id y) then put (m_id x) false (cmul mihalf (csub (m_f x) (cconj (m_f y)))) ++ put (m_id x) true (cmul ihalf (csub (cconj (m_f x)) (m_f y))) ++ imag_terms p
        else put (m_id x) false (cmul mihalf (m_f x)) ++ put (m_id x) true (cmul ihalf (cconj (m_f x))) ++ imag_terms (y :: p)).
      destruct (m_cj x); [|destruct (m_id x =? m_id y)]; split; repeat apply within_app; try (now apply within_put); auto.
  Qed.
  Lemma within_real Q p : canon p -> within Q p -> within Q (real_part t srt p).
  Proof.
    intros C A. unfold real_part. destruct p as [|x p]; [exact A|]. apply within_build; [|now apply within_parts].
    apply (real_terms_ok R t). now apply canon_ok.
  Qed.
  Lemma within_imag Q p : canon p -> within Q p -> within Q (imag_part t srt p).
  Proof.
    intros C A. unfold imag_part. destruct p as [|x p]; [exact A|]. apply within_build; [|now apply within_parts].
    apply (real_terms_ok R t). now apply canon_ok.
  Qed.
End Rules.
