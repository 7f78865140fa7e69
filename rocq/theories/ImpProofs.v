(** What the two sets of bits say after the checks of an import. *)
From Coq Require Import List NArith ZArith Arith Bool Lia Field.
From Verif Require Import CoreModel FieldModel FieldProofs SymModel SymSpec PolyModel PolySpec BasModel BasSpec ImpModel ImpSpec.
Import ListNotations.

Section Unset.
  Lemma unset_length k l : length (unset k l) = length l.
  Proof. revert k. induction l as [|b l IH]; intros [|k]; cbn; auto. Qed.
  Lemma unset_false k l id : k < length l -> (nth_error (unset k l) id = Some false <-> nth_error l id = Some false \/ id = k).
  Proof.
    revert k id. induction l as [|b l IH]; intros [|k] id H; cbn in *; try lia.
    - destruct id as [|id]; cbn; [split; auto|]. split; [auto|intros [E|E]; [exact E|discriminate]].
    - destruct id as [|id]; cbn; [split; [auto|intros [E|E]; [exact E|discriminate]]|]. rewrite IH by lia. split; intros [E|E]; auto.
  Qed.
  Lemma fold_unset_length {A} (f : A -> nat) xs : forall l, length (fold_left (fun l x => unset (f x) l) xs l) = length l.
  Proof. induction xs as [|x xs IH]; intro l; cbn; [reflexivity|]. now rewrite IH, unset_length. Qed.
  Lemma fold_unset_false {A} (f : A -> nat) xs id : forall l, (forall x, In x xs -> f x < length l) ->
    (nth_error (fold_left (fun l x => unset (f x) l) xs l) id = Some false <-> nth_error l id = Some false \/ exists x, In x xs /\ f x = id).
  Proof.
    induction xs as [|x xs IH]; intros l H; cbn [fold_left].
    - split; [auto|]. intros [E|(x & [] & _)]. exact E.
    - rewrite IH by (intros y I; rewrite unset_length; apply H; now right). rewrite unset_false by (apply H; now left). split.
      + intros [[E|E]|(y & I & E)]; [auto|right; exists x; split; [now left|auto]|right; exists y; split; [now right|exact E]].
      + intros [E|(y & [<-|I] & E)]; [auto|auto|right; now exists y].
  Qed.
End Unset.

Section Bits.
  Context {R : rfield}.
  Add Field Rfi : (r_field R).
  Add Field Cfi : (cx_field R).
  Notation mono := (mono R).
  Notation bits := (list bool * list bool)%type.
  (** what the bits say *)
  Definition means (b : bits) (v : nat -> cx R) : Prop :=
    (forall id, nth_error (fst b) id = Some false -> cre (v id) = r0 R) /\ (forall id, nth_error (snd b) id = Some false -> cim (v id) = r0 R).
  Lemma some_inj {A} (x y : A) : Some x = Some y -> x = y. Proof. congruence. Qed.
  Definition sized (n : nat) (b : bits) : Prop := length (fst b) = n /\ length (snd b) = n.
  Lemma means_re n b v k : sized n b -> k < n -> (means (unset k (fst b), snd b) v <-> means b v /\ cre (v k) = r0 R).
  Proof.
    intros [L _] H. unfold means. cbn [fst snd]. split.
    - intros [A B]. split; [split; [|exact B]|]; [intros id E; apply A; apply unset_false; [lia|auto]|]. apply A. apply unset_false; [lia|auto].
    - intros [[A B] C]. split; [|exact B]. intros id E. apply unset_false in E; [|lia]. destruct E as [E| ->]; [now apply A|exact C].
  Qed.
  Lemma means_im n b v k : sized n b -> k < n -> (means (fst b, unset k (snd b)) v <-> means b v /\ cim (v k) = r0 R).
  Proof.
    intros [_ L] H. unfold means. cbn [fst snd]. split.
    - intros [A B]. split; [split; [exact A|]|]; [intros id E; apply B; apply unset_false; [lia|auto]|]. apply B. apply unset_false; [lia|auto].
    - intros [[A B] C]. split; [exact A|]. intros id E. apply unset_false in E; [|lia]. destruct E as [E| ->]; [now apply B|exact C].
  Qed.
  (** terms with a real coefficient *)
  Definition term_ok (n : nat) (x : mono) : Prop := m_id x < n /\ cim (m_f x) = r0 R /\ (m_f x = c0 -> m_id x = 0).
  Lemma real_cx (x : cx R) : cim x = r0 R -> x = creal (cre x).
  Proof. intro H. apply cx_ext; cbn; [reflexivity|exact H]. Qed.
  Lemma rmul_zero (a b : R) : rmul R a b = r0 R -> a <> r0 R -> b = r0 R.
  Proof. intros H N. transitivity (rmul R (rinv R a) (rmul R a b)); [field; exact N|]. rewrite H. ring. Qed.
  Lemma square_eq (a b : R) : rmul R a a = rmul R b b -> a <> b -> b = ropp R a.
  Proof.
    intros H N. assert (E : rmul R (radd R a (ropp R b)) (radd R a b) = r0 R).
    { transitivity (radd R (rmul R a a) (ropp R (rmul R b b))); [ring|]. rewrite H. ring. }
    apply rmul_zero in E; [transitivity (radd R (radd R a b) (ropp R a)); [ring|rewrite E; ring]|]. intro Z. apply N.
    transitivity (radd R (radd R a (ropp R b)) b); [ring|]. rewrite Z. ring.
  Qed.
  Lemma modulus_real (f g : cx R) : cim f = r0 R -> cim g = r0 R -> same_modulus f g = true -> f <> g -> g = copp f.
  Proof.
    intros F G H N. unfold same_modulus in H. apply ceqb_spec in H. rewrite (real_cx f F), (real_cx g G) in *. apply (f_equal cre) in H. cbn in H.
    assert (Q : rmul R (cre f) (cre f) = rmul R (cre g) (cre g)).
    { match type of H with ?l = ?r => transitivity l; [ring|rewrite H; ring] end. }
    assert (D : cre f <> cre g) by (intro E; apply N; now rewrite E). apply square_eq in Q; [|exact D]. apply cx_ext; cbn; [exact Q|ring].
  Qed.
  Lemma modulus_same (f g : cx R) : g = f \/ g = copp f -> same_modulus f g = true.
  Proof. intros [-> | ->]; unfold same_modulus; apply ceqb_spec; [reflexivity|]. apply cx_ext; cbn; ring. Qed.
  Lemma two_times (x : R) : radd R x x = r0 R -> x = r0 R.
  Proof. intro H. apply (rmul_zero (radd R (r1 R) (r1 R)) x); [rewrite <- H; ring|apply two_neq_0]. Qed.

  Lemma ropp_opp_ (x : R) : ropp R (ropp R x) = x. Proof. ring. Qed.
  (** one pair *)
  Definition opposite (hermitian : bool) (v : nat -> cx R) (a b : mono) : Prop := term_value v b = if hermitian then cconj (term_value v a) else term_value v a.
  Lemma neg_zero (f x : R) : f <> r0 R -> (ropp R (rmul R f x) = rmul R f x <-> x = r0 R).
  Proof.
    intro N. split; [|intros ->; ring]. intro H. apply (rmul_zero f); [|exact N]. apply two_times. rewrite <- H at 1. ring.
  Qed.
  Lemma neg_zero' (f x : R) : f <> r0 R -> (rmul R f x = ropp R (rmul R f x) <-> x = r0 R).
  Proof. intro N. rewrite <- (neg_zero f x N). split; intro; symmetry; assumption. Qed.
  Definition turned (c : bool) (x : R) : R := if c then ropp R x else x.
  Lemma real_term v i c (f : R) : term_value v (mk_mono i c (mk_cx f (r0 R))) = mk_cx (rmul R f (cre (v i))) (turned c (rmul R f (cim (v i)))).
  Proof. unfold term_value. cbn [m_id m_cj m_f]. destruct c; apply cx_ext; cbn; ring. Qed.
  Lemma opposite_rule hermitian v (a b : mono) : m_id a = m_id b -> cim (m_f a) = r0 R -> m_f a <> c0 -> m_f b = m_f a \/ m_f b = copp (m_f a) ->
    opposite hermitian v a b <->
    (if (if hermitian then negb (Bool.eqb (m_cj a) (m_cj b)) else Bool.eqb (m_cj a) (m_cj b))
     then if ceqb (m_f a) (m_f b) then True else cre (v (m_id a)) = r0 R /\ cim (v (m_id a)) = r0 R
     else if ceqb (m_f a) (m_f b) then cim (v (m_id a)) = r0 R else cre (v (m_id a)) = r0 R).
  Proof.
    destruct a as [i ca f], b as [j cb g]. unfold opposite. cbn [m_id m_cj m_f]. intros <- F NZ G.
    assert (NF : cre f <> r0 R) by (intro Z; apply NZ; apply cx_ext; cbn; [exact Z|exact F]). destruct f as [f fi]. cbn in F, NF. subst fi.
    assert (P : forall x y : R, term_value v (mk_mono i ca (mk_cx f (r0 R))) = mk_cx x y -> cconj (term_value v (mk_mono i ca (mk_cx f (r0 R)))) = mk_cx x (ropp R y)) by (intros x y ->; reflexivity).
    assert (EQ : forall a b c d : R, mk_cx a b = mk_cx c d <-> a = c /\ b = d) by (intros; split; [intro H; injection H; auto|intros [-> ->]; reflexivity]).
    rewrite (P _ _ (real_term v i ca f)), (real_term v i ca f).
    destruct G as [-> | ->].
    - rewrite ceqb_refl, real_term. destruct hermitian, ca, cb; cbn [negb Bool.eqb turned]; rewrite EQ, ?ropp_opp_, ?neg_zero, ?neg_zero'; tauto.
    - replace (ceqb (mk_cx f (r0 R)) (copp (mk_cx f (r0 R)))) with false.
      + replace (copp (mk_cx f (r0 R))) with (mk_cx (ropp R f) (r0 R)) by (apply cx_ext; cbn; ring). rewrite real_term.
        replace (rmul R (ropp R f) (cre (v i))) with (ropp R (rmul R f (cre (v i)))) by ring. replace (rmul R (ropp R f) (cim (v i))) with (ropp R (rmul R f (cim (v i)))) by ring.
        destruct hermitian, ca, cb; cbn [negb Bool.eqb turned]; rewrite EQ, ?ropp_opp_, ?neg_zero, ?neg_zero'; tauto.
      + symmetry. apply ceqb_false. intro E. apply (f_equal cre) in E. cbn in E. apply NF. apply two_times. rewrite E at 1. ring.
  Qed.

  Variable v : nat -> cx R.
  Hypothesis V0 : v 0 = c0.
  Lemma check_pair_means n hermitian (a b : mono) bt bt' : term_ok n a -> term_ok n b -> sized n bt -> check_pair hermitian a b bt = Some bt' ->
    sized n bt' /\ (means bt' v <-> means bt v /\ opposite hermitian v a b).
  Proof.
    intros (La & Fa & Za) (Lb & Fb & Zb) SZ H. destruct bt as [re im]. unfold check_pair in H.
    destruct (Nat.eqb_spec (m_id a) (m_id b)) as [I|]; [|discriminate]. cbn [negb orb] in H. destruct (same_modulus (m_f a) (m_f b)) eqn:M; [|discriminate]. cbn [negb] in H.
    assert (K : means bt' v <-> means (re, im) v /\ (if (if hermitian then negb (Bool.eqb (m_cj a) (m_cj b)) else Bool.eqb (m_cj a) (m_cj b))
       then if ceqb (m_f a) (m_f b) then True else cre (v (m_id a)) = r0 R /\ cim (v (m_id a)) = r0 R
       else if ceqb (m_f a) (m_f b) then cim (v (m_id a)) = r0 R else cre (v (m_id a)) = r0 R)).
    { apply some_inj in H. subst bt'. destruct (if hermitian then negb (Bool.eqb (m_cj a) (m_cj b)) else Bool.eqb (m_cj a) (m_cj b)); destruct (ceqb (m_f a) (m_f b)).
      - tauto.
      - assert (SZ' : sized n (unset (m_id a) re, im)) by (destruct SZ; split; cbn [fst snd] in *; rewrite ?unset_length; auto).
        rewrite (means_im n (unset (m_id a) re, im) v (m_id a) SZ' La), (means_re n (re, im) v (m_id a) SZ La). cbn [fst snd]. tauto.
      - apply (means_im n (re, im) v (m_id a) SZ La).
      - apply (means_re n (re, im) v (m_id a) SZ La). }
    split.
    - apply some_inj in H. subst bt'. destruct SZ as [S1 S2]. cbn [fst snd] in *.
      destruct (if hermitian then negb (Bool.eqb (m_cj a) (m_cj b)) else Bool.eqb (m_cj a) (m_cj b)); destruct (ceqb (m_f a) (m_f b)); split; cbn [fst snd]; rewrite ?unset_length; assumption.
    - rewrite K. destruct (Nat.eq_dec (m_id a) 0) as [Z|Z].
      + rewrite Z, V0. assert (O : opposite hermitian v a b).
        { unfold opposite, term_value. rewrite <- I, Z, V0. destruct hermitian, (m_cj a), (m_cj b); apply cx_ext; cbn; ring. }
        cbn [cre cim c0]. destruct (if hermitian then _ else _); destruct (ceqb (m_f a) (m_f b)); tauto.
      + assert (NF : m_f a <> c0) by auto. destruct (ceqb (m_f a) (m_f b)) eqn:Q.
        * apply ceqb_spec in Q. rewrite (opposite_rule hermitian v a b I Fa NF (or_introl (eq_sym Q))), Q, ceqb_refl. tauto.
        * apply ceqb_false in Q. rewrite (opposite_rule hermitian v a b I Fa NF (or_intror (modulus_real _ _ Fa Fb M Q))). rewrite (proj2 (ceqb_false _ _ _) Q). tauto.
  Qed.
  Lemma check_pair_none hermitian (a b : mono) bt : check_pair hermitian a b bt = None -> m_id a <> m_id b \/ (m_id a = m_id b /\ m_f b <> m_f a /\ m_f b <> copp (m_f a)).
  Proof.
    destruct bt as [re im]. unfold check_pair. destruct (Nat.eqb_spec (m_id a) (m_id b)) as [I|N]; [|auto]. cbn [negb orb].
    destruct (same_modulus (m_f a) (m_f b)) eqn:M; [discriminate|]. intros _. right. split; [exact I|].
    split; intro E; rewrite (modulus_same _ _ (ltac:(auto) : m_f b = m_f a \/ m_f b = copp (m_f a))) in M; discriminate.
  Qed.

  (** all pairs *)
  Variable n d : nat.
  Variable cells : list mono.
  Hypothesis OK : forall i j, i < d -> j < d -> term_ok n (elem d cells i j).
  Lemma check_row_means hermitian i js : forall bt bt', i < d -> (forall j, In j js -> j < d) -> sized n bt -> check_row hermitian d cells i js bt = Some bt' ->
    sized n bt' /\ (means bt' v <-> means bt v /\ forall j, In j js -> opposite hermitian v (elem d cells i j) (elem d cells j i)).
  Proof.
    induction js as [|j js IH]; intros bt bt' I J SZ H; cbn [check_row] in H.
    - apply some_inj in H. subst. split; [exact SZ|]. split; [intro M; split; [exact M|intros j []]|tauto].
    - destruct (check_pair hermitian (elem d cells i j) (elem d cells j i) bt) as [b1|] eqn:P; [|discriminate]. assert (Hj : j < d) by (apply J; now left).
      destruct (check_pair_means n hermitian _ _ bt b1 (OK i j I Hj) (OK j i Hj I) SZ P) as [S1 M1].
      destruct (IH b1 bt' I (fun k K => J k (or_intror K)) S1 H) as [S2 M2]. split; [exact S2|]. rewrite M2, M1. split.
      + intros [[A B] C]. split; [exact A|]. intros k [<-|K]; auto.
      + intros [A B]. split; [split; [exact A|apply B; now left]|]. intros k K. apply B. now right.
  Qed.
  Lemma check_row_none hermitian i js : forall bt, check_row hermitian d cells i js bt = None -> exists j bt', In j js /\ check_pair hermitian (elem d cells i j) (elem d cells j i) bt' = None.
  Proof.
    induction js as [|j js IH]; intros bt H; cbn [check_row] in H; [discriminate|]. destruct (check_pair hermitian (elem d cells i j) (elem d cells j i) bt) as [b1|] eqn:P.
    - destruct (IH b1 H) as (k & b2 & K & Q). exists k, b2. split; [now right|exact Q].
    - exists j, bt. split; [now left|exact P].
  Qed.
  Definition diagonal_real (hermitian : bool) (i : nat) : Prop := hermitian = true -> cim (v (m_id (elem d cells i i))) = r0 R.
  Definition row_ok (hermitian : bool) (i : nat) : Prop := forall j, i < j -> j < d -> opposite hermitian v (elem d cells i j) (elem d cells j i).
  Lemma check_rows_means hermitian is : forall bt bt', (forall i, In i is -> i < d) -> sized n bt -> check_rows hermitian d cells is bt = Some bt' ->
    sized n bt' /\ (means bt' v <-> means bt v /\ forall i, In i is -> diagonal_real hermitian i /\ row_ok hermitian i).
  Proof.
    induction is as [|i is IH]; intros bt bt' I SZ H; cbn [check_rows] in H.
    - apply some_inj in H. subst. split; [exact SZ|]. split; [intro M; split; [exact M|intros j []]|tauto].
    - assert (Hi : i < d) by (apply I; now left).
      set (b0 := if hermitian then (fst bt, unset (m_id (elem d cells i i)) (snd bt)) else bt) in H.
      assert (B0 : sized n b0 /\ (means b0 v <-> means bt v /\ diagonal_real hermitian i)).
      { unfold b0, diagonal_real. destruct hermitian.
        - split; [destruct SZ; split; cbn [fst snd]; rewrite ?unset_length; auto|]. rewrite (means_im n bt v _ SZ (proj1 (OK i i Hi Hi))). tauto.
        - split; [exact SZ|]. split; [intro; split; [assumption|discriminate]|tauto]. }
      clearbody b0. destruct B0 as [S0 M0]. destruct (check_row hermitian d cells i (seq (S i) (d - S i)) b0) as [b1|] eqn:P; [|discriminate].
      assert (JS : forall j, In j (seq (S i) (d - S i)) -> j < d) by (intros j J; apply in_seq in J; lia).
      destruct (check_row_means hermitian i _ b0 b1 Hi JS S0 P) as [S1 M1].
      destruct (IH b1 bt' (fun k K => I k (or_intror K)) S1 H) as [S2 M2]. split; [exact S2|]. rewrite M2, M1, M0.
      assert (RO : row_ok hermitian i <-> forall j, In j (seq (S i) (d - S i)) -> opposite hermitian v (elem d cells i j) (elem d cells j i)).
      { split; [intros Q j J; apply in_seq in J; apply Q; lia|intros Q j J1 J2; apply Q, in_seq; lia]. }
      rewrite <- RO. split.
      + intros [[[A B] C] D]. split; [exact A|]. intros k [<-|K]; auto.
      + intros [A B]. destruct (B i (or_introl eq_refl)) as [B1 B2]. split; [exact (Logic.conj (Logic.conj A B1) B2)|]. intros k K. apply B. now right.
  Qed.
  Lemma check_rows_none hermitian is : forall bt, check_rows hermitian d cells is bt = None -> exists i j bt', In i is /\ i < j /\ j < d /\ check_pair hermitian (elem d cells i j) (elem d cells j i) bt' = None.
  Proof.
    induction is as [|i is IH]; intros bt H; cbn [check_rows] in H; [discriminate|].
    destruct (check_row hermitian d cells i (seq (S i) (d - S i)) _) as [b1|] eqn:P.
    - destruct (IH _ H) as (k & j & b2 & K & Q). exists k, j, b2. split; [now right|exact Q].
    - apply check_row_none in P. destruct P as (j & b' & J & Q). apply in_seq in J. exists i, j, b'. split; [now left|]. split; [lia|]. split; [lia|exact Q].
  Qed.
End Bits.
