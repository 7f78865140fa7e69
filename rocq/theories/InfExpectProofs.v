(** Expectations of inflation words. *)
From Coq Require Import List NArith ZArith Arith Bool Lia Permutation Sorted FinFun.
From Verif Require Import CoreModel AlgModel FieldModel InfModel InfSpec InfProofs InfLayoutProofs InfSimpProofs InfFactorProofs InfAverageProofs.
Import ListNotations.

Lemma in_hidden outcomes srcs L h :
  In h (hidden outcomes srcs L) <-> (fst h < length srcs /\ snd h < L) \/ (exists o, o < length outcomes /\ h = (length srcs + o, 0)).
Proof.
  unfold hidden. rewrite in_app_iff, in_flat_map, in_map_iff. split.
  - intros [[s [S1 I]]|[o [<- I]]].
    + left. apply in_map_iff in I. destruct I as [i [<- I]]. cbn. rewrite in_seq in *. lia.
    + right. exists o. rewrite in_seq in I. split; [lia|reflexivity].
  - intros [[A B]|[o [A ->]]].
    + left. exists (fst h). rewrite in_seq. split; [lia|]. apply in_map_iff. exists (snd h). rewrite in_seq. split; [now destruct h|lia].
    + right. exists o. rewrite in_seq. split; [reflexivity|lia].
Qed.
Lemma hidden_nodup outcomes srcs L : NoDup (hidden outcomes srcs L).
Proof.
  assert (H1 : forall n s0, NoDup (flat_map (fun s => map (fun i => (s, i)) (seq 0 L)) (seq s0 n))).
  { induction n as [|n IH]; intros s0; [constructor|]. cbn [seq flat_map]. 
    assert (G : forall (l k : list (nat * nat)), NoDup l -> NoDup k -> (forall x, In x l -> ~ In x k) -> NoDup (l ++ k)).
    { clear. induction l as [|x l IH]; intros k A B D; [assumption|]. inversion A; subst. cbn. constructor.
      - rewrite in_app_iff. intros [I|I]; [contradiction|]. apply (D x); [now left|assumption].
      - apply IH; [assumption..|]. intros y Y. apply D. now right. }
    apply G.
    - apply Injective_map_NoDup; [intros x y E; now injection E|apply seq_NoDup].
    - apply IH.
    - intros [s i] I J. apply in_map_iff in I. destruct I as [x [E _]]. injection E as <- <-.
      apply in_flat_map in J. destruct J as [t [T J]]. apply in_map_iff in J. destruct J as [y [E _]]. injection E as -> _.
      rewrite in_seq in T. lia. }
  unfold hidden.
  assert (G : forall (l k : list (nat * nat)), NoDup l -> NoDup k -> (forall x, In x l -> ~ In x k) -> NoDup (l ++ k)).
  { clear. induction l as [|x l IH]; intros k A B D; [assumption|]. inversion A; subst. cbn. constructor.
    - rewrite in_app_iff. intros [I|I]; [contradiction|]. apply (D x); [now left|assumption].
    - apply IH; [assumption..|]. intros y Y. apply D. now right. }
  apply G; [apply H1| |].
  - apply Injective_map_NoDup; [intros x y E; injection E; lia|apply seq_NoDup].
  - intros [s i] I J. apply in_flat_map in I. destruct I as [t [T I]]. apply in_map_iff in I. destruct I as [y [E _]]. injection E as -> _.
    apply in_map_iff in J. destruct J as [o [E _]]. injection E as <- _. rewrite in_seq in T. lia.
Qed.

Section Expect.
  Variables (outcomes : list nat) (srcs : list (list nat)) (nt : network) (L : nat).
  Hypothesis MK : make_network outcomes srcs = Some nt.
  Notation c := (inflate nt L).
  Notation size := (size nt L).
  Notation lab := (label_of c).
  Notation over := (over nt L).
  Notation normal := (normal nt L).
  Variable R : rfield.
  Add Field RfE : (r_field R).
  Variable M : explanation R.
  Notation wvalue := (word_value outcomes srcs R M).
  Notation E := (expectation outcomes srcs L R M).

  Lemma wvalue_depends w : depends R (fun h => exists l, In l w /\ In h (causes srcs l)) (fun lam => wvalue lam w).
  Proof.
    intros l l' H. unfold word_value. induction w as [|x w IH]; [reflexivity|]. cbn [fold_right]. f_equal.
    - unfold op_value. assert (map l (causes srcs x) = map l' (causes srcs x)) as ->; [|reflexivity].
      apply map_ext_in. intros h I. apply H. exists x. split; [now left|assumption].
    - apply IH. intros h [y [Y I]]. apply H. exists y. split; [now right|assumption].
  Qed.
  Lemma wvalue_regular w : regular R (fun lam => wvalue lam w).
  Proof. intros l l' H. apply (wvalue_depends w). intros h _. now apply H. Qed.
  Lemma expectation_value u v : (forall lam, wvalue lam u = wvalue lam v) -> E u = E v.
  Proof. intros H. unfold expectation. now apply average_ext. Qed.
  Lemma expectation_simplify w : over w ->
    match simplify c w with None => E (map lab w) = r0 R | Some w' => E (map lab w') = E (map lab w) end.
  Proof.
    intros Ov. destruct (simplify c w) as [w'|] eqn:S1.
    - apply expectation_value. intros lam. pose proof (simplify_value outcomes srcs nt L MK R M lam w Ov) as H. now rewrite S1 in H.
    - transitivity (average R M (hidden outcomes srcs L) (fun _ => 0) (fun _ => r0 R)); [|apply average_zero].
      apply average_ext. intros lam. pose proof (simplify_value outcomes srcs nt L MK R M lam w Ov) as H. now rewrite S1 in H.
  Qed.
  Lemma expectation_perm u v : Permutation u v -> E u = E v.
  Proof. intros P. apply expectation_value. intros lam. now apply word_value_perm. Qed.

  (** ** Independent words *)
  Section Norm.
    Hypothesis NM : normalized R M.
    Lemma expectation_one : E [] = r1 R.
    Proof. unfold expectation. cbn. now apply average_const. Qed.
    Lemma expectation_product u v : (forall x y, In x u -> In y v -> ~ share srcs x y) -> E (u ++ v) = rmul R (E u) (E v).
    Proof.
      intros Ap. unfold expectation.
      rewrite (average_ext R M _ (fun e => rmul R (wvalue e u) (wvalue e v))) by (intros; apply word_value_app).
      apply (average_product R M NM (fun h => exists l, In l u /\ In h (causes srcs l)) (fun h => exists l, In l v /\ In h (causes srcs l))).
      - apply wvalue_depends.
      - apply wvalue_depends.
      - intros h [x [X I]] [y [Y J]]. apply (Ap x y X Y). now exists h.
      - intros h. destruct (in_dec (fun a b : nat * nat => ltac:(decide equality; apply Nat.eq_dec)) h (flat_map (causes srcs) u)) as [I|I].
        + left. apply in_flat_map in I. destruct I as [x [X I]]. eauto.
        + right. intros [x [X J]]. apply I, in_flat_map. eauto.
    Qed.
    Lemma expectation_factors fs : ForallOrdPairs (apart srcs nt L) fs ->
      E (map lab (concat fs)) = fold_right (fun f acc => rmul R (E (map lab f)) acc) (r1 R) fs.
    Proof.
      induction 1 as [|f fs F _ IH]; [apply expectation_one|]. cbn [concat fold_right]. rewrite map_app, expectation_product, IH; [reflexivity|].
      intros x y X Y. apply in_map_iff in X. destruct X as [a [<- A]]. apply in_map_iff in Y. destruct Y as [b [<- B]].
      apply in_concat in B. destruct B as [g [G B]]. rewrite Forall_forall in F. exact (F g G a b A B).
    Qed.
  End Norm.

  (** ** Relabelled copies *)
  Variable sigma : nat -> nat -> nat.
  Hypothesis PS : forall s, s < length srcs -> permutes L (sigma s).
  Definition rename (h : nat * nat) : nat * nat :=
    if (fst h <? length srcs) && (snd h <? L) then (fst h, sigma (fst h) (snd h)) else h.
  Lemma rename_fst h : fst (rename h) = fst h.
  Proof. unfold rename. now destruct (_ && _). Qed.
  Lemma rename_inj h k : rename h = rename k -> h = k.
  Proof.
    unfold rename. destruct h as [s i], k as [t j]. cbn [fst snd].
    destruct (Nat.ltb_spec s (length srcs)) as [A|A], (Nat.ltb_spec i L) as [B|B], (Nat.ltb_spec t (length srcs)) as [C|C], (Nat.ltb_spec j L) as [D|D]; cbn [andb];
      intros Eq; try exact Eq; injection Eq as E1 E2; subst; try (exfalso; lia).
    - f_equal. now apply (PS t A).
    - exfalso. pose proof (proj1 (PS t A) i B). lia.
    - exfalso. pose proof (proj1 (PS t C) j D). lia.
  Qed.
  Lemma rename_hidden : Permutation (map rename (hidden outcomes srcs L)) (hidden outcomes srcs L).
  Proof.
    apply NoDup_Permutation_bis.
    - apply Injective_map_NoDup; [exact rename_inj|apply hidden_nodup].
    - now rewrite map_length.
    - intros h I. apply in_map_iff in I. destruct I as [k [<- I]]. apply in_hidden in I. apply in_hidden.
      destruct I as [[A B]|[o [A ->]]].
      + left. unfold rename. destruct (Nat.ltb_spec (fst k) (length srcs)); [|lia]. destruct (Nat.ltb_spec (snd k) L); [|lia].
        cbn. split; [assumption|]. now apply (PS (fst k) A).
      + right. exists o. split; [assumption|]. unfold rename. cbn [fst]. destruct (Nat.ltb_spec (length srcs + o) (length srcs)); [lia|reflexivity].
  Qed.
  Lemma relabel_causes l : exists_label outcomes srcs L l -> causes srcs (relabel srcs sigma l) = map rename (causes srcs l).
  Proof.
    intros [I [Ln [B _]]]. unfold relabel, causes. cbn [lb_obs lb_copies].
    assert (SB : forall s, In s (sources srcs (lb_obs l)) -> s < length srcs) by (intros; eapply sources_bound; eauto).
    destruct (sources srcs (lb_obs l)) as [|s ss].
    - cbn [map]. f_equal. unfold rename. cbn [fst]. destruct (Nat.ltb_spec (length srcs + lb_obs l) (length srcs)); [lia|reflexivity].
    - generalize (lb_copies l) (s :: ss) B SB Ln. clear. intros cs. induction cs as [|i cs IH]; intros ss B SB Ln; destruct ss as [|s ss]; try discriminate; [reflexivity|].
      cbn [List.combine map fst snd]. f_equal.
      + unfold rename. cbn [fst snd]. destruct (Nat.ltb_spec s (length srcs)) as [K|K]; [|specialize (SB s (or_introl eq_refl)); lia].
        destruct (Nat.ltb_spec i L) as [K2|K2]; [reflexivity|specialize (B i (or_introl eq_refl)); lia].
      + apply IH; [intros; apply B; now right|intros; apply SB; now right|cbn in Ln; lia].
  Qed.
  Lemma relabel_value lam l : exists_label outcomes srcs L l ->
    op_value outcomes srcs R M lam (relabel srcs sigma l) = op_value outcomes srcs R M (fun h => lam (rename h)) l.
  Proof. intros X. unfold op_value. rewrite (relabel_causes l X), map_map. reflexivity. Qed.
  Lemma relabel_word lam w : (forall l, In l w -> exists_label outcomes srcs L l) ->
    wvalue lam (map (relabel srcs sigma) w) = wvalue (fun h => lam (rename h)) w.
  Proof.
    unfold word_value. induction w as [|l w IH]; intros H; [reflexivity|]. cbn [map fold_right].
    rewrite relabel_value by (apply H; now left). f_equal. apply IH. intros; apply H; now right.
  Qed.
  Lemma expectation_relabel w : (forall l, In l w -> exists_label outcomes srcs L l) -> E (map (relabel srcs sigma) w) = E w.
  Proof.
    intros H. unfold expectation.
    rewrite (average_ext R M _ (fun lam => wvalue (fun h => lam (rename h)) w)) by (intros; now apply relabel_word).
    rewrite <- (average_perm R M _ (fun l l' Hl => wvalue_regular w _ _ (fun h _ => Hl (rename h) I)) _ _ rename_hidden).
    rewrite (average_rename R M (fun lam => wvalue lam w) rename (wvalue_regular w) rename_inj rename_fst).
    reflexivity.
  Qed.
End Expect.
