(** Factorization of inflation words. *)
From Coq Require Import List NArith ZArith Arith Bool Lia Permutation Sorted.
From Verif Require Import CoreModel AlgModel FieldModel InfModel InfSpec InfProofs InfLayoutProofs InfSimpProofs InfCompleteProofs.
Import ListNotations.

Lemma share_sym srcs x y : share srcs x y -> share srcs y x.
Proof. intros [h [A B]]. now exists h. Qed.
Lemma linked_mono srcs a b x y : incl a b -> linked srcs a x y -> linked srcs b x y.
Proof. intros H. induction 1; [apply linked_refl; auto|eapply linked_step; eauto]. Qed.
Lemma linked_trans srcs w x y z : linked srcs w x y -> linked srcs w y z -> linked srcs w x z.
Proof. induction 1; [auto|]. intros K. eapply linked_step; eauto. Qed.
Lemma linked_in srcs w x y : linked srcs w x y -> In x w /\ In y w.
Proof. induction 1; [auto|]. tauto. Qed.
Lemma linked_sym srcs w x y : linked srcs w x y -> linked srcs w y x.
Proof.
  induction 1 as [x I|x y z I Sh Lk IH]; [now apply linked_refl|].
  eapply linked_trans; [exact IH|]. eapply linked_step; [apply (linked_in _ _ _ _ Lk)|apply share_sym; exact Sh|now apply linked_refl].
Qed.

Section Factor.
  Variables (outcomes : list nat) (srcs : list (list nat)) (nt : network) (L : nat).
  Hypothesis MK : make_network outcomes srcs = Some nt.
  Notation c := (inflate nt L).
  Notation size := (size nt L).
  Notation lab := (label_of c).
  Notation over := (over nt L).
  Notation normal := (normal nt L).
  Notation srcs_of x := (cp_sources (copy_of c x)).

  Lemma meet_app a b s : sources_meet (a ++ b) s = sources_meet a s || sources_meet b s.
  Proof. unfold sources_meet. now rewrite existsb_app. Qed.
  Lemma meet_member opers : over opers -> forall y, y < size ->
    (sources_meet (flat_map (fun x => srcs_of x) opers) (srcs_of y) = true <-> exists x, In x opers /\ share srcs (lab x) (lab y)).
  Proof.
    induction opers as [|x l IH]; intros Ov y Y; [cbn; split; [discriminate|intros [? [[] _]]]|].
    cbn [flat_map]. rewrite meet_app, orb_true_iff, IH by (assumption || (intros z Z; apply Ov; now right)).
    rewrite (meet_share outcomes srcs nt L MK) by (assumption || (apply Ov; now left)). split.
    - intros [H|[z [Z H]]]; [exists x; split; [now left|assumption]|exists z; split; [now right|assumption]].
    - intros [z [[<-|Z] H]]; [now left|right; eauto].
  Qed.
  Lemma take_linked_spec included rest :
    match take_linked c included rest with
    | Some (x, rest') => Permutation rest (x :: rest') /\ sources_meet included (srcs_of x) = true
    | None => forall x, In x rest -> sources_meet included (srcs_of x) = false
    end.
  Proof.
    induction rest as [|y rest IH]; [intros ? []|]. cbn [take_linked]. destruct (sources_meet included (srcs_of y)) eqn:E.
    - split; [reflexivity|assumption].
    - destruct (take_linked c included rest) as [[x rest']|].
      + destruct IH as [P Mx]. split; [|assumption]. rewrite P. apply perm_swap.
      + intros x [<-|X]; [assumption|auto].
  Qed.
  Lemma grow_spec : forall fuel opers rest, over (opers ++ rest) -> length rest <= fuel -> connected srcs (map lab opers) ->
    let '(opers', rest') := grow c fuel opers (flat_map (fun x => srcs_of x) opers) rest in
    Permutation (opers' ++ rest') (opers ++ rest) /\ connected srcs (map lab opers') /\
    (forall x y, In x opers' -> In y rest' -> ~ share srcs (lab x) (lab y)) /\ incl opers opers' /\ length rest' <= length rest.
  Proof.
    induction fuel as [|fuel IH]; intros opers rest Ov Le Cn.
    - destruct rest as [|y rest]; [|cbn in Le; lia]. cbn. split; [reflexivity|]. split; [assumption|].
      split; [intros x y _ []|]. split; [apply incl_refl|lia].
    - cbn [grow]. pose proof (take_linked_spec (flat_map (fun x => srcs_of x) opers) rest) as T.
      destruct (take_linked c (flat_map (fun x => srcs_of x) opers) rest) as [[x rest']|].
      + destruct T as [P Mx].
        assert (X : x < size) by (apply Ov, in_or_app; right; apply (Permutation_in _ (Permutation_sym P)); now left).
        assert (Oo : over opers) by (intros z Z; apply Ov, in_or_app; now left).
        assert (Ov' : over ((opers ++ [x]) ++ rest')).
        { intros z Z. apply Ov. rewrite <- app_assoc in Z. cbn [app] in Z.
          apply in_app_or in Z. apply in_or_app. destruct Z as [Z|Z]; [now left|right]. now apply (Permutation_in _ (Permutation_sym P)). }
        assert (Cn' : connected srcs (map lab (opers ++ [x]))).
        { apply (meet_member opers Oo x X) in Mx. destruct Mx as [z [Z Sh]]. rewrite map_app. cbn [map].
          assert (I1 : incl (map lab opers) (map lab opers ++ [lab x])) by (intros q Q; apply in_or_app; now left).
          assert (Ix : In (lab x) (map lab opers ++ [lab x])) by (apply in_or_app; right; now left).
          assert (Iz : In (lab z) (map lab opers)) by now apply in_map.
          assert (Lx : forall p, In p (map lab opers ++ [lab x]) -> linked srcs (map lab opers ++ [lab x]) p (lab x)).
          { intros p Hp. apply in_app_or in Hp. destruct Hp as [Hp|[<-|[]]]; [|now apply linked_refl].
            eapply linked_trans; [apply (linked_mono srcs _ _ _ _ I1), (Cn p (lab z) Hp Iz)|].
            eapply linked_step; [apply I1, Iz|exact Sh|now apply linked_refl]. }
          intros p q Hp Hq. eapply linked_trans; [apply Lx, Hp|apply linked_sym, Lx, Hq]. }
        pose proof (Permutation_length P) as PL. cbn [length] in PL.
        specialize (IH (opers ++ [x]) rest' Ov' ltac:(lia) Cn').
        rewrite flat_map_app in IH. cbn [flat_map] in IH. rewrite app_nil_r in IH.
        destruct (grow c fuel (opers ++ [x]) (flat_map (fun x0 => srcs_of x0) opers ++ srcs_of x) rest') as [o' r'].
        destruct IH as [A [B [D [E F]]]]. split; [|split; [assumption|split; [assumption|split]]].
        * rewrite A, <- app_assoc. apply Permutation_app_head. cbn. now symmetry.
        * intros q Q. apply E, in_or_app. now left.
        * lia.
      + split; [reflexivity|]. split; [assumption|]. split; [|split; [apply incl_refl|lia]].
        intros x y X Y Sh. assert (Y' : y < size) by (apply Ov, in_or_app; now right).
        assert (Oo : over opers) by (intros z Z; apply Ov, in_or_app; now left).
        assert (sources_meet (flat_map (fun x0 => srcs_of x0) opers) (srcs_of y) = true) by (apply meet_member; eauto).
        rewrite (T y Y) in H. discriminate.
  Qed.

  (** what is needed of a word for it to be kept by the constructor *)
  Definition tidy (w : word) : Prop :=
    over w /\ coherent nt L w /\ forall x, oi_proj (info c x) = true -> count_occ Nat.eq_dec w x <= 1.
  Lemma normal_tidy w : normal w -> tidy w.
  Proof. intros N. split; [apply N|]. split; [apply N|]. intros x P. now apply (normal_count nt L). Qed.
  Lemma tidy_perm u v : Permutation u v -> tidy u -> tidy v.
  Proof.
    intros P [A [B D]]. split; [|split].
    - intros x X. apply A. now apply (Permutation_in _ (Permutation_sym P)).
    - intros x y X Y. apply B; now apply (Permutation_in _ (Permutation_sym P)).
    - intros x Q. specialize (D x Q). now rewrite (proj1 (Permutation_count_occ Nat.eq_dec u v) P x) in D.
  Qed.
  Lemma tidy_app_l u v : tidy (u ++ v) -> tidy u.
  Proof.
    intros [A [B D]]. split; [|split].
    - intros x X. apply A, in_or_app. now left.
    - intros x y X Y. apply B; apply in_or_app; now left.
    - intros x Q. specialize (D x Q). rewrite count_occ_app in D. lia.
  Qed.
  Lemma unique_keeps w : (forall x, oi_proj (info c x) = true -> count_occ Nat.eq_dec w x <= 1) -> unique c w = w.
  Proof.
    assert (G : forall w last, (oi_proj (info c last) = true -> ~ In last w) ->
                               (forall x, oi_proj (info c x) = true -> count_occ Nat.eq_dec w x <= 1) -> unique_from c last w = w).
    { clear. induction w as [|y w IH]; intros last Nl D; [reflexivity|]. cbn [unique_from].
      destruct (Nat.eqb_spec last y) as [->|N]; cbn [andb].
      - destruct (oi_proj (info c y)) eqn:P; [exfalso; apply Nl; [reflexivity|now left]|].
        f_equal. apply IH; [congruence|]. intros x Q. specialize (D x Q). cbn in D. destruct (Nat.eq_dec y x); lia.
      - f_equal. apply IH.
        + intros P I. specialize (D y P). cbn in D. destruct (Nat.eq_dec y y); [|congruence]. apply (count_occ_In Nat.eq_dec) in I. lia.
        + intros x Q. specialize (D x Q). cbn in D. destruct (Nat.eq_dec y x); lia. }
    intros D. destruct w as [|x w]; [reflexivity|]. cbn [unique]. f_equal. apply G.
    - intros P I. specialize (D x P). cbn in D. destruct (Nat.eq_dec x x); [|congruence]. apply (count_occ_In Nat.eq_dec) in I. lia.
    - intros y Q. specialize (D y Q). cbn in D. destruct (Nat.eq_dec x y); lia.
  Qed.
  Lemma tidy_normal w : tidy w -> sorted w -> normal w.
  Proof. intros [A [B D]] Sw. split; [assumption|]. split; [assumption|]. split; [assumption|now apply unique_keeps]. Qed.
  Lemma tidy_simplify w : tidy w -> simplify c w = Some (sort_word w) /\ normal (sort_word w).
  Proof.
    intros T. assert (N : normal (sort_word w)).
    { apply tidy_normal; [|apply sort_sorted]. apply (tidy_perm w); [symmetry; apply sort_perm|assumption]. }
    split; [|assumption]. pose proof (normal_simplify outcomes srcs nt L MK _ N) as H.
    unfold simplify in *. now rewrite (sort_id _ (sort_sorted w)) in H.
  Qed.

  (** ** The factors *)
  Definition apart (f g : word) : Prop := forall x y, In x f -> In y g -> ~ share srcs (lab x) (lab y).
  Definition good_factors (fs : list word) : Prop :=
    ForallOrdPairs apart fs /\ forall f, In f fs -> normal f /\ connected srcs (map lab f) /\ f <> [].
  Lemma split_spec : forall fuel w, length w <= fuel -> tidy w ->
    exists fs, split c fuel w = map Some fs /\ Permutation (concat fs) w /\ good_factors fs.
  Proof.
    induction fuel as [|fuel IH]; intros w Le T.
    - destruct w; [|cbn in Le; lia]. exists []. cbn. split; [reflexivity|]. split; [reflexivity|]. split; [constructor|intros ? []].
    - cbn [split]. destruct w as [|x rest]; [exists []; cbn; split; [reflexivity|]; split; [reflexivity|]; split; [constructor|intros ? []]|].
      assert (Cx : connected srcs (map lab [x])).
      { intros p q [<-|[]] [<-|[]]. apply linked_refl. now left. }
      pose proof (grow_spec (length rest) [x] rest (proj1 T) (Nat.le_refl _) Cx) as G.
      cbn [flat_map] in G. rewrite app_nil_r in G.
      destruct (grow c (length rest) [x] (srcs_of x) rest) as [o r]. destruct G as [P [Cn [Ap [In1 Ln]]]]. cbn [app] in P.
      assert (To : tidy (o ++ r)) by (apply (tidy_perm (x :: rest)); [now symmetry|assumption]).
      assert (Tr : tidy r) by (apply (tidy_app_l r o); apply (tidy_perm (o ++ r)); [apply Permutation_app_comm|assumption]).
      apply tidy_app_l in To. destruct (tidy_simplify o To) as [E N].
      cbn in Le. destruct (IH r ltac:(lia) Tr) as [fs [A [B [Cc D]]]]. exists (sort_word o :: fs). split; [|split; [|split]].
      + cbn [map]. now rewrite E, A.
      + cbn [concat]. rewrite sort_perm, B. exact P.
      + constructor; [|assumption]. apply Forall_forall. intros f F p q Hp Hq.
        apply Ap; [now apply (Permutation_in _ (sort_perm o))|]. apply (Permutation_in _ B). apply in_concat. eauto.
      + intros f [<-|F]; [|auto]. split; [assumption|]. split.
        * intros p q Hp Hq. apply (linked_mono srcs (map lab o)).
          -- intros z Z. apply in_map_iff in Z. destruct Z as [y [<- Y]]. apply in_map. now apply (Permutation_in _ (Permutation_sym (sort_perm o))).
          -- apply Cn; [apply in_map_iff in Hp; destruct Hp as [y [<- Y]]|apply in_map_iff in Hq; destruct Hq as [y [<- Y]]];
               apply in_map; now apply (Permutation_in _ (sort_perm o)).
        * intros Z. specialize (In1 x (or_introl eq_refl)). apply (Permutation_in _ (Permutation_sym (sort_perm o))) in In1. rewrite Z in In1. destruct In1.
  Qed.
  Lemma factorize_spec w : normal w -> w <> [] ->
    exists fs, factorize c w = map Some fs /\ Permutation (concat fs) w /\ good_factors fs.
  Proof.
    intros N NE. unfold factorize. destruct (Nat.leb_spec (length w) 1) as [H|H].
    - exists [w]. cbn. rewrite app_nil_r. split; [reflexivity|]. split; [reflexivity|]. split; [repeat constructor|].
      intros f [<-|[]]. split; [assumption|]. split; [|assumption]. destruct w as [|x [|y w]]; [congruence| |cbn in H; lia].
      intros p q [<-|[]] [<-|[]]. apply linked_refl. now left.
    - apply split_spec; [lia|now apply normal_tidy].
  Qed.
  Lemma factorize_empty : factorize c [] = [Some []]. Proof. reflexivity. Qed.
End Factor.
