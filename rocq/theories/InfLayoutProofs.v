(** Operator numbers and labels. *)
From Coq Require Import List NArith ZArith Arith Bool Lia Permutation.
From Verif Require Import CoreModel AlgModel InfModel InfSpec InfProofs.
Import ListNotations.

Lemma loners_mono srcs o n m : n <= m -> loners srcs o n <= loners srcs o m.
Proof. intros H. induction H as [|m H IH]; [lia|]. rewrite loners_end. lia. Qed.

Lemma causes_combine srcs l : sources srcs (lb_obs l) <> [] -> causes srcs l = List.combine (sources srcs (lb_obs l)) (lb_copies l).
Proof. unfold causes. now destruct (sources srcs (lb_obs l)). Qed.

Section Layout.
  Variables (outcomes : list nat) (srcs : list (list nat)) (nt : network) (L : nat).
  Hypothesis MK : make_network outcomes srcs = Some nt.
  Definition ob (i : nat) : observable := nth i (nt_obs nt) d_obs.
  Notation c := (inflate nt L).
  Definition off (i : nat) : nat := offs (count_operators L) (nt_obs nt) i.
  Definition cpo (i : nat) : nat := offs (count_copies L) (nt_obs nt) i.
  Definition spot (o v a : nat) : nat := off o + (v * operators (ob o) + a).
  Definition valid (o v a : nat) : Prop := o < length outcomes /\ v < count_copies L (ob o) /\ a < operators (ob o).
  Definition size : nat := length (ic_ops c).

  Lemma tables :
    length (ic_obs c) = length outcomes /\
    (forall i, i < length outcomes -> nth i (ic_obs c) no_obs = mk_icobs (ob i) (off i) (cpo i) (make_copies nt L (off i) (ob i))) /\
    length (ic_ops c) = list_sum (map (count_operators L) (nt_obs nt)) /\
    (forall o v a, valid o v a -> info c (spot o v a) = mk_opinfo o v a (projective (ob o))) /\
    length (ic_index c) = list_sum (map (count_copies L) (nt_obs nt)) /\
    (forall o v, o < length outcomes -> v < count_copies L (ob o) -> nth (cpo o + v) (ic_index c) (0, 0) = (o, v)).
  Proof.
    unfold valid, info, inflate. pose proof (inflate_spec nt L (nt_obs nt) 0 0 0) as H.
    rewrite (net_length _ _ _ MK) in H.
    destruct (inflate_from nt L 0 0 0 (nt_obs nt)) as [[ios infos] index]. cbn [ic_obs ic_ops ic_index].
    destruct H as [A [B [Cc [D [E F]]]]]. split; [exact A|]. split; [exact B|]. split; [exact Cc|].
    split; [|split; [exact E|exact F]]. intros o v a [I [V K]]. exact (D o v a I V K).
  Qed.
  Lemma net_of : ic_net c = nt.
  Proof. unfold inflate. destruct (inflate_from nt L 0 0 0 (nt_obs nt)) as [[ios infos] index]. reflexivity. Qed.
  Lemma level_of : ic_level c = L.
  Proof. unfold inflate. destruct (inflate_from nt L 0 0 0 (nt_obs nt)) as [[ios infos] index]. reflexivity. Qed.
  Lemma total_size : size = total_operators nt L.
  Proof.
    unfold size, total_operators. destruct tables as [_ [_ [-> _]]].
    assert (G : forall l t, fold_left (fun t o => t + count_operators L o) l t = t + list_sum (map (count_operators L) l)).
    { induction l as [|o l IH]; intros t; [cbn; lia|]. cbn [fold_left]. rewrite IH. unfold list_sum. cbn [map fold_right]. lia. }
    rewrite G. reflexivity.
  Qed.
  Lemma obs_at i : i < length outcomes -> nth i (ic_obs c) no_obs = mk_icobs (ob i) (off i) (cpo i) (make_copies nt L (off i) (ob i)).
  Proof. apply tables. Qed.
  Lemma info_spot o v a : valid o v a -> info c (spot o v a) = mk_opinfo o v a (projective (ob o)).
  Proof. apply tables. Qed.
  Lemma obs_spot o v a : valid o v a -> obs_of c (spot o v a) = mk_icobs (ob o) (off o) (cpo o) (make_copies nt L (off o) (ob o)).
  Proof. intros Vd. unfold obs_of. rewrite (info_spot _ _ _ Vd). cbn [oi_obs]. apply obs_at, Vd. Qed.
  Lemma copies_at f o v : v < count_copies L o -> nth v (make_copies nt L f o) no_copy = make_copy nt L f o v.
  Proof.
    intros V. unfold make_copies. rewrite nth_indep with (d' := make_copy nt L f o 0) by (now rewrite map_length, seq_length).
    rewrite map_nth with (d := 0). now rewrite seq_nth.
  Qed.
  Lemma copy_spot o v a : valid o v a -> copy_of c (spot o v a) = make_copy nt L (off o) (ob o) v.
  Proof.
    intros Vd. unfold copy_of. rewrite (obs_spot _ _ _ Vd), (info_spot _ _ _ Vd). cbn [io_copies oi_copy].
    apply copies_at, Vd.
  Qed.
  Lemma spot_find op : op < size -> exists o v a, valid o v a /\ op = spot o v a.
  Proof.
    unfold size. destruct tables as [_ [_ [-> _]]]. intros H.
    destruct (offs_find (count_operators L) (nt_obs nt) op H) as [i [r [I [B ->]]]].
    rewrite (net_length _ _ _ MK) in I. unfold count_operators in B.
    assert (K : operators (ob i) <> 0) by (unfold ob in *; nia).
    exists i, (r / operators (ob i)), (r mod operators (ob i)). split.
    - unfold valid. split; [assumption|]. split; [apply Nat.div_lt_upper_bound; unfold ob in *; lia|now apply Nat.mod_upper_bound].
    - unfold spot, off. f_equal. pose proof (Nat.div_mod r (operators (ob i)) K). lia.
  Qed.
  Lemma spot_bound o v a : valid o v a -> spot o v a < off (S o) /\ off o <= spot o v a.
  Proof.
    intros [I [V K]]. unfold spot, off. rewrite offs_next by (now rewrite (net_length _ _ _ MK)).
    fold (ob o). change (count_operators L (ob o)) with (operators (ob o) * count_copies L (ob o)). split; nia.
  Qed.
  Lemma spot_size o v a : valid o v a -> spot o v a < size.
  Proof.
    intros Vd. destruct (spot_bound _ _ _ Vd) as [B _]. unfold size. destruct tables as [_ [_ [-> _]]].
    rewrite <- offs_all. pose proof (offs_mono (count_operators L) (nt_obs nt) (S o) (length (nt_obs nt))) as Mo.
    destruct Vd as [I _]. rewrite (net_length _ _ _ MK) in *. specialize (Mo I (Nat.le_refl _)). unfold off in B. lia.
  Qed.
  Lemma spot_inj o v a o' v' a' : valid o v a -> valid o' v' a' -> spot o v a = spot o' v' a' -> o = o' /\ v = v' /\ a = a'.
  Proof.
    intros Va Vb E. pose proof (info_spot _ _ _ Va) as A. rewrite E, (info_spot _ _ _ Vb) in A. injection A. intros; subst; auto.
  Qed.
  Lemma spot_order o v a o' v' a' : valid o v a -> valid o' v' a' ->
    (spot o v a < spot o' v' a' <-> o < o' \/ (o = o' /\ (v < v' \/ (v = v' /\ a < a')))).
  Proof.
    intros Va Vb. pose proof (spot_bound _ _ _ Va) as [A1 A2]. pose proof (spot_bound _ _ _ Vb) as [B1 B2].
    destruct Va as [I [V K]]. destruct Vb as [I' [V' K']].
    assert (Mo : forall i j, i < j -> j < length outcomes -> off (S i) <= off j).
    { intros i j H J. unfold off. apply offs_mono; [lia|]. rewrite (net_length _ _ _ MK). lia. }
    destruct (lt_eq_lt_dec o o') as [[H|H]|H].
    - specialize (Mo o o' H I'). lia.
    - subst o'. unfold spot in *. split.
      + intros H. right. split; [reflexivity|]. destruct (lt_eq_lt_dec v v') as [[Z|Z]|Z]; [now left|right; subst; split; [reflexivity|lia]|exfalso; nia].
      + intros [H|[_ [H|[-> H]]]]; [lia|nia|lia].
    - specialize (Mo o' o H I). lia.
  Qed.

  (** the observables *)
  Lemma obs_is i : i < length outcomes -> ob i = the_obs srcs i (length srcs + loners srcs 0 i) (nth i outcomes 0).
  Proof. apply (net_obs _ _ _ MK). Qed.
  Lemma obs_outcomes i : i < length outcomes -> ob_outcomes (ob i) = nth i outcomes 0.
  Proof. intros I. rewrite (obs_is i I). unfold the_obs. now destruct (sources srcs i). Qed.
  Lemma obs_single i : i < length outcomes -> ob_single (ob i) = match sources srcs i with [] => true | _ => false end.
  Proof. intros I. rewrite (obs_is i I). unfold the_obs. now destruct (sources srcs i). Qed.
  Lemma obs_sources i : i < length outcomes -> ob_single (ob i) = false -> ob_sources (ob i) = sources srcs i.
  Proof. intros I. rewrite (obs_is i I). unfold the_obs. now destruct (sources srcs i). Qed.
  Lemma obs_alone i : i < length outcomes -> ob_single (ob i) = true -> ob_sources (ob i) = [length srcs + loners srcs 0 i] /\ sources srcs i = [].
  Proof. intros I. rewrite (obs_is i I). unfold the_obs. now destruct (sources srcs i). Qed.
  Lemma obs_operators i : i < length outcomes -> operators (ob i) = match nth i outcomes 0 with 0 => 1 | S k => k end.
  Proof.
    intros I. unfold operators, projective. rewrite (obs_outcomes i I). destruct (nth i outcomes 0); cbn; [reflexivity|lia].
  Qed.
  Lemma obs_projective i : i < length outcomes -> projective (ob i) = negb (Nat.eqb (nth i outcomes 0) 0).
  Proof. intros I. unfold projective. now rewrite (obs_outcomes i I). Qed.
  Lemma copies_count i : i < length outcomes -> count_copies L (ob i) = L ^ length (sources srcs i).
  Proof.
    intros I. unfold count_copies. destruct (ob_single (ob i)) eqn:S1.
    - destruct (obs_alone i I S1) as [_ ->]. reflexivity.
    - now rewrite (obs_sources i I S1).
  Qed.
  Lemma level_pos o v a : valid o v a -> ob_single (ob o) = false -> 0 < L.
  Proof.
    intros [I [V _]] S1. rewrite (copies_count o I) in V. rewrite (obs_single o I) in S1.
    destruct (sources srcs o) as [|s ss]; [discriminate|]. destruct L; [cbn in V; lia|lia].
  Qed.

  (** labels *)
  Lemma label_spot o v a : valid o v a -> label_of c (spot o v a) = mk_label o (unflatten L (length (sources srcs o)) v) a.
  Proof.
    intros Vd. unfold label_of. rewrite (info_spot _ _ _ Vd), (obs_spot _ _ _ Vd), (copy_spot _ _ _ Vd).
    cbn [oi_obs oi_outcome io_obs]. f_equal. destruct (ob_single (ob o)) eqn:S1.
    - destruct (obs_alone o (proj1 Vd) S1) as [_ ->]. reflexivity.
    - cbn. rewrite (obs_sources o (proj1 Vd) S1). unfold unflatten_index.
      destruct (Nat.eqb_spec L 0) as [->|_]; [|reflexivity]. pose proof (level_pos _ _ _ Vd S1). lia.
  Qed.
  Lemma indices_spot o v a : valid o v a -> ob_single (ob o) = false ->
    cp_indices (copy_of c (spot o v a)) = unflatten L (length (sources srcs o)) v.
  Proof.
    intros Vd S1. rewrite (copy_spot _ _ _ Vd). cbn. rewrite (obs_sources o (proj1 Vd) S1). unfold unflatten_index.
    destruct (Nat.eqb_spec L 0) as [->|_]; [|reflexivity]. pose proof (level_pos _ _ _ Vd S1). lia.
  Qed.
  Definition number (l : label) : nat := spot (lb_obs l) (flat L (lb_copies l)) (lb_outcome l).
  Lemma label_valid l : exists_label outcomes srcs L l -> valid (lb_obs l) (flat L (lb_copies l)) (lb_outcome l).
  Proof.
    intros [I [E [B K]]]. split; [assumption|]. split.
    - rewrite (copies_count _ I), <- E. now apply flat_bound.
    - now rewrite (obs_operators _ I).
  Qed.
  Lemma label_number l : exists_label outcomes srcs L l -> number l < size /\ label_of c (number l) = l.
  Proof.
    intros X. pose proof (label_valid l X) as Vd. split; [now apply spot_size|].
    unfold number. rewrite (label_spot _ _ _ Vd). destruct X as [I [E [B K]]]. rewrite unflatten_flat by assumption. now destruct l.
  Qed.
  Lemma spot_label o v a : valid o v a -> exists_label outcomes srcs L (mk_label o (unflatten L (length (sources srcs o)) v) a).
  Proof.
    intros Vd. pose proof Vd as [I [V K]]. unfold exists_label. cbn [lb_obs lb_copies lb_outcome].
    split; [assumption|]. split; [apply unflatten_length|]. split.
    - intros i H. destruct (sources srcs o) as [|s ss] eqn:SS; [destruct H|].
      apply unflatten_bound in H; [assumption|]. apply (level_pos o v a Vd). now rewrite (obs_single o I), SS.
    - now rewrite <- (obs_operators o I).
  Qed.
  Lemma number_spot o v a : valid o v a -> number (mk_label o (unflatten L (length (sources srcs o)) v) a) = spot o v a.
  Proof.
    intros Vd. unfold number. cbn [lb_obs lb_copies lb_outcome]. f_equal.
    pose proof Vd as [I [V K]]. rewrite (copies_count o I) in V.
    destruct (sources srcs o) as [|s ss] eqn:SS; [cbn in *; lia|].
    apply flat_unflatten; [|assumption]. apply (level_pos o v a Vd). now rewrite (obs_single o I), SS.
  Qed.
  Lemma label_exists op : op < size -> exists_label outcomes srcs L (label_of c op).
  Proof. intros H. destruct (spot_find op H) as [o [v [a [Vd ->]]]]. rewrite (label_spot _ _ _ Vd). now apply spot_label. Qed.
  Lemma number_label op : op < size -> number (label_of c op) = op.
  Proof. intros H. destruct (spot_find op H) as [o [v [a [Vd ->]]]]. rewrite (label_spot _ _ _ Vd). now apply number_spot. Qed.
  Lemma label_inj x y : x < size -> y < size -> label_of c x = label_of c y -> x = y.
  Proof. intros X Y E. rewrite <- (number_label x X), <- (number_label y Y). now rewrite E. Qed.
  Lemma number_order l m : exists_label outcomes srcs L l -> exists_label outcomes srcs L m -> (number l < number m <-> before l m).
  Proof.
    intros A B. unfold number. rewrite spot_order by now apply label_valid. unfold before.
    destruct A as [A0 [A1 [A2 A3]]]. destruct B as [B0 [B1 [B2 B3]]].
    destruct (Nat.eq_dec (lb_obs l) (lb_obs m)) as [E|N].
    - rewrite (flat_order L) by (congruence || assumption). split.
      + intros [H|[H [K|[K J]]]]; [now left|right; split; [assumption|now left]|right; split; [assumption|right]].
        split; [|assumption]. rewrite <- (unflatten_flat L _ _ A1 A2), <- (unflatten_flat L _ _ B1 B2). now rewrite K, E.
      + intros [H|[H [K|[K J]]]]; [now left|right; split; [assumption|now left]|right; split; [assumption|right]].
        split; [now rewrite K|assumption].
    - split; intros [H|[H _]]; try (now left); contradiction.
  Qed.
  Lemma info_proj op : op < size -> oi_proj (info c op) = true <-> measured outcomes (label_of c op).
  Proof.
    intros H. destruct (spot_find op H) as [o [v [a [Vd ->]]]]. rewrite (label_spot _ _ _ Vd), (info_spot _ _ _ Vd).
    cbn. rewrite (obs_projective o (proj1 Vd)). unfold measured. cbn. destruct (Nat.eqb_spec (nth o outcomes 0) 0); cbn; split; congruence.
  Qed.

  (** the numbering functions *)
  Lemma operator_number_is o v a : o < length outcomes -> operator_number c o v a = spot o v a.
  Proof. intros I. unfold operator_number. rewrite (obs_at o I). cbn. unfold spot. lia. Qed.
  Lemma copy_index_is o v : o < length outcomes -> copy_index c o v = cpo o + v.
  Proof. intros I. unfold copy_index. now rewrite (obs_at o I). Qed.
  Lemma index_copy_is o v : o < length outcomes -> v < count_copies L (ob o) -> index_copy c (cpo o + v) = (o, v).
  Proof. apply tables. Qed.
  Lemma index_find g : g < length (ic_index c) -> exists o v, o < length outcomes /\ v < count_copies L (ob o) /\ g = cpo o + v.
  Proof.
    destruct tables as [_ [_ [_ [_ [-> _]]]]]. intros H. destruct (offs_find (count_copies L) (nt_obs nt) g H) as [i [r [I [B ->]]]].
    rewrite (net_length _ _ _ MK) in I. exists i, r. split; [assumption|]. split; [exact B|reflexivity].
  Qed.
  Lemma index_bound o v : o < length outcomes -> v < count_copies L (ob o) -> cpo o + v < length (ic_index c).
  Proof.
    intros I V. destruct tables as [_ [_ [_ [_ [-> _]]]]]. rewrite <- offs_all.
    pose proof (offs_mono (count_copies L) (nt_obs nt) (S o) (length (nt_obs nt))) as Mo.
    rewrite (net_length _ _ _ MK) in *. specialize (Mo I (Nat.le_refl _)).
    rewrite offs_next in Mo by (now rewrite (net_length _ _ _ MK)). fold (ob o) in Mo. unfold cpo. lia.
  Qed.

  (** source copies *)
  Definition code (h : nat * nat) : nat :=
    if fst h <? length srcs then fst h * L + snd h else length srcs * L + loners srcs 0 (fst h - length srcs).
  Lemma sources_spot o v a : valid o v a -> cp_sources (copy_of c (spot o v a)) = map code (causes srcs (label_of c (spot o v a))).
  Proof.
    intros Vd. rewrite (label_spot _ _ _ Vd), (copy_spot _ _ _ Vd). cbn [make_copy cp_sources].
    destruct (ob_single (ob o)) eqn:S1.
    - unfold causes. cbn [lb_obs lb_copies]. destruct (obs_alone o (proj1 Vd) S1) as [E ->]. rewrite E. cbn [length map].
      assert (unflatten_index L 1 v = [if Nat.eqb L 0 then 0 else v mod L]) as -> by (unfold unflatten_index; now destruct (Nat.eqb L 0)).
      cbn [List.combine map fst snd]. f_equal. unfold global_source, code. cbn [fst snd].
      rewrite (net_explicit _ _ _ MK). destruct (Nat.leb_spec (length srcs) (length srcs + loners srcs 0 o)); [|lia].
      destruct (Nat.ltb_spec (length srcs + o) (length srcs)); [lia|]. f_equal.
      replace (length srcs + o - length srcs) with o by lia. lia.
    - rewrite (obs_sources o (proj1 Vd) S1).
      assert (unflatten_index L (length (sources srcs o)) v = unflatten L (length (sources srcs o)) v) as ->.
      { unfold unflatten_index. destruct (Nat.eqb_spec L 0) as [->|_]; [|reflexivity]. pose proof (level_pos _ _ _ Vd S1). lia. }
      assert (S2 : sources srcs o <> []) by (intros Z; rewrite (obs_single o (proj1 Vd)), Z in S1; discriminate).
      rewrite causes_combine by exact S2. cbn [lb_obs lb_copies].
      apply map_ext_in. intros [s i] I. cbn [fst snd]. apply in_combine_l in I. apply sources_bound in I.
      unfold global_source, code. cbn [fst snd]. rewrite (net_explicit _ _ _ MK).
      destruct (Nat.leb_spec (length srcs) s); [lia|]. destruct (Nat.ltb_spec s (length srcs)); [reflexivity|lia].
  Qed.
  Definition real_cause (h : nat * nat) : Prop :=
    (fst h < length srcs /\ snd h < L) \/ (exists o, o < length outcomes /\ sources srcs o = [] /\ h = (length srcs + o, 0)).
  Lemma causes_real l h : exists_label outcomes srcs L l -> In h (causes srcs l) -> real_cause h.
  Proof.
    intros [I [E [B _]]] H. unfold causes in H. destruct (sources srcs (lb_obs l)) as [|s ss] eqn:SS.
    - destruct H as [<-|[]]. right. exists (lb_obs l). auto.
    - left. destruct h as [x i]. cbn [fst snd]. split.
      + apply in_combine_l in H. rewrite <- SS in H. now apply sources_bound in H.
      + apply in_combine_r in H. auto.
  Qed.
  Lemma code_inj h k : real_cause h -> real_cause k -> code h = code k -> h = k.
  Proof.
    unfold code. intros [[A1 A2]|[o [A1 [A2 ->]]]] [[B1 B2]|[p [B1 [B2 ->]]]] E; cbn [fst snd] in *.
    - destruct (Nat.ltb_spec (fst h) (length srcs)); [|lia]. destruct (Nat.ltb_spec (fst k) (length srcs)); [|lia].
      destruct h as [s i], k as [t j]; cbn in *. destruct (lt_eq_lt_dec s t) as [[Z|Z]|Z]; [exfalso; nia|subst; f_equal; lia|exfalso; nia].
    - destruct (Nat.ltb_spec (fst h) (length srcs)); [|lia]. destruct (Nat.ltb_spec (length srcs + p) (length srcs)); [lia|]. exfalso; nia.
    - destruct (Nat.ltb_spec (fst k) (length srcs)); [|lia]. destruct (Nat.ltb_spec (length srcs + o) (length srcs)); [lia|]. exfalso; nia.
    - destruct (Nat.ltb_spec (length srcs + o) (length srcs)); [lia|]. destruct (Nat.ltb_spec (length srcs + p) (length srcs)); [lia|].
      replace (length srcs + o - length srcs) with o in E by lia. replace (length srcs + p - length srcs) with p in E by lia.
      assert (Hl : forall x y, x < y -> sources srcs x = [] -> loners srcs 0 x < loners srcs 0 y).
      { intros x y K0 K1. pose proof (loners_mono srcs 0 (S x) y K0) as Mo. rewrite loners_end in Mo.
        unfold alone in Mo. cbn [Nat.add] in Mo. rewrite K1 in Mo. lia. }
      destruct (lt_eq_lt_dec o p) as [[Z|Z]|Z]; [specialize (Hl o p Z A2); lia|now subst|specialize (Hl p o Z B2); lia].
  Qed.
  Lemma meet_share x y : x < size -> y < size ->
    (sources_meet (cp_sources (copy_of c x)) (cp_sources (copy_of c y)) = true <-> share srcs (label_of c x) (label_of c y)).
  Proof.
    intros X Y. pose proof (label_exists x X) as EX. pose proof (label_exists y Y) as EY.
    assert (cp_sources (copy_of c x) = map code (causes srcs (label_of c x))) as ->
      by (destruct (spot_find x X) as [o [v [a [Vd ->]]]]; now apply sources_spot).
    assert (cp_sources (copy_of c y) = map code (causes srcs (label_of c y))) as ->
      by (destruct (spot_find y Y) as [o [v [a [Vd ->]]]]; now apply sources_spot).
    unfold sources_meet, share. rewrite existsb_exists. split.
    - intros [s [I J]]. apply existsb_exists in J. destruct J as [t [J E]]. apply Nat.eqb_eq in E. subst t.
      apply in_map_iff in I. destruct I as [h [Eh I]]. apply in_map_iff in J. destruct J as [k [Ek J]].
      assert (h = k) as <-. { apply code_inj; [eauto using causes_real|eauto using causes_real|congruence]. } eauto.
    - intros [h [I J]]. exists (code h). split; [now apply in_map|]. apply existsb_exists. exists (code h).
      split; [now apply in_map|apply Nat.eqb_refl].
  Qed.
  Lemma code_bound h : real_cause h -> code h < total_sources nt L.
  Proof.
    unfold total_sources, code. rewrite (net_explicit _ _ _ MK), (net_implicit _ _ _ MK).
    intros [[A1 A2]|[o [A1 [A2 ->]]]]; cbn [fst snd].
    - destruct (Nat.ltb_spec (fst h) (length srcs)); [nia|lia].
    - destruct (Nat.ltb_spec (length srcs + o) (length srcs)); [lia|]. replace (length srcs + o - length srcs) with o by lia.
      pose proof (loners_mono srcs 0 (S o) (length outcomes) A1) as Mo. rewrite loners_end in Mo. unfold alone in Mo. cbn [Nat.add] in Mo.
      rewrite A2 in Mo. lia.
  Qed.
End Layout.
