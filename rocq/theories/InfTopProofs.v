(** Canonical moments: the loop. *)
From Coq Require Import List NArith ZArith Arith Bool Lia Permutation Sorted FinFun.
From Verif Require Import CoreModel AlgModel FieldModel InfModel InfSpec InfProofs InfLayoutProofs InfSimpProofs InfCompleteProofs InfFactorProofs InfSeenProofs InfMomentProofs InfAverageProofs InfExpectProofs.
Import ListNotations.

Section Top.
  Variables (outcomes : list nat) (srcs : list (list nat)) (nt : network) (L : nat).
  Hypothesis MK : make_network outcomes srcs = Some nt.
  Notation c := (inflate nt L).
  Notation size := (size nt L).
  Notation lab := (label_of c).
  Notation over := (over nt L).
  Notation normal := (normal nt L).
  Notation n := (length srcs).
  Notation total := (total_sources nt L).
  Notation sig := (sig srcs nt L).
  Notation move := (move srcs nt L).
  Notation lawful := (lawful srcs L).
  Notation changed := (changed srcs nt L).
  Notation trail := (trail srcs nt L).

  Lemma relabel_compose tau sigma l : relabel srcs tau (relabel srcs sigma l) = relabel srcs (fun s i => tau s (sigma s i)) l.
  Proof.
    unfold relabel. cbn [lb_obs lb_copies lb_outcome]. f_equal. revert tau sigma. generalize (lb_copies l). generalize (sources srcs (lb_obs l)). clear.
    intros ss. induction ss as [|s ss IH]; intros [|i cs] tau sigma; cbn; [reflexivity..|]. now rewrite IH.
  Qed.
  Lemma move_compose tau sigma x : lawful tau -> lawful sigma -> x < size -> move tau (move sigma x) = move (fun s i => tau s (sigma s i)) x.
  Proof.
    intros Lt Ls X. unfold InfMomentProofs.move at 1. rewrite (proj2 (move_label outcomes srcs nt L MK sigma x Ls X)), relabel_compose. reflexivity.
  Qed.
  Lemma lawful_compose tau sigma : lawful tau -> lawful sigma -> lawful (fun s i => tau s (sigma s i)).
  Proof.
    intros Lt Ls s Sn. destruct (Lt s Sn) as [A1 A2]. destruct (Ls s Sn) as [B1 B2]. split; [auto|].
    intros i j I J E. apply B2; [assumption..|]. apply A2; auto.
  Qed.
  Lemma sig_lawful w : over w -> lawful (sig w).
  Proof. intros Ov s _. now apply (sig_permutes outcomes srcs nt L MK). Qed.
  Lemma id_lawful : lawful (fun _ i => i).
  Proof. intros s _. split; auto. Qed.
  Lemma move_id x : x < size -> move (fun _ i => i) x = x.
  Proof. intros X. now apply (move_fixed outcomes srcs nt L MK). Qed.
  Lemma moved_over sigma w : lawful sigma -> over w -> over (map (move sigma) w).
  Proof. intros Lw Ov x H. apply in_map_iff in H. destruct H as [y [<- Y]]. apply (move_label outcomes srcs nt L MK); auto. Qed.
  Lemma moved_simplify sigma w : lawful sigma -> normal w ->
    simplify c (map (move sigma) w) = Some (sort_word (map (move sigma) w)) /\ normal (sort_word (map (move sigma) w)).
  Proof. intros Lw N. apply (tidy_simplify outcomes srcs nt L MK). apply (move_tidy outcomes srcs nt L MK); [assumption|now apply normal_tidy]. Qed.

  (** words named in the order of their copies *)
  Lemma renamed_unchanged w : over w -> ~ changed (map (move (sig w)) w).
  Proof.
    intros Ov [s [i [Ht Hi]]]. apply Hi. pose proof (sig_lawful w Ov) as Lw. rewrite (move_trail outcomes srcs nt L MK) in * by assumption.
    assert (Inj : forall i j, In (s, i) (trail w) -> In (s, j) (trail w) -> sig w s i = sig w s j -> i = j).
    { intros a b A B E. destruct (trail_tame outcomes srcs nt L MK w Ov s a A) as [Sn La]. destruct (trail_tame outcomes srcs nt L MK w Ov s b B) as [_ Lb].
      now apply (Lw s Sn). }
    rewrite (seen_map (trail w) s (sig w) Inj).
    apply in_map_iff in Ht. destruct Ht as [[t j] [E Ht]]. cbn [fst snd] in E. injection E as -> <-.
    assert (map (sig w s) (seen (trail w) s) = map (fun i => index i (seen (trail w) s)) (seen (trail w) s)) as Em.
    { apply map_ext_in. intros k K. unfold InfMomentProofs.sig. rewrite naming_seen; [reflexivity|now apply seen_in]. }
    rewrite index_map; [|intros x y X Y; apply Inj; now apply seen_in|now apply seen_in].
    symmetry. unfold InfMomentProofs.sig. now apply naming_seen.
  Qed.

  Definition rank (w : word) : nat := flat size (rev w).
  Lemma rank_smaller u w : over u -> over w -> length u = length w -> lex_less u w -> rank u < rank w.
  Proof. intros. now apply lex_less_num. Qed.

  Lemma as_moment_step fuel scratch w : w <> [] -> over w -> length scratch = total ->
    as_moment c (S fuel) scratch w =
    if fst (find_permutation c scratch w) then
      if is_sorted (map (move (sig w)) w) then Ret (simplify c (map (move (sig w)) w))
      else match simplify c (map (move (sig w)) w) with None => Ret None | Some s => as_moment c fuel (snd (find_permutation c scratch w)) s end
    else Ret (Some w).
  Proof.
    intros NE Ov Ls. pose proof (permuted_word outcomes srcs nt L MK w scratch Ov Ls) as P. cbn [as_moment].
    destruct w as [|x w]; [congruence|]. destruct (find_permutation c scratch (x :: w)) as [b p]. cbn [fst snd] in *. rewrite P. reflexivity.
  Qed.
  Lemma moment_exists : forall k w, normal w -> rank w < k ->
    exists r, (forall fuel scratch, k <= fuel -> length scratch = total -> as_moment c fuel scratch w = Ret (Some r)) /\
      normal r /\ ~ changed r /\ (exists sigma, lawful sigma /\ Permutation r (map (move sigma) w)) /\
      ((r = w /\ ~ changed w) \/ (lex_less r w /\ changed w)).
  Proof.
    induction k as [|k IH]; intros w N Rk; [lia|]. pose proof N as [Ov [Sw _]].
    destruct w as [|x0 w0].
    { exists []. split; [intros [|f] scr Le Ls; [lia|reflexivity]|]. split; [assumption|].
      assert (Nc : ~ changed []) by (intros [? [? [[] _]]]). split; [assumption|]. split; [exists (fun _ i => i); split; [exact id_lawful|reflexivity]|left; auto]. }
    remember (x0 :: w0) as w. assert (NE : w <> []) by (subst; discriminate). clear Heqw x0 w0.
    pose proof (sig_lawful w Ov) as Lw.
    destruct (changed_dec outcomes srcs nt L MK w Ov) as [Ch|Nc].
    - set (w' := map (move (sig w)) w) in *.
      pose proof (moved_smaller outcomes srcs nt L MK w Ov Ch) as Lx. fold w' in Lx.
      destruct (moved_simplify (sig w) w Lw N) as [Sm Ns]. fold w' in Sm, Ns.
      pose proof (moved_over (sig w) w Lw Ov) as Ov'. fold w' in Ov'.
      destruct (is_sorted w') eqn:So.
      + pose proof (proj1 (is_sorted_spec w') So) as So'. rewrite (sort_id w' So') in Sm, Ns. exists w'. split; [|split; [assumption|split; [|split]]].
        * intros [|f] scr Le Ls; [lia|]. rewrite as_moment_step by assumption. fold w'.
          assert (fst (find_permutation c scr w) = true) as -> by (now apply (flag_changed outcomes srcs nt L MK)). now rewrite So, Sm.
        * now apply renamed_unchanged.
        * exists (sig w). split; [assumption|reflexivity].
        * right. split; assumption.
      + assert (Lx2 : lex_less (sort_word w') w).
        { destruct (sorted_least (sort_word w') w' (sort_sorted _) (sort_perm _)) as [->|H]; [assumption|]. eapply lex_trans; eauto. }
        assert (Rk' : rank (sort_word w') < k).
        { assert (rank (sort_word w') < rank w); [|lia]. apply rank_smaller; [apply Ns|assumption| |assumption].
          rewrite (Permutation_length (sort_perm w')). apply map_length. }
        destruct (IH (sort_word w') Ns Rk') as [r [A [B [D [[tau [Lt P]] F]]]]]. exists r. split; [|split; [assumption|split; [assumption|split]]].
        * intros [|f] scr Le Ls; [lia|]. rewrite as_moment_step by assumption. fold w'.
          assert (fst (find_permutation c scr w) = true) as -> by (now apply (flag_changed outcomes srcs nt L MK)). rewrite So, Sm. apply A; [lia|].
          now apply (scratch_kept outcomes srcs nt L MK).
        * exists (fun s i => tau s (sig w s i)). split; [now apply lawful_compose|]. rewrite P.
          rewrite (Permutation_map (move tau) (sort_perm w')). unfold w'. rewrite map_map.
          apply Permutation_refl'. apply map_ext_in. intros x X. apply move_compose; auto.
        * right. split; [|assumption]. destruct F as [[-> _]|[F _]]; [assumption|eapply lex_trans; eauto].
    - exists w. split; [|split; [assumption|split; [assumption|split]]].
      + intros [|f] scr Le Ls; [lia|]. rewrite as_moment_step by assumption.
        destruct (fst (find_permutation c scr w)) eqn:E; [|reflexivity]. apply (flag_changed outcomes srcs nt L MK) in E; [contradiction|assumption..].
      + exists (fun _ i => i). split; [exact id_lawful|]. apply Permutation_refl'. rewrite <- (map_id w) at 1. apply map_ext_in. intros x X. symmetry. apply move_id. auto.
      + left. auto.
  Qed.

  (** without copies nothing changes *)
  Lemma aliases_changed w : over w -> changed w -> can_have_aliases c = true.
  Proof.
    intros Ov [s [i [Ht Hi]]]. unfold can_have_aliases. rewrite (level_of nt L), (net_of nt L), (net_explicit _ _ _ MK).
    destruct (trail_tame outcomes srcs nt L MK w Ov s i Ht) as [Sn Il]. apply andb_true_iff. split; apply Nat.ltb_lt; [|lia].
    destruct (le_lt_dec L 1) as [H|H]; [|assumption]. exfalso. apply Hi.
    assert (B : forall k, In k (seen (trail w) s) -> k < L) by (intros k K; apply seen_in in K; now apply (trail_tame outcomes srcs nt L MK w Ov s k)).
    assert (I : In i (seen (trail w) s)) by (now apply seen_in).
    destruct (seen (trail w) s) as [|a l] eqn:E; [destruct I|]. cbn. pose proof (B a (or_introl eq_refl)). destruct (Nat.eqb_spec a i); lia.
  Qed.
  Lemma can_be_simplified_spec w : over w -> (can_be_simplified c w = true <-> changed w).
  Proof.
    intros Ov. unfold can_be_simplified. destruct w as [|x w]; [split; [discriminate|intros [? [? [[] _]]]]|].
    destruct (can_have_aliases c) eqn:E.
    - apply (shifts_changed outcomes srcs nt L MK); assumption.
    - split; [discriminate|]. intros Ch. apply aliases_changed in Ch; [congruence|assumption].
  Qed.
  Lemma canonical_moment_spec w : normal w ->
    exists r k, (forall fuel scratch, k <= fuel -> length scratch = total -> canonical_moment c fuel scratch w = Ret (Some r)) /\
      normal r /\ ~ changed r /\ (exists sigma, lawful sigma /\ Permutation r (map (move sigma) w)) /\
      ((r = w /\ ~ changed w) \/ (lex_less r w /\ changed w)).
  Proof.
    intros N. destruct (moment_exists (S (rank w)) w N (Nat.lt_succ_diag_r _)) as [r [A [B [D [E F]]]]].
    exists r, (S (rank w)). split; [|auto]. intros fuel scr Le Ls. unfold canonical_moment. destruct (can_have_aliases c) eqn:Al; [now apply A|].
    destruct F as [[-> _]|[_ F]]; [reflexivity|]. apply aliases_changed in F; [congruence|apply N].
  Qed.

  (** ** Uniqueness *)
  Lemma scratch_free : forall fuel w s1 s2, normal w -> length s1 = total -> length s2 = total -> as_moment c fuel s1 w = as_moment c fuel s2 w.
  Proof.
    induction fuel as [|fuel IH]; intros w s1 s2 N L1 L2; [reflexivity|]. pose proof N as [Ov _].
    destruct (list_eq_dec Nat.eq_dec w []) as [->|NE]; [reflexivity|]. rewrite !as_moment_step by assumption.
    assert (fst (find_permutation c s1 w) = fst (find_permutation c s2 w)) as ->.
    { apply eq_true_iff_eq. now rewrite !(flag_changed outcomes srcs nt L MK). }
    destruct (fst (find_permutation c s2 w)); [|reflexivity]. destruct (is_sorted _); [reflexivity|].
    destruct (moved_simplify (sig w) w (sig_lawful w Ov) N) as [-> Ns]. apply IH; [assumption|now apply (scratch_kept outcomes srcs nt L MK)..].
  Qed.
  Lemma moved_same sigma w : lawful sigma -> over w -> map (move (sig (map (move sigma) w))) (map (move sigma) w) = map (move (sig w)) w.
  Proof.
    intros Lw Ov. rewrite map_map. apply map_ext_in. intros x X. pose proof (moved_over sigma w Lw Ov) as Ou.
    assert (Xs : x < size) by auto. unfold InfMomentProofs.move at 1. rewrite (proj2 (move_label outcomes srcs nt L MK sigma x Lw Xs)).
    unfold InfMomentProofs.move at 2. f_equal. rewrite relabel_compose. unfold relabel. f_equal.
    apply map_ext_in. intros [s i] H. cbn [fst snd].
    assert (Hv : In (s, i) (trail w)).
    { apply in_flat_map. exists x. split; [assumption|]. apply visits_in. assert (NE : sources srcs (lb_obs (lab x)) <> []) by (intros Z; rewrite Z in H; destruct H).
      split; [assumption|]. now rewrite causes_combine. }
    assert (Inj : forall i j, In (s, i) (trail w) -> In (s, j) (trail w) -> sigma s i = sigma s j -> i = j).
    { intros a b A B E. destruct (trail_tame outcomes srcs nt L MK w Ov s a A) as [Sn La]. destruct (trail_tame outcomes srcs nt L MK w Ov s b B) as [_ Lb].
      now apply (Lw s Sn). }
    unfold InfMomentProofs.sig. rewrite (naming_seen L (trail w)) by assumption.
    rewrite naming_seen.
    - rewrite (move_trail outcomes srcs nt L MK) by assumption. rewrite (seen_map (trail w) s sigma Inj).
      apply index_map; [|now apply seen_in]. intros y z Y Z. apply Inj; now apply seen_in.
    - rewrite (move_trail outcomes srcs nt L MK) by assumption. apply in_map_iff. exists (s, i). split; [reflexivity|assumption].
  Qed.
  Lemma moment_same sigma w : lawful sigma -> normal w -> sorted (map (move sigma) w) -> forall fuel scratch, length scratch = total ->
    as_moment c fuel scratch (map (move sigma) w) = as_moment c fuel scratch w.
  Proof.
    intros Lw N Su [|fuel] scr Ls; [reflexivity|]. pose proof N as [Ov [Sw _]]. set (u := map (move sigma) w) in *.
    destruct (moved_simplify sigma w Lw N) as [_ Nu]. fold u in Nu. rewrite (sort_id u Su) in Nu. pose proof Nu as [Ou _].
    destruct (list_eq_dec Nat.eq_dec w []) as [->|NE]; [reflexivity|]. assert (NEu : u <> []) by (unfold u; destruct w; [congruence|discriminate]).
    rewrite !as_moment_step by assumption. pose proof (moved_same sigma w Lw Ov) as E. fold u in E. rewrite E.
    set (w' := map (move (sig w)) w) in *.
    assert (Un : forall v, over v -> ~ changed v -> map (move (sig v)) v = v).
    { intros v Ovv Nc. rewrite <- (map_id v) at 3. apply map_ext_in. intros x X. now apply (unchanged_fixed outcomes srcs nt L MK). }
    destruct (fst (find_permutation c scr u)) eqn:Fu, (fst (find_permutation c scr w)) eqn:Fw.
    - destruct (is_sorted w'); [reflexivity|]. destruct (simplify c w') as [s|] eqn:Sm; [|reflexivity].
      apply scratch_free; [|now apply (scratch_kept outcomes srcs nt L MK)..].
      apply (simplify_normal outcomes srcs nt L MK w'); [|assumption]. apply moved_over; [now apply sig_lawful|assumption].
    - assert (Nc : ~ changed w) by (intros H; apply (flag_changed outcomes srcs nt L MK w scr Ov Ls) in H; congruence).
      unfold w'. rewrite (Un w Ov Nc). assert (is_sorted w = true) as -> by (now apply is_sorted_spec). now rewrite (normal_simplify outcomes srcs nt L MK).
    - assert (Nc : ~ changed u) by (intros H; apply (flag_changed outcomes srcs nt L MK u scr Ou Ls) in H; congruence).
      rewrite <- E, (Un u Ou Nc). assert (is_sorted u = true) as -> by (now apply is_sorted_spec). now rewrite (normal_simplify outcomes srcs nt L MK).
    - assert (Nc : ~ changed w) by (intros H; apply (flag_changed outcomes srcs nt L MK w scr Ov Ls) in H; congruence).
      assert (Nc2 : ~ changed u) by (intros H; apply (flag_changed outcomes srcs nt L MK u scr Ou Ls) in H; congruence).
      rewrite <- (Un u Ou Nc2), E. unfold w'. now rewrite (Un w Ov Nc).
  Qed.
  Lemma distinct_sorted sigma w : lawful sigma -> over w -> sorted w -> NoDup (map (fun x => lb_obs (lab x)) w) -> sorted (map (move sigma) w).
  Proof.
    intros Lw. induction w as [|x w IH]; intros Ov Sw ND; [constructor|]. inversion Sw as [|? ? S1 F]; subst. rewrite Forall_forall in F.
    cbn [map] in ND. apply NoDup_cons_iff in ND. destruct ND as [Nx ND].
    cbn [map]. constructor; [apply IH; [intros z Z; apply Ov; now right|assumption..]|]. apply Forall_forall. intros y Y.
    apply in_map_iff in Y. destruct Y as [z [<- Z]]. specialize (F z Z). assert (X : x < size) by (apply Ov; now left). assert (Zs : z < size) by (apply Ov; now right).
    assert (No : lb_obs (lab x) <> lb_obs (lab z)). { intros E. apply Nx. rewrite E. apply (in_map (fun x => lb_obs (lab x))). exact Z. }
    assert (Lt : x < z). { destruct (Nat.eq_dec x z) as [->|]; [congruence|lia]. }
    assert (Bf : lb_obs (lab x) < lb_obs (lab z)).
    { rewrite <- (number_label outcomes srcs nt L MK x X), <- (number_label outcomes srcs nt L MK z Zs) in Lt.
      apply (number_order outcomes srcs nt L MK) in Lt; [|now apply (label_exists outcomes srcs nt L MK)..]. destruct Lt as [H|[H _]]; [assumption|contradiction]. }
    apply Nat.lt_le_incl. unfold InfMomentProofs.move.
    apply (number_order outcomes srcs nt L MK); [apply (relabel_exists outcomes srcs L); [assumption|now apply (label_exists outcomes srcs nt L MK)]..|].
    left. exact Bf.
  Qed.
End Top.
