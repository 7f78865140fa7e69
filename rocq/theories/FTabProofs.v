(** Factor tables: symbols and entries. *)
From Coq Require Import List ZArith Arith Bool Sorted Permutation Lia.
From Verif Require Import CoreModel FieldModel AlgModel InfModel InfSpec InfProofs InfLayoutProofs InfSimpProofs InfFactorProofs InfExpectProofs InfTopProofs InfFinalProofs.
From Verif Require Import TreeModel TreeSpec TreeProofs FTabModel FTabSpec FTabListProofs.
Import ListNotations.

Lemma fbind_ok {A B} (x : fout A) (f : A -> fout B) b : fbind x f = FOk b -> exists a, x = FOk a /\ f a = FOk b.
Proof. destruct x; cbn; try discriminate. eauto. Qed.
Lemma key_inj a b : key a = key b -> a = b.
Proof. revert b. induction a as [|x a IH]; intros [|y b] E; try discriminate; [reflexivity|]. cbn in E. injection E as E1 E2. f_equal; [lia|auto]. Qed.
Lemma seq_eqb_spec a b : reflect (a = b) (seq_eqb a b).
Proof.
  destruct a as [a|], b as [b|]; cbn; try (constructor; congruence). destruct (list_eq_dec Nat.eq_dec a b); constructor; congruence.
Qed.
Lemma find_seq_some q l k : find_seq q l = Some k -> nth_error l k = Some (Some q).
Proof.
  revert k. induction l as [|x l IH]; intros k; cbn; [discriminate|]. destruct x as [q'|].
  - destruct (seq_eqb_spec q' q) as [->|N]; [intros E; injection E as <-; reflexivity|].
    destruct (find_seq q l) as [j|]; [|discriminate]. intros E; injection E as <-. cbn. auto.
  - destruct (find_seq q l) as [j|]; [|discriminate]. intros E; injection E as <-. cbn. auto.
Qed.
Lemma find_seq_none q l : find_seq q l = None -> forall k, nth_error l k <> Some (Some q).
Proof.
  induction l as [|x l IH]; cbn; [intros _ [|k]; discriminate|]. intros E [|k].
  - cbn. intros E'. injection E' as ->. destruct (seq_eqb_spec q q); [discriminate|congruence].
  - cbn. apply IH. destruct (match x with Some q' => seq_eqb q' q | None => false end); [discriminate|]. now destruct (find_seq q l).
Qed.

Section Table.
  Variables (outcomes : list nat) (srcs : list (list nat)) (nt : network) (L : nat).
  Hypothesis MK : make_network outcomes srcs = Some nt.
  Notation c := (inflate nt L).
  Notation lab := (label_of c).
  Notation moment_of := (moment_of nt L).
  Notation unfactorable := (unfactorable srcs nt L).
  Notation factors_of := (factors_of nt L).
  Notation sound_entries := (sound_entries srcs nt L).
  Notation sound_table := (sound_table srcs nt L).

  (** * Canonical moments *)
  Notation settles := (settles nt L).
  Lemma settles_ok {A} (f : nat -> list nat -> fout A) x fuel scratch y : settles f x -> length scratch = total_sources nt L -> f fuel scratch = FOk y -> y = x.
  Proof. intros [_ H] Ls E. destruct (H fuel scratch Ls) as [K|K]; congruence. Qed.
  Lemma settles_ret {A} (x : A) : settles (fun _ _ => FOk x) x.
  Proof. split; [exists 0; auto|auto]. Qed.
  Lemma settles_bind {A B} (f : nat -> list nat -> fout A) (g : nat -> list nat -> A -> fout B) x y :
    settles f x -> settles (fun fuel scratch => g fuel scratch x) y -> settles (fun fuel scratch => fbind (f fuel scratch) (g fuel scratch)) y.
  Proof.
    intros [[k1 H1] D1] [[k2 H2] D2]. split.
    - exists (k1 + k2). intros fuel scratch Le Ls. rewrite H1 by (auto; lia). cbn. apply H2; auto; lia.
    - intros fuel scratch Ls. destruct (D1 fuel scratch Ls) as [E|E]; rewrite E; cbn; auto.
  Qed.
  Lemma moment_mono : forall f w scr, as_moment c f scr w <> NoFuel -> forall g, f <= g -> as_moment c g scr w = as_moment c f scr w.
  Proof.
    clear. induction f as [|f IH]; intros w scr Nf g Le; [cbn in Nf; congruence|]. destruct g as [|g]; [lia|]. cbn [as_moment] in *.
    destruct w as [|x w]; [reflexivity|]. destruct (find_permutation c scr (x :: w)) as [b p]. destruct b; [|reflexivity].
    destruct (is_sorted _); [reflexivity|]. destruct (simplify c _) as [s|]; [|reflexivity]. apply IH; [assumption|lia].
  Qed.
  Lemma moment_no_err : forall f w scr, as_moment c f scr w <> Err.
  Proof.
    clear. induction f as [|f IH]; intros w scr; cbn [as_moment]; [discriminate|]. destruct w as [|x w]; [discriminate|].
    destruct (find_permutation c scr (x :: w)) as [b p]. destruct b; [|discriminate]. destruct (is_sorted _); [discriminate|].
    destruct (simplify c _) as [s|]; [apply IH|discriminate].
  Qed.
  Lemma moment_det w r fuel scratch : moment_of w r -> length scratch = total_sources nt L ->
    canonical_moment c fuel scratch w = Ret (Some r) \/ canonical_moment c fuel scratch w = NoFuel.
  Proof.
    intros [k A] Ls. pose proof (A (fuel + k) scratch ltac:(lia) Ls) as E. unfold canonical_moment in *. destruct (can_have_aliases c); [|now left].
    destruct (as_moment c fuel scratch w) as [x| |] eqn:F; [|now apply moment_no_err in F|now right].
    left. rewrite (moment_mono fuel w scratch) in E by (congruence || lia). congruence.
  Qed.
  Lemma moment_same w r r' : moment_of w r -> moment_of w r' -> r = r'.
  Proof. intros [k A] [k' A']. specialize (A (k + k') (repeat 0 (total_sources nt L)) ltac:(lia) (repeat_length _ _)). rewrite A' in A by (apply repeat_length || lia). congruence. Qed.
  Lemma moment_exists w : simplified c w -> exists r, moment_of w r /\ simplified c r /\ alike srcs c L r w /\ can_be_simplified c r = false /\ (can_be_simplified c w = false -> r = w).
  Proof.
    intros N. destruct (f_moment outcomes srcs nt L MK w N) as [r [k [A [B [D [_ [E F]]]]]]]. exists r. split; [now exists k|]. repeat (split; [assumption|]).
    intros H. destruct (list_eq_dec Nat.eq_dec r w) as [|Ne]; [assumption|]. apply E in Ne. congruence.
  Qed.
  Lemma canonical_settles w r : moment_of w r -> settles (fun fuel scratch => canonical_seq c fuel scratch (Some w)) (Some r).
  Proof.
    intros H. split.
    - destruct H as [k A]. exists k. intros fuel scratch Le Ls. cbn. now rewrite A.
    - intros fuel scratch Ls. cbn. destruct (moment_det w r fuel scratch H Ls) as [->| ->]; auto.
  Qed.
  Lemma moment_nil : moment_of [] [].
  Proof. exists 1. intros [|fuel] scratch Le _; [lia|]. unfold canonical_moment. destruct (can_have_aliases c); reflexivity. Qed.
  Lemma nil_simplified : simplified c [].
  Proof. split; [intros x []|reflexivity]. Qed.

  (** * Connected words *)
  Lemma lab_exists x : x < length (ic_ops c) -> exists_label outcomes srcs L (lab x).
  Proof. intros H. now apply (label_exists outcomes srcs nt L MK). Qed.
  Lemma share_self l : exists_label outcomes srcs L l -> share srcs l l.
  Proof.
    intros [_ [Ln _]]. unfold share, causes. destruct (sources srcs (lb_obs l)) as [|s ss]; [eexists; split; now left|].
    destruct (lb_copies l) as [|i cs]; [discriminate|]. cbn [List.combine]. eexists; split; now left.
  Qed.
  Lemma connected_alike u w : word_exists c u -> word_exists c w -> alike srcs c L u w -> connected srcs (map lab w) -> connected srcs (map lab u).
  Proof.
    intros Ou Ow [sigma [Lw P]] Cn. set (f := relabel srcs sigma).
    assert (Sh : forall x y, In x (map lab w) -> In y (map lab w) -> share srcs x y -> share srcs (f x) (f y)).
    { intros x y Ix Iy [h [A B]]. apply in_map_iff in Ix. destruct Ix as [x0 [<- Ix]]. apply in_map_iff in Iy. destruct Iy as [y0 [<- Iy]].
      exists (InfExpectProofs.rename srcs L sigma h). unfold f.
      rewrite !(relabel_causes outcomes srcs L sigma) by (apply lab_exists; auto). split; now apply in_map. }
    assert (Lk : forall x y, linked srcs (map lab w) x y -> linked srcs (map lab u) (f x) (f y)).
    { induction 1 as [x I|x y z I S1 K IH].
      - apply linked_refl. apply (Permutation_in _ (Permutation_sym P)). now apply in_map.
      - apply (linked_step srcs _ (f x) (f y) (f z)); [|apply Sh; [exact I|apply (linked_in _ _ _ _ K)|exact S1]|exact IH].
        apply (Permutation_in _ (Permutation_sym P)). now apply in_map. }
    intros x y Ix Iy. apply (Permutation_in _ P) in Ix. apply (Permutation_in _ P) in Iy. apply in_map_iff in Ix. destruct Ix as [x' [<- Ix]].
    apply in_map_iff in Iy. destruct Iy as [y' [<- Iy]]. apply Lk. now apply Cn.
  Qed.
  Lemma connected_factor w : simplified c w -> connected srcs (map lab w) -> factorize c w = [Some w].
  Proof.
    intros N Cn. destruct (list_eq_dec Nat.eq_dec w []) as [->|NE]; [reflexivity|].
    destruct (f_factors outcomes srcs nt L MK w N NE) as [fs [A [B [D F]]]].
    assert (Ov : forall f x, In f fs -> In x f -> In x w).
    { intros f x If Ix. apply (Permutation_in _ B). apply in_concat. eauto. }
    destruct fs as [|f [|g fs]].
    - cbn in B. apply Permutation_nil in B. contradiction.
    - cbn in B. rewrite app_nil_r in B. rewrite A. cbn. do 2 f_equal.
      destruct (D f (or_introl eq_refl)) as [_ [Nf _]].
      apply (simplified_normal outcomes srcs nt L MK) in Nf. apply (simplified_normal outcomes srcs nt L MK) in N.
      apply InfSimpProofs.sorted_unique; [apply Nf|apply N|exact B].
    - exfalso. inversion F as [|f0 l0 F1 F2]; subst.
      destruct (D f (or_introl eq_refl)) as [Nf _]. destruct f as [|x f]; [congruence|].
      destruct (D g (or_intror (or_introl eq_refl))) as [Ng _]. destruct g as [|y g]; [congruence|].
      assert (K : linked srcs (map lab w) (lab x) (lab y)).
      { apply Cn; apply in_map; eapply Ov; [now left|now left|right; now left|now left]. }
      assert (G : forall p q, linked srcs (map lab w) p q -> In p (map lab (x :: f)) -> In q (map lab (x :: f))).
      { induction 1 as [p I|p q r I S1 K' IH]; [auto|]. intros Ip. apply IH. pose proof (proj1 (linked_in _ _ _ _ K')) as Iq.
        apply in_map_iff in Iq. destruct Iq as [q0 [<- Iq]]. apply (Permutation_in _ (Permutation_sym B)) in Iq. apply in_concat in Iq.
        destruct Iq as [h [[<-|Ih] Iq]]; [now apply in_map|]. exfalso. apply in_map_iff in Ip. destruct Ip as [p0 [<- Ip]].
        rewrite Forall_forall in F1. now apply (F1 h Ih p0 q0). }
      apply G in K; [|now left]. apply in_map_iff in K. destruct K as [x0 [E Ix]].
      rewrite Forall_forall in F1. apply (F1 (y :: g) (or_introl eq_refl) x0 y Ix (or_introl eq_refl)). rewrite E. apply share_self. apply lab_exists.
      apply N. eapply Ov; [right; now left|now left].
  Qed.

  (** * The list of symbols *)
  Record sound_syms (l : list (option (option word))) : Prop := mk_sound_syms {
    sy0 : nth_error l 0 = Some (Some None);
    sy1 : nth_error l 1 = Some (Some (Some []));
    sy_once : forall i j q, nth_error l i = Some (Some q) -> nth_error l j = Some (Some q) -> i = j;
    sy_words : forall k w, nth_error l k = Some (Some (Some w)) -> simplified c w /\ can_be_simplified c w = false }.
  Lemma nth_app_old {A} (l m : list A) k x : nth_error l k = Some x -> nth_error (l ++ m) k = Some x.
  Proof. intros H. rewrite nth_error_app1; [exact H|]. apply nth_error_Some. congruence. Qed.
  Lemma nth_app_one {A} (l : list A) k x y : nth_error (l ++ [x]) k = Some y -> nth_error l k = Some y \/ (k = length l /\ y = x).
  Proof.
    intros H. destruct (Nat.lt_ge_cases k (length l)) as [K|K]; [left; now rewrite nth_error_app1 in H|]. right.
    rewrite nth_error_app2 in H by assumption. destruct (k - length l) as [|d] eqn:E; [cbn in H; injection H as ->; split; [lia|reflexivity]|].
    destruct d; discriminate H.
  Qed.
  Lemma sound_syms_add l w : sound_syms l -> simplified c w -> can_be_simplified c w = false -> (forall k, nth_error l k <> Some (Some (Some w))) -> sound_syms (l ++ [Some (Some w)]).
  Proof.
    intros [A B C D] N Cb Nw. split; [now apply nth_app_old|now apply nth_app_old| |].
    - intros i j q Hi Hj. apply nth_app_one in Hi. apply nth_app_one in Hj. destruct Hi as [Hi|[-> Ei]], Hj as [Hj|[-> Ej]].
      + eauto.
      + injection Ej as ->. exfalso. now apply (Nw i).
      + injection Ei as ->. exfalso. now apply (Nw j).
      + reflexivity.
    - intros k v H. apply nth_app_one in H. destruct H as [H|[-> E]]; [eauto|]. injection E as ->. auto.
  Qed.
  Lemma sound_syms_none l n : sound_syms l -> sound_syms (l ++ repeat None n).
  Proof.
    intros [A B C D].
    assert (H : forall k q, nth_error (l ++ repeat None n) k = Some (Some q) -> nth_error l k = Some (Some q)).
    { intros k q H. destruct (Nat.lt_ge_cases k (length l)) as [K|K]; [now rewrite nth_error_app1 in H|].
      rewrite nth_error_app2 in H by assumption. apply nth_error_In in H. apply repeat_spec in H. discriminate. }
    split; [now apply nth_app_old|now apply nth_app_old| |].
    - intros i j q Hi Hj. apply H in Hi. apply H in Hj. eauto.
    - intros k w K. apply H in K. eauto.
  Qed.

  (** * The factors of a sequence *)
  (** raw factors and their canonical forms *)
  Definition moment_seq (q q' : option word) : Prop :=
    match q, q' with None, None => True | Some f, Some r => moment_of f r | _, _ => False end.
  Definition raw_ok (q : option word) : Prop := match q with None => True | Some f => simplified c f /\ connected srcs (map lab f) end.
  Lemma raw_canonical q : raw_ok q -> exists q', settles (fun fuel scratch => canonical_seq c fuel scratch q) q' /\ moment_seq q q' /\ unfactorable q' /\
    match q' with None => q = None | Some r => simplified c r /\ can_be_simplified c r = false end.
  Proof.
    destruct q as [f|]; cbn; intros H.
    - destruct H as [N Cn]. destruct (moment_exists f N) as [r [A [B [D [E _]]]]]. exists (Some r). split; [now apply canonical_settles|]. split; [exact A|].
      split; [|auto]. cbn. apply (connected_alike r f); [apply B|apply N|assumption|assumption].
    - exists None. split; [apply settles_ret|]. cbn. auto.
  Qed.
  Lemma factor_symbols_spec raw : Forall raw_ok raw -> forall syms, sound_syms syms ->
    exists more qs ks,
      settles (fun fuel scratch => factor_symbols c fuel scratch syms raw) (syms ++ map (fun w => Some (Some w)) more, qs, ks) /\
      sound_syms (syms ++ map (fun w => Some (Some w)) more) /\
      Forall2 moment_seq raw qs /\
      Forall2 (fun k q => nth_error (syms ++ map (fun w => Some (Some w)) more) k = Some (Some q) /\ unfactorable q) ks qs /\
      (forall w, In w more -> unfactorable (Some w)).
  Proof.
    induction 1 as [|q raw Hq Hr IH]; intros syms S0.
    - exists [], [], []. cbn. rewrite app_nil_r. split; [apply settles_ret|]. split; [exact S0|]. split; [constructor|]. split; [constructor|]. intros w [].
    - destruct (raw_canonical q Hq) as [q' [A [B [D E]]]].
      destruct (find_seq q' syms) as [k|] eqn:F.
      + destruct (IH syms S0) as [more [qs [ks [P1 [P2 [P3 [P4 P5]]]]]]]. exists more, (q' :: qs), (k :: ks).
        split; [|split; [exact P2|split; [now constructor|split; [|exact P5]]]].
        * cbn. eapply settles_bind; [exact A|]. rewrite F. eapply settles_bind; [exact P1|]. apply settles_ret.
        * constructor; [|exact P4]. split; [|exact D]. apply nth_app_old. now apply find_seq_some.
      + destruct q' as [r|].
        2:{ exfalso. apply (find_seq_none _ _ F 0). apply S0. }
        destruct E as [E1 E2].
        assert (S1 : sound_syms (syms ++ [Some (Some r)])) by (apply sound_syms_add; auto; now apply find_seq_none).
        destruct (IH _ S1) as [more [qs [ks [P1 [P2 [P3 [P4 P5]]]]]]]. exists (r :: more), (Some r :: qs), (length syms :: ks).
        replace (syms ++ map (fun w => Some (Some w)) (r :: more)) with ((syms ++ [Some (Some r)]) ++ map (fun w => Some (Some w)) more) by (rewrite <- app_assoc; reflexivity).
        split; [|split; [exact P2|split; [now constructor|split]]].
        * cbn. eapply settles_bind; [exact A|]. rewrite F. eapply settles_bind; [exact P1|]. apply settles_ret.
        * constructor; [|exact P4]. split; [|exact D]. apply nth_app_old. rewrite nth_error_app2 by lia. now rewrite Nat.sub_diag.
        * intros w [<-|I]; [exact D|now apply P5].
  Qed.
  Lemma factorize_raw q : match q with None => True | Some w => simplified c w end -> Forall raw_ok (factorize_seq c q) /\
    match q with None => factorize_seq c q = [None] | Some w => exists fs, factorize_seq c q = map Some fs end.
  Proof.
    destruct q as [w|]; cbn; intros N.
    2:{ split; [repeat constructor|reflexivity]. }
    destruct (list_eq_dec Nat.eq_dec w []) as [->|NE].
    - split; [constructor; [|constructor]|now exists [[]]]. split; [exact N|]. intros x y [].
    - destruct (f_factors outcomes srcs nt L MK w N NE) as [fs [A [_ [D _]]]]. rewrite A. split; [|eauto].
      apply Forall_forall. intros q I. apply in_map_iff in I. destruct I as [f [<- I]]. cbn. apply D in I. tauto.
  Qed.
  Lemma moment_seqs_factors q qs : match q with None => True | Some w => simplified c w end -> Forall2 moment_seq (factorize_seq c q) qs -> factors_of q qs.
  Proof.
    intros N H. destruct (factorize_raw q N) as [_ K]. destruct q as [w|]; cbn in *.
    - destruct K as [fs K]. rewrite K in H.
      assert (exists rs, qs = map Some rs /\ Forall2 moment_of fs rs) as [rs [-> G]].
      { clear K. revert qs H. induction fs as [|f fs IH]; intros qs H; inversion H as [|a b l l' Ha Hl]; subst; [exists []; split; [reflexivity|constructor]|].
        destruct (IH l' Hl) as [rs [-> G]]. destruct b as [r|]; [|destruct Ha]. exists (r :: rs). split; [reflexivity|now constructor]. }
      now exists fs, rs.
    - inversion H as [|a b l l' Ha Hl]; subst. inversion Hl. subst. destruct b; [destruct Ha|reflexivity].
  Qed.
End Table.
