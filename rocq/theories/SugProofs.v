(** Proofs about suggested extensions. *)
From Coq Require Import List Arith Bool Sorted Permutation Lia.
From Verif Require Import CoreModel AlgModel InfModel InfSpec TreeModel FTabModel FTabSpec FTabListProofs FTabProofs FTabTableProofs FTabProductProofs FTabWitnessProofs SugModel SugSpec.
Import ListNotations.

Lemma among_spec x l : among x l = true <-> In x l.
Proof. unfold among. rewrite existsb_exists. split; [intros [y [I E]]; apply Nat.eqb_eq in E; now subst|intros I; exists x; now rewrite Nat.eqb_refl]. Qed.
Lemma among_false x l : among x l = false <-> ~ In x l.
Proof. rewrite <- among_spec. destruct (among x l); split; congruence. Qed.
Lemma nsort_perm l : Permutation (nsort l) l.
Proof.
  induction l as [|x l IH]; [constructor|]. cbn. assert (H : forall y m, Permutation (ninsert y m) (y :: m)).
  { intros y. induction m as [|z m IHm]; [constructor; constructor|]. cbn. destruct (y <=? z); [reflexivity|]. rewrite IHm. apply perm_swap. }
  rewrite H. now constructor.
Qed.

(** * The loop without the table: [hit x s] tells whether extending by [x] gives [s]; [fac s] are the factors of [s] *)
Section Pure.
  Variables (hit : nat -> nat -> bool) (fac : nat -> list nat).
  Fixpoint ptest (necessary tested : list nat) : option nat :=
    match necessary with [] => None | s :: r => match first_untested tested (fac s) with Some k => Some k | None => ptest r tested end end.
  Fixpoint ploop (n : nat) (necessary tested chosen : list nat) : list nat :=
    match n, necessary with
    | 0, _ | _, [] => chosen
    | S n', _ =>
        match ptest necessary tested with
        | None => chosen
        | Some x => ploop n' (filter (fun s => negb (hit x s)) necessary) (x :: tested) (if existsb (hit x) necessary then x :: chosen else chosen)
        end
    end.
  Lemma untested_some tested ks k : first_untested tested ks = Some k -> In k ks /\ ~ In k tested.
  Proof. unfold first_untested. intros H. apply find_some in H. destruct H as [H1 H2]. split; [exact H1|]. apply negb_true_iff, among_false in H2. exact H2. Qed.
  Lemma untested_none tested ks : first_untested tested ks = None -> forall k, In k ks -> In k tested.
  Proof. unfold first_untested. intros H k I. apply (find_none _ _ H) in I. apply negb_false_iff, among_spec in I. exact I. Qed.
  Lemma ptest_some nec tested x : ptest nec tested = Some x -> ~ In x tested /\ exists s, In s nec /\ In x (fac s).
  Proof.
    induction nec as [|s r IH]; cbn; [discriminate|]. destruct (first_untested tested (fac s)) as [k|] eqn:E.
    - intros H. injection H as ->. apply untested_some in E. split; [tauto|]. exists s. tauto.
    - intros H. destruct (IH H) as [A [s' [B C]]]. split; [exact A|]. exists s'. auto.
  Qed.
  Lemma ptest_none nec tested : ptest nec tested = None -> forall s x, In s nec -> In x (fac s) -> In x tested.
  Proof.
    induction nec as [|s r IH]; cbn; [intros _ s x []|]. destruct (first_untested tested (fac s)) as [k|] eqn:E; [discriminate|].
    intros H s' x [<-|I] J; [now apply (untested_none _ _ E)|now apply (IH H s')].
  Qed.
  Variable nec0 : list nat.
  Record inv (n : nat) (necessary tested chosen : list nat) : Prop := {
    iv_sub : forall s, In s necessary -> In s nec0;
    iv_done : forall s, In s nec0 -> ~ In s necessary -> exists x, In x chosen /\ hit x s = true;
    iv_left : forall s x, In s necessary -> In x tested -> hit x s = false;
    iv_cand : forall x, In x tested -> exists s, In s nec0 /\ In x (fac s);
    iv_once : NoDup tested;
    iv_count : n + length tested = max_extensions;
    iv_chosen : forall x, In x chosen -> In x tested;
    iv_chosen_once : NoDup chosen;
    iv_use : exists ss, Forall2 (fun x s => hit x s = true) chosen ss /\ NoDup ss /\ forall s, In s ss -> In s nec0 /\ ~ In s necessary }.
  Record final (necessary tested chosen : list nat) : Prop := {
    fn_inv : exists n, inv n necessary tested chosen;
    fn_end : length tested = max_extensions \/ forall s x, In s necessary -> In x (fac s) -> In x tested }.
  Lemma ploop_final : forall n nec tested chosen, inv n nec tested chosen -> exists nec' tested', final nec' tested' (ploop n nec tested chosen).
  Proof.
    induction n as [|n IH]; intros nec tested chosen V.
    - exists nec, tested. cbn. split; [now exists 0|]. left. pose proof (iv_count _ _ _ _ V). lia.
    - cbn [ploop]. destruct nec as [|s0 r]; [exists [], tested; split; [now exists (S n)|right; intros s x []]|].
      destruct (ptest (s0 :: r) tested) as [x|] eqn:E; [|exists (s0 :: r), tested; split; [now exists (S n)|right; apply (ptest_none _ _ E)]].
      apply IH. clear IH. destruct (ptest_some _ _ _ E) as [N [sx [Ix Fx]]]. clear E. set (nec := s0 :: r) in *. destruct V as [v1 v2 v3 v4 v5 v6 v7 v8 [ss [u1 [u2 u3]]]].
      assert (Fl : forall s, In s (filter (fun s => negb (hit x s)) nec) <-> In s nec /\ hit x s = false) by (intros s; rewrite filter_In, negb_true_iff; tauto).
      assert (Ch : forall s, In s chosen \/ ~ existsb (hit x) nec = true \/ existsb (hit x) nec = true) by (intros s; destruct (existsb (hit x) nec); auto).
      constructor.
      + intros s I. apply Fl in I. now apply v1.
      + intros s I J. destruct (in_dec Nat.eq_dec s nec) as [K|K].
        * destruct (hit x s) eqn:H; [|exfalso; apply J, Fl; auto]. assert (existsb (hit x) nec = true) as -> by (apply existsb_exists; eauto). exists x. split; [now left|exact H].
        * destruct (v2 s I K) as [y [Y1 Y2]]. exists y. split; [|exact Y2]. destruct (existsb (hit x) nec); [now right|exact Y1].
      + intros s y I [<-|J]; apply Fl in I; [tauto|]. now apply v3.
      + intros y [<-|J]; [exists sx; auto|now apply v4].
      + now constructor.
      + cbn [length]. lia.
      + intros y J. destruct (existsb (hit x) nec); [destruct J as [<-|J]; [now left|]|]; right; now apply v7.
      + destruct (existsb (hit x) nec); [|exact v8]. constructor; [|exact v8]. intros J. now apply v7 in J.
      + destruct (existsb (hit x) nec) eqn:Hx.
        * apply existsb_exists in Hx. destruct Hx as [s [I H]]. exists (s :: ss). split; [now constructor|]. split; [constructor; [|exact u2]; intros J; now apply u3 in J|].
          intros s' [<-|J]; [split; [now apply v1|]; rewrite Fl; intros [_ Z]; congruence|]. apply u3 in J. destruct J as [J1 J2]. split; [exact J1|]. rewrite Fl. tauto.
        * exists ss. split; [exact u1|]. split; [exact u2|]. intros s J. apply u3 in J. destruct J as [J1 J2]. split; [exact J1|]. rewrite Fl. tauto.
  Qed.
  Lemma inv_start : inv max_extensions nec0 [] [].
  Proof.
    constructor.
    - auto.
    - intros s I J. contradiction.
    - intros s x _ [].
    - intros x [].
    - constructor.
    - cbn [length]. lia.
    - intros x [].
    - constructor.
    - exists []. split; [constructor|]. split; [constructor|]. intros s [].
  Qed.
  Lemma ploop_spec : let chosen := ploop max_extensions nec0 [] [] in
    NoDup chosen /\ length chosen <= max_extensions /\ (forall x, In x chosen -> exists s, In s nec0 /\ In x (fac s)) /\
    (exists ss, Forall2 (fun x s => hit x s = true) chosen ss /\ NoDup ss /\ forall s, In s ss -> In s nec0) /\
    (forall cs, (forall s x, In s nec0 -> In x (fac s) -> In x cs) -> length cs <= max_extensions ->
      forall s x, In s nec0 -> In x (fac s) -> hit x s = true -> exists y, In y chosen /\ hit y s = true).
  Proof.
    cbn zeta. destruct (ploop_final _ _ _ _ inv_start) as [nec [tested [[n V] En]]]. set (chosen := ploop max_extensions nec0 [] []) in *. clearbody chosen.
    destruct V as [v1 v2 v3 v4 v5 v6 v7 v8 [ss [u1 [u2 u3]]]]. split; [exact v8|]. split; [pose proof (NoDup_incl_length v8 v7); lia|]. split; [auto|].
    split; [exists ss; repeat split; auto; intros s J; now apply u3|].
    intros cs Hc Lc s x I J H. destruct (in_dec Nat.eq_dec s nec) as [K|K]; [|now apply v2]. exfalso.
    destruct (in_dec Nat.eq_dec x tested) as [T|T]; [rewrite (v3 s x K T) in H; discriminate|].
    destruct En as [En|En]; [|apply T; now apply (En s)].
    assert (NoDup (x :: tested)) as Nd by (now constructor).
    assert (incl (x :: tested) cs) as Ic by (intros y [<-|Y]; [now apply (Hc s)|destruct (v4 y Y) as [s' [A B]]; now apply (Hc s')]).
    pose proof (NoDup_incl_length Nd Ic) as Z. cbn [length] in Z. lia.
  Qed.
End Pure.

(** * The table *)
Section Table.
  Variables (outcomes : list nat) (srcs : list (list nat)) (nt : network) (L : nat).
  Hypothesis MK : make_network outcomes srcs = Some nt.
  Notation c := (inflate nt L).
  Notation settles := (settles nt L).
  Variable t : ftab.
  Hypothesis St : sound_table srcs nt L t.
  Notation word_factors := (word_factors nt L t).
  Definition fac (s : nat) : list nat := match nth_error (ft_entries t) s with Some e => fe_syms e | None => [] end.
  Lemma fac_spec s l : factors t s l <-> (s < length (ft_entries t) /\ fac s = l).
  Proof.
    unfold factors, fac. split.
    - intros [e [E <-]]. rewrite E. split; [apply nth_error_Some; congruence|reflexivity].
    - intros [H <-]. apply nth_error_Some in H. destruct (nth_error (ft_entries t) s) as [e|]; [now exists e|congruence].
  Qed.
  Definition hit1 (lg : list nat) (x s : nat) : bool := match find_factors t (combine_factors lg [x]) with Some k => Nat.eqb s k | None => false end.
  Lemma lens e : In e (ft_entries t) -> length (fe_seqs e) = length (fe_syms e).
  Proof. intros I. destruct (se_factors _ _ _ _ (proj1 St) e I) as [ks [P F]]. rewrite <- (Permutation_length P). symmetry. exact (forall2_len _ _ _ F). Qed.
  Lemma nonfundamental_spec included : (forall s, In s included -> exists l, factors t s l) -> nonfundamental t included = FOk (filter (fun s => 2 <=? length (fac s)) included).
  Proof.
    induction included as [|s r IH]; intros H; [reflexivity|]. cbn [nonfundamental filter]. destruct (H s (or_introl eq_refl)) as [l [e [E <-]]].
    unfold entry_of. rewrite E. cbn [fbind]. rewrite IH by (intros; apply H; now right). cbn [fbind]. unfold fundamental, fac. rewrite E, (lens e (nth_error_In _ _ E)).
    destruct (Nat.leb_spec (length (fe_syms e)) 1), (Nat.leb_spec 2 (length (fe_syms e))); try reflexivity; lia.
  Qed.
  Lemma to_test_spec nec tested : (forall s, In s nec -> s < length (ft_entries t)) -> to_test t nec tested = FOk (ptest fac nec tested).
  Proof.
    induction nec as [|s r IH]; intros H; [reflexivity|]. cbn [to_test ptest]. pose proof (H s (or_introl eq_refl)) as Hs. apply nth_error_Some in Hs. unfold entry_of, fac at 1.
    destruct (nth_error (ft_entries t) s) as [e|]; [|congruence]. cbn [fbind]. destruct (first_untested tested (fe_syms e)); [reflexivity|]. apply IH. intros; apply H; now right.
  Qed.
  Lemma try_prefix_settles x nec g lg : word_factors g lg -> settles (fun fuel scratch => try_prefix c fuel scratch t x nec g) (filter (fun s => negb (hit1 lg x s)) nec, existsb (hit1 lg x) nec).
  Proof.
    intros [r [k [Mo [Sy [e [Ee El]]]]]]. unfold try_prefix. eapply settles_bind; [exact (canonical_settles nt L g r Mo)|]. cbn beta.
    assert (find_seq (Some r) (ft_syms t) = Some k) as ->.
    { destruct (find_seq (Some r) (ft_syms t)) as [j|] eqn:F; [|now apply find_seq_none with (k := k) in F]. f_equal. apply find_seq_some in F. exact (se_once _ _ _ _ (proj1 St) j k _ F Sy). }
    unfold entry_of. rewrite Ee. cbn [fbind]. rewrite El. unfold hit1. destruct (find_factors t (combine_factors lg [x])) as [s|].
    - assert (E1 : existsb (fun s0 => s0 =? s) nec = among s nec).
      { unfold among. induction nec as [|a q IH]; [reflexivity|]. cbn. rewrite IH. now rewrite (Nat.eqb_sym a s). }
      rewrite E1. destruct (among s nec) eqn:A; [apply settles_ret|]. replace (filter (fun s0 => negb (s0 =? s)) nec) with nec; [apply settles_ret|].
      apply among_false in A. clear E1. induction nec as [|a q IH]; [reflexivity|]. cbn. destruct (Nat.eqb_spec a s) as [->|]; [exfalso; apply A; now left|]. cbn. f_equal. apply IH. intros I; apply A; now right.
    - replace (filter (fun s => negb false) nec) with nec; [|clear; induction nec as [|a q IH]; [reflexivity|cbn; now f_equal]].
      replace (existsb (fun _ : nat => false) nec) with false; [apply settles_ret|]. clear. induction nec; auto.
  Qed.
  Definition hit (lgs : list (list nat)) (x s : nat) : bool := existsb (fun lg => hit1 lg x s) lgs.
  Lemma try_prefixes_settles x : forall gens lgs nec any, Forall2 word_factors gens lgs ->
    settles (fun fuel scratch => try_prefixes c fuel scratch t x nec any gens) (filter (fun s => negb (hit lgs x s)) nec, any || existsb (hit lgs x) nec).
  Proof.
    induction gens as [|g r IH]; intros lgs nec any F; inversion F; subst; cbn [try_prefixes].
    - replace (filter (fun s => negb (hit [] x s)) nec) with nec; [|clear; induction nec as [|a q IH]; [reflexivity|cbn; now f_equal]].
      replace (existsb (hit [] x) nec) with false; [rewrite orb_false_r; apply settles_ret|]. clear. induction nec; auto.
    - eapply settles_bind; [apply try_prefix_settles; eassumption|]. cbn beta. cbn [fst snd]. rename l' into lgs. rename y into lg.
      replace (filter (fun s => negb (hit (lg :: lgs) x s)) nec) with (filter (fun s => negb (hit lgs x s)) (filter (fun s => negb (hit1 lg x s)) nec)).
      + replace (any || existsb (hit (lg :: lgs) x) nec) with ((any || existsb (hit1 lg x) nec) || existsb (hit lgs x) (filter (fun s => negb (hit1 lg x s)) nec)); [now apply IH|].
        rewrite <- orb_assoc. f_equal. clear. induction nec as [|a q IH]; [reflexivity|]. cbn [filter existsb]. change (hit (lg :: lgs) x a) with (hit1 lg x a || hit lgs x a). rewrite <- IH.
        destruct (hit1 lg x a); cbn [negb existsb orb]; [reflexivity|]. now destruct (existsb (hit1 lg x) q), (hit lgs x a).
      + clear. induction nec as [|a q IH]; [reflexivity|]. cbn [filter]. change (hit (lg :: lgs) x a) with (hit1 lg x a || hit lgs x a). rewrite <- IH.
        destruct (hit1 lg x a); cbn [negb orb filter]; [reflexivity|]. now destruct (hit lgs x a).
  Qed.
  Lemma loop_settles gens lgs : Forall2 word_factors gens lgs -> forall n nec tested chosen, (forall s, In s nec -> s < length (ft_entries t)) ->
    settles (fun fuel scratch => suggest_loop c fuel scratch t n gens nec tested chosen) (ploop (hit lgs) fac n nec tested chosen).
  Proof.
    intros F. induction n as [|n IH]; intros nec tested chosen H; [cbn; apply settles_ret|]. cbn [suggest_loop ploop]. destruct nec as [|s0 r]; [apply settles_ret|].
    set (nec := s0 :: r) in *. clearbody nec. rewrite (to_test_spec nec tested H). cbn [fbind]. destruct (ptest fac nec tested) as [x|]; [|apply settles_ret].
    eapply settles_bind; [apply try_prefixes_settles; exact F|]. cbn beta. cbn [fst snd orb]. apply IH. intros s I. apply filter_In in I. now apply H.
  Qed.
  Lemma lists_of gens : (forall g, In g gens -> exists lg, word_factors g lg) -> exists lgs, Forall2 word_factors gens lgs.
  Proof.
    induction gens as [|g r IH]; intros H; [exists []; constructor|]. destruct (H g (or_introl eq_refl)) as [lg G]. destruct IH as [lgs F]; [intros; apply H; now right|]. exists (lg :: lgs). now constructor.
  Qed.

  (** what a hit is *)
  Lemma word_list g lg : word_factors g lg -> StronglySorted le lg /\ ~ In 0 lg /\ (In 1 lg -> lg = [1]) /\ lg <> [].
  Proof.
    intros [r [k [Mo [Sy [e [Ee <-]]]]]]. pose proof (nth_error_In _ _ Ee) as I. destruct (entry_list outcomes srcs nt L MK t e St I) as [N [Sh _]].
    assert (Z : ~ In 0 (fe_syms e)).
    { intros J. destruct (se_factors _ _ _ _ (proj1 St) e I) as [ks [P F]]. apply (Permutation_in _ (Permutation_sym P)) in J. destruct (forall2_in _ _ _ _ F J) as [q [Q [S1 _]]].
      destruct (se_entry _ _ _ _ (proj1 St) k _ e Sy Ee) as [[fs [rs [_ [_ E]]]] _]. rewrite E in Q. apply in_map_iff in Q. destruct Q as [w [<- _]].
      pose proof (se_zero _ _ _ _ (proj1 St)) as S0. unfold symbol_seq in S0, S1. rewrite S0 in S1. discriminate. }
    destruct Sh as [[A [B C]]|[m Em]]; [auto|]. exfalso. apply Z. rewrite Em. now left.
  Qed.
  Lemma hit_spec g lg x s l : word_factors g lg -> 1 < x -> factors t s l ->
    (hit1 lg x s = true -> Permutation l (without_one (lg ++ [x]))) /\ (Permutation l (without_one (lg ++ [x])) -> ~ In 0 l -> only_one t s -> hit1 lg x s = true).
  Proof.
    intros W X Fs. destruct (word_list g lg W) as [So [Z [One Ne]]].
    assert (Sx : shaped [x]). { left. split; [constructor; constructor|]. split; [intros [E|[]]; lia|intros [E|[]]; lia]. }
    assert (Sl : shaped lg) by (left; auto). destruct (combine_spec lg [x] Sl Sx Ne ltac:(discriminate)) as [Sh [Nc [_ [Hin H]]]].
    destruct (H Z ltac:(intros [E|[]]; lia)) as [Sc [Pc Zc]]. clear H.
    assert (N1 : ~ In 1 (combine_factors lg [x])).
    { intros I. destruct Sh as [[_ [_ O]]|[m E]]; [|apply Zc; rewrite E; now left]. rewrite (O I) in Hin. destruct (Hin x ltac:(lia) (or_intror (or_introl eq_refl))) as [E|[]]. lia. }
    rewrite (ones_out_none _ N1) in Pc. change (ones_out (lg ++ [x])) with (without_one (lg ++ [x])) in Pc. unfold hit1. pose proof (find_spec srcs nt L t (combine_factors lg [x]) St) as Fd. split.
    - destruct (find_factors t (combine_factors lg [x])) as [k|]; [|discriminate]. intros E. apply Nat.eqb_eq in E. subst k.
      apply fac_spec in Fs, Fd. destruct Fs as [_ <-]. destruct Fd as [_ ->]. exact Pc.
    - intros P Z0 O. assert (l = combine_factors lg [x]) as E.
      { apply sorted_unique; [|exact Sc|rewrite P; now symmetry]. destruct Fs as [e [Ee <-]]. destruct (entry_list outcomes srcs nt L MK t e St (nth_error_In _ _ Ee)) as [_ [[[A _]|[m Em]] _]]; [exact A|].
        exfalso. apply Z0. rewrite Em. now left. }
      rewrite <- E in *. destruct (find_factors t l) as [k|].
      + apply Nat.eqb_eq. symmetry. exact (O k l Fs Fd).
      + destruct Fs as [e [Ee El]]. exfalso. exact (Fd e (nth_error_In _ _ Ee) El).
  Qed.

  Variables (included : list nat) (gens : list word).
  Hypothesis Sg : suggestible nt L t included gens.
  Notation nec0 := (filter (fun s => 2 <=? length (fac s)) included).
  Lemma nec_spec s : In s nec0 <-> In s included /\ composite t s.
  Proof.
    rewrite filter_In, Nat.leb_le. split; intros [I H]; (split; [exact I|]).
    - exists (fac s). split; [|exact H]. destruct (sg_symbols _ _ _ _ _ Sg s I) as [l [F _]]. apply fac_spec in F. apply fac_spec. tauto.
    - destruct H as [l [F G]]. apply fac_spec in F. destruct F as [_ ->]. exact G.
  Qed.
  Lemma factor_big s x : In s nec0 -> In x (fac s) -> 1 < x.
  Proof.
    intros I J. apply nec_spec in I. destruct I as [I [l [F G]]]. destruct (sg_symbols _ _ _ _ _ Sg s I) as [l' [F' Z]]. pose proof F as F2. apply fac_spec in F, F'. destruct F as [_ E]. destruct F' as [_ E']. subst l l'. specialize (Z G).
    destruct F2 as [e [Ee El]]. destruct (entry_list outcomes srcs nt L MK t e St (nth_error_In _ _ Ee)) as [_ [[[_ [_ One]]|[m Em]] _]].
    - rewrite El in One. destruct x as [|[|x]]; [contradiction| |lia]. rewrite (One J) in G. cbn in G. lia.
    - exfalso. apply Z. rewrite <- El, Em. now left.
  Qed.
  Lemma suggest_spec : exists chosen, settles (fun fuel scratch => suggest c fuel scratch t included gens) chosen /\
    NoDup chosen /\ length chosen <= max_extensions /\ (forall x, In x chosen -> candidate t included x) /\
    (exists ss, Forall2 (fun x s => exists g, In g gens /\ reaches nt L t g x s) chosen ss /\ NoDup ss /\ forall s, In s ss -> In s included /\ composite t s) /\
    (forall cs, (forall x, candidate t included x -> In x cs) -> length cs <= max_extensions ->
      forall s g x, In s included -> composite t s -> only_one t s -> In g gens -> candidate t [s] x -> reaches nt L t g x s -> exists g' y, In g' gens /\ In y chosen /\ reaches nt L t g' y s).
  Proof.
    destruct (lists_of gens (sg_words _ _ _ _ _ Sg)) as [lgs F].
    assert (R : forall s, In s nec0 -> s < length (ft_entries t)) by (intros s I; apply nec_spec in I; destruct I as [_ [l [H _]]]; now apply fac_spec in H).
    pose proof (loop_settles gens lgs F max_extensions nec0 [] [] R) as Lp. destruct (ploop_spec (hit lgs) fac nec0) as [A [B [C [[ss [D1 [D2 D3]]] E]]]].
    set (ch := ploop (hit lgs) fac max_extensions nec0 [] []) in *. clearbody ch. exists (nsort ch).
    assert (Cand : forall s x, In s nec0 -> In x (fac s) -> candidate t included x).
    { intros s x I J. apply nec_spec in I. destruct I as [I [l [H G]]]. exists s, l. repeat split; auto. apply fac_spec in H. destruct H as [_ <-]. exact J. }
    assert (Hreach : forall x s, 1 < x -> In s nec0 -> hit lgs x s = true -> exists g, In g gens /\ reaches nt L t g x s).
    { intros x s X I H. unfold hit in H. apply existsb_exists in H. destruct H as [lg [J H]].
      assert (exists g, In g gens /\ word_factors g lg) as [g [G W]]. { clear - F J. induction F as [|g0 lg0 gs ls W0 F IH]; [destruct J|]. destruct J as [<-|J]; [exists g0; split; [now left|exact W0]|]. destruct (IH J) as [g [G W]]. exists g. split; [now right|exact W]. }
      apply nec_spec in I. destruct I as [_ [l [Fl _]]]. exists g. split; [exact G|]. exists lg, l. split; [exact W|]. split; [exact Fl|]. apply (hit_spec g lg x s l W X Fl). exact H. }
    split; [|split; [|split; [|split; [|split]]]].
    - unfold suggest. rewrite nonfundamental_spec by (intros s I; destruct (sg_symbols _ _ _ _ _ Sg s I) as [l [H _]]; eauto). cbn [fbind]. eapply settles_bind; [exact Lp|]. apply settles_ret.
    - eapply Permutation_NoDup; [symmetry; apply nsort_perm|exact A].
    - now rewrite (Permutation_length (nsort_perm ch)).
    - intros x I. apply (Permutation_in _ (nsort_perm ch)) in I. destruct (C x I) as [s [I1 I2]]. now apply (Cand s).
    - assert (P : Forall2 (fun x s => exists g, In g gens /\ reaches nt L t g x s) ch ss).
      { clear - D1 D3 C Hreach Sg St MK. revert C D3. induction D1 as [|x s ch ss H D1 IH]; intros C D3; [constructor|]. constructor.
        - apply Hreach; [|apply D3; now left|exact H]. destruct (C x (or_introl eq_refl)) as [s' [I J]]. now apply (factor_big s').
        - apply IH; [intros; apply C; now right|intros; apply D3; now right]. }
      assert (Pm : forall l l' (Q : nat -> nat -> Prop) m, Permutation l l' -> Forall2 Q l m -> exists m', Permutation m m' /\ Forall2 Q l' m').
      { clear. intros l l' Q m P. revert m. induction P; intros m H.
        - exists []. inversion H. split; [constructor|constructor].
        - inversion H; subst. destruct (IHP _ H4) as [m' [M1 M2]]. exists (y :: m'). split; [now constructor|now constructor].
        - inversion H; subst. inversion H4; subst. exists (y1 :: y0 :: l'0). split; [apply perm_swap|constructor; [assumption|constructor; assumption]].
        - destruct (IHP1 _ H) as [m1 [M1 M2]]. destruct (IHP2 _ M2) as [m2 [M3 M4]]. exists m2. split; [now transitivity m1|exact M4]. }
      destruct (Pm _ _ _ _ (Permutation_sym (nsort_perm ch)) P) as [ss' [P1 P2]]. exists ss'. split; [exact P2|]. split; [eapply Permutation_NoDup; eassumption|].
      intros s I. apply nec_spec, D3. now apply (Permutation_in _ (Permutation_sym P1)).
    - intros cs Hc Lc s g x I Cs O G [s' [l [[<-|[]] [Fl [Gl Jx]]]]] [lg [l' [W [Fl' P]]]].
      assert (In s nec0) as In0 by (now apply nec_spec). assert (In x (fac s)) as Ix by (apply fac_spec in Fl; destruct Fl as [_ ->]; exact Jx).
      pose proof (factor_big s x In0 Ix) as X.
      assert (l' = l) as -> by (apply fac_spec in Fl, Fl'; destruct Fl as [_ <-]; destruct Fl' as [_ <-]; reflexivity).
      assert (Z : ~ In 0 l). { intros Z. apply fac_spec in Fl. destruct Fl as [_ <-]. pose proof (factor_big s 0 In0 Z). lia. }
      assert (H : hit lgs x s = true).
      { unfold hit. apply existsb_exists. assert (exists lg', In lg' lgs /\ word_factors g lg') as [lg' [J W']].
        { clear - F G. induction F as [|g0 lg0 gs ls W0 F IH]; [destruct G|]. destruct G as [<-|G]; [exists lg0; split; [now left|exact W0]|]. destruct (IH G) as [lg [J W]]. exists lg. split; [now right|exact W]. }
        exists lg'. split; [exact J|]. assert (lg' = lg) as ->.
        { destruct W as [r [k [M1 [S1 F1]]]]. destruct W' as [r' [k' [M2 [S2 F2]]]]. destruct M1 as [n1 M1]. destruct M2 as [n2 M2].
          specialize (M1 (max n1 n2) (repeat 0 (total_sources nt L)) ltac:(lia) (repeat_length _ _)). specialize (M2 (max n1 n2) (repeat 0 (total_sources nt L)) ltac:(lia) (repeat_length _ _)).
          rewrite M1 in M2. injection M2 as ->. assert (k' = k) as -> by (exact (se_once _ _ _ _ (proj1 St) k' k _ S2 S1)). apply fac_spec in F1, F2. destruct F1 as [_ <-]. destruct F2 as [_ <-]. reflexivity. }
        now apply (hit_spec g lg x s l W X Fl). }
      destruct (E cs) with (s := s) (x := x) as [y [Y1 Y2]]; auto.
      { intros s' x' I' J'. apply Hc. now apply (Cand s'). }
      destruct (C y Y1) as [sy [Y3 Y4]]. destruct (Hreach y s (factor_big sy y Y3 Y4) In0 Y2) as [g' [G' R']]. exists g', y. split; [exact G'|]. split; [|exact R'].
      now apply (Permutation_in _ (Permutation_sym (nsort_perm ch))).
  Qed.
End Table.
