(** Invariants of shared dictionaries. *)
From Coq Require Import List Arith Bool Lia.
From Verif Require Import PdcModel PdcSpec.
Import ListNotations.

Lemma dkey_eqb_eq a b : dkey_eqb a b = true <-> a = b.
Proof.
  unfold dkey_eqb. rewrite andb_true_iff, !Nat.eqb_eq. destruct a, b; cbn. split; [intros [-> ->]; reflexivity|intro E; now injection E].
Qed.
Lemma dkey_eqb_refl a : dkey_eqb a a = true.
Proof. now apply dkey_eqb_eq. Qed.
Lemma level_find_app l m o a : level_find l m = None -> level_find l (m ++ [(a, o)]) = if Nat.eqb a l then Some o else None.
Proof.
  induction m as [|[b x] m IH]; cbn; [reflexivity|]. destruct (Nat.eqb b l); [discriminate|exact IH].
Qed.
Lemma level_find_keep l m r o : level_find l m = Some o -> level_find l (m ++ r) = Some o.
Proof. induction m as [|[b x] m IH]; cbn; [discriminate|]. destruct (Nat.eqb b l); [trivial|exact IH]. Qed.
Lemma near_find_app k m o a : near_find k m = None -> near_find k (m ++ [(a, o)]) = if dkey_eqb a k then Some o else None.
Proof. induction m as [|[b x] m IH]; cbn; [reflexivity|]. destruct (dkey_eqb b k); [discriminate|exact IH]. Qed.
Lemma near_find_keep k m r o : near_find k m = Some o -> near_find k (m ++ r) = Some o.
Proof. induction m as [|[b x] m IH]; cbn; [discriminate|]. destruct (dkey_eqb b k); [trivial|exact IH]. Qed.

Section Proofs.
  Variable G : Type.
  Variable make : dkey -> option G.
  Variable size : G -> nat.
  Variable zero : G.
  Variable grow : nat -> nat.
  Hypothesis Gr : growing grow.
  Notation pdict := (pdict G). Notation pthread := (pthread G). Notation pstate := (pstate G).
  Notation push := (pd_push grow).
  Implicit Types (d : pdict) (t : pthread) (s : pstate) (g : G).

  Lemma find_push_same k g d : pd_find k d = None -> pd_find k (push k g d) = Some (length (pd_osgs d)).
  Proof.
    unfold pd_find, pd_push. cbn [pd_levels pd_near]. destruct (Nat.eqb 0 (snd k)) eqn:E; intro N.
    - rewrite level_find_app by exact N. now rewrite Nat.eqb_refl.
    - rewrite near_find_app by exact N. now rewrite dkey_eqb_refl.
  Qed.
  Lemma find_push_keep k g d k' o : pd_find k' d = Some o -> pd_find k' (push k g d) = Some o.
  Proof.
    unfold pd_find, pd_push. cbn [pd_levels pd_near]. destruct (Nat.eqb 0 (snd k')) eqn:E'; destruct (Nat.eqb 0 (snd k)) eqn:E; intro N; trivial.
    - now apply level_find_keep.
    - now apply near_find_keep.
  Qed.
  Lemma find_push_inv k g d k' o : pd_find k' (push k g d) = Some o -> pd_find k' d = Some o \/ (k' = k /\ pd_find k d = None /\ o = length (pd_osgs d)).
  Proof.
    intro H. destruct (pd_find k' d) as [o'|] eqn:F.
    - left. rewrite (find_push_keep k g d k' o' F) in H. exact H.
    - right. revert H F. unfold pd_find, pd_push. cbn [pd_levels pd_near].
      destruct (Nat.eqb 0 (snd k')) eqn:E'; destruct (Nat.eqb 0 (snd k)) eqn:E; intros H F.
      + rewrite level_find_app in H by exact F. destruct (Nat.eqb (fst k) (fst k')) eqn:Q; [|discriminate]. injection H as <-.
        apply Nat.eqb_eq in Q, E, E'. assert (k' = k) as -> by (destruct k, k'; cbn in *; congruence). auto.
      + congruence.
      + congruence.
      + rewrite near_find_app in H by exact F. destruct (dkey_eqb k k') eqn:Q; [|discriminate]. injection H as <-.
        apply dkey_eqb_eq in Q. subst k'. auto.
  Qed.

  (** the dictionary *)
  Record dinv (d : pdict) : Prop := mk_dinv {
    dv_room : length (pd_osgs d) <= pd_cap d;
    dv_found : forall k o, pd_find k d = Some o -> exists g, nth_error (pd_osgs d) o = Some g /\ make k = Some g;
    dv_once : forall k k' o, pd_find k d = Some o -> pd_find k' d = Some o -> k = k' }.
  Lemma dinv_start : dinv (pd_start zero grow).
  Proof.
    constructor.
    - cbn. apply (Gr 0).
    - intros k o H. exfalso. unfold pd_find in H. cbn in H. destruct (snd k); discriminate.
    - intros k k' o H. exfalso. unfold pd_find in H. cbn in H. destruct (snd k); discriminate.
  Qed.
  Lemma found_lt d k o : dinv d -> pd_find k d = Some o -> o < length (pd_osgs d).
  Proof. intros I F. destruct (dv_found d I k o F) as (g & N & _). apply nth_error_Some. congruence. Qed.
  Lemma dinv_push k g d : dinv d -> make k = Some g -> pd_find k d = None -> dinv (push k g d).
  Proof.
    intros I M N. constructor.
    - cbn [pd_push pd_osgs pd_cap]. rewrite app_length. cbn. destruct (Nat.eqb (length (pd_osgs d)) (pd_cap d)) eqn:E.
      + apply Nat.eqb_eq in E. rewrite E. pose proof (Gr (pd_cap d)). lia.
      + apply Nat.eqb_neq in E. pose proof (dv_room d I). lia.
    - intros k' o H. apply find_push_inv in H as [H|(-> & _ & ->)].
      + destruct (dv_found d I k' o H) as (g' & N' & M'). exists g'. split; [|exact M']. cbn [pd_push pd_osgs].
        rewrite nth_error_app1 by (apply nth_error_Some; congruence). exact N'.
      + exists g. split; [|exact M]. cbn [pd_push pd_osgs]. rewrite nth_error_app2, Nat.sub_diag by lia. reflexivity.
    - intros k1 k2 o H1 H2. apply find_push_inv in H1 as [H1|(-> & _ & E1)]; apply find_push_inv in H2 as [H2|(-> & _ & E2)].
      + exact (dv_once d I k1 k2 o H1 H2).
      + apply (found_lt d _ _ I) in H1. lia.
      + apply (found_lt d _ _ I) in H2. lia.
      + reflexivity.
  Qed.
  (** later dictionaries *)
  Record later (d d' : pdict) : Prop := mk_later {
    lt_find : forall k o, pd_find k d = Some o -> pd_find k d' = Some o;
    lt_block : pd_block d <= pd_block d' }.
  Lemma later_refl d : later d d.
  Proof. constructor; auto. Qed.
  Lemma later_push k g d : later d (push k g d).
  Proof.
    constructor.
    - intros k' o. apply find_push_keep.
    - cbn [pd_push pd_block]. destruct (Nat.eqb _ _); lia.
  Qed.

  (** a thread *)
  Definition ref_ok (d : pdict) (x : dkey * pref) : Prop := pd_find (fst x) d = Some (snd (snd x)) /\ fst (snd x) <= pd_block d.
  Definition event_ok (d : pdict) (e : pevent G) : Prop :=
    right_event make size e /\ match e with EOpened k a => pd_find k d = Some a | ELost _ => False | _ => True end.
  Definition pc_ok (d : pdict) (p : ppc G) : Prop :=
    match p with PWrite _ k g => make k = Some g | PSize k r => ref_ok d (k, r) | _ => True end.
  Record tinv (d : pdict) (t : pthread) : Prop := mk_tinv {
    tv_pc : pc_ok d (pt_pc t);
    tv_refs : Forall (ref_ok d) (pt_refs t);
    tv_gens : Forall (fun x => pd_find (fst x) d = Some (snd x)) (pt_gens t);
    tv_log : Forall (event_ok d) (pt_log t) }.
  Lemma ref_ok_later d d' x : later d d' -> ref_ok d x -> ref_ok d' x.
  Proof. intros L [F B]. split; [now apply (lt_find d d' L)|]. pose proof (lt_block d d' L). lia. Qed.
  Lemma event_ok_later d d' e : later d d' -> event_ok d e -> event_ok d' e.
  Proof. intros L [R E]. split; [exact R|]. destruct e; trivial. now apply (lt_find d d' L). Qed.
  Lemma tinv_later d d' t : later d d' -> tinv d t -> tinv d' t.
  Proof.
    intros L [P R S E]. constructor.
    - destruct (pt_pc t); trivial. now apply (ref_ok_later d).
    - eapply Forall_impl; [|exact R]. intros x. now apply ref_ok_later.
    - eapply Forall_impl; [|exact S]. intros x. cbn. now apply (lt_find d d' L).
    - eapply Forall_impl; [|exact E]. intros x. now apply event_ok_later.
  Qed.
  Lemma tinv_halt d t e : tinv d t -> event_ok d e -> tinv d (halt e t).
  Proof. intros [P R S E] H. constructor; cbn; trivial. apply Forall_app. auto. Qed.
  Lemma deref_ok d k r : dinv d -> ref_ok d (k, r) -> forall a g, pd_deref r d = Some (a, g) -> a = snd r /\ pd_find k d = Some a /\ make k = Some g.
  Proof.
    intros I [F B] a g. unfold pd_deref. destruct (Nat.eqb (fst r) (pd_block d)); [|discriminate]. cbn in F. destruct (dv_found d I k _ F) as (g' & N & M).
    rewrite N. cbn. intro H. injection H as <- <-. auto.
  Qed.
  Lemma deref_live d k r : dinv d -> ref_ok d (k, r) -> fst r = pd_block d -> exists g, pd_deref r d = Some (snd r, g).
  Proof.
    intros I [F B] E. unfold pd_deref. rewrite (proj2 (Nat.eqb_eq _ _) E). cbn in F. destruct (dv_found d I k _ F) as (g' & N & M).
    rewrite N. cbn. eauto.
  Qed.
  Lemma returned_ok d t cnt k o : tinv d t -> pd_find k d = Some o -> tinv d (returned cnt k o d t).
  Proof.
    intros [P R S E] F. unfold returned. destruct cnt; constructor; cbn [pt_pc pt_refs pt_gens pt_log pc_ok]; trivial.
    - split; [exact F|cbn; lia].
    - apply Forall_app. split; [exact R|]. constructor; [|constructor]. split; [exact F|cbn; lia].
    - apply Forall_app. split; [exact E|]. constructor; [|constructor]. split; exact I.
  Qed.
  Lemma step_ok t d t' d' : dinv d -> tinv d t -> pthread_step make size grow t d = (t', d') -> dinv d' /\ tinv d' t' /\ later d d'.
  Proof.
    intros I T H. unfold pthread_step in H. destruct (pt_pc t) as [|cnt k|cnt k|cnt k g|k r] eqn:P.
    - destruct (pt_todo t) as [|op rest]; injection H as <- <-; [split; [exact I|split; [exact T|apply later_refl]]|].
      split; [exact I|]. split; [|apply later_refl]. destruct T as [Pc R S E].
      destruct op as [k|i|j|k]; cbn [pstart_op].
      + constructor; cbn; trivial.
      + cbn [pt_refs pt_gens pt_log]. destruct (nth_error (pt_refs t) i) as [[k r]|] eqn:N.
        * assert (O : ref_ok d (k, r)) by (rewrite Forall_forall in R; apply R; eapply nth_error_In; exact N).
          destruct (pd_deref r d) as [[a g]|] eqn:D.
          -- destruct (deref_ok d k r I O a g D) as (A & F & M). constructor; cbn; trivial.
             ++ apply Forall_app. split; [exact S|]. constructor; [exact F|constructor].
             ++ apply Forall_app. split; [exact E|]. constructor; [|constructor]. split; [exact Logic.I|exact F].
          -- apply tinv_halt; [constructor; cbn; trivial|]. split; exact Logic.I.
        * apply tinv_halt; [constructor; cbn; trivial|]. split; exact Logic.I.
      + cbn [pt_refs pt_gens pt_log]. destruct (nth_error (pt_gens t) j) as [[k a]|] eqn:N.
        * assert (O : pd_find k d = Some a) by (rewrite Forall_forall in S; apply (S (k, a)); eapply nth_error_In; exact N).
          destruct (dv_found d I k a O) as (g & N' & M). rewrite N'.
          constructor; cbn; trivial. apply Forall_app. split; [exact E|]. constructor; [|constructor]. split; [exact M|exact Logic.I].
        * apply tinv_halt; [constructor; cbn; trivial|]. split; exact Logic.I.
      + constructor; cbn; trivial.
    - destruct (pd_find k d) as [o|] eqn:F; injection H as <- <-; (split; [exact I|]); (split; [|apply later_refl]).
      + now apply returned_ok.
      + destruct T as [Pc R S E]. constructor; cbn; trivial.
    - destruct (make k) as [g|] eqn:M; injection H as <- <-; (split; [exact I|]); (split; [|apply later_refl]).
      + destruct T as [Pc R S E]. constructor; cbn; trivial.
      + apply tinv_halt; [exact T|]. split; [exact M|exact Logic.I].
    - assert (M : make k = Some g) by (destruct T as [Pc _ _ _]; rewrite P in Pc; exact Pc).
      destruct (pd_find k d) as [o|] eqn:F; injection H as <- <-.
      + split; [exact I|]. split; [|apply later_refl]. apply tinv_halt; [exact T|]. split; exact Logic.I.
      + split; [now apply dinv_push|]. split; [|apply later_push]. apply returned_ok.
        * apply (tinv_later d); [apply later_push|exact T].
        * rewrite find_push_same by exact F. cbn [pd_push pd_osgs]. rewrite app_length. cbn. f_equal. lia.
    - assert (O : ref_ok d (k, r)) by (destruct T as [Pc _ _ _]; rewrite P in Pc; exact Pc).
      destruct (pd_deref r d) as [[a g]|] eqn:D; injection H as <- <-; (split; [exact I|]); (split; [|apply later_refl]).
      + destruct (deref_ok d k r I O a g D) as (A & F & M). destruct T as [Pc R S E]. constructor; cbn; trivial.
        apply Forall_app. split; [exact E|]. constructor; [|constructor]. split; [cbn; eauto|exact Logic.I].
      + apply tinv_halt; [exact T|]. split; exact Logic.I.
  Qed.

  Definition sinv (s : pstate) : Prop := dinv (ps_dict s) /\ Forall (tinv (ps_dict s)) (ps_threads s).
  Lemma split_nth {A} i (l : list A) (t : A) : nth_error l i = Some t -> l = firstn i l ++ t :: skipn (S i) l.
  Proof.
    revert l. induction i as [|i IH]; intros [|x l] H; try discriminate; cbn in *.
    - now injection H as ->.
    - f_equal. now apply IH.
  Qed.
  Lemma sinv_step i s : sinv s -> sinv (pstep make size grow i s).
  Proof.
    intros [I T]. unfold pstep. destruct (nth_error (ps_threads s) i) as [t|] eqn:N; [|split; assumption].
    destruct (pthread_step make size grow t (ps_dict s)) as [t' d'] eqn:H.
    assert (Tt : tinv (ps_dict s) t) by (rewrite Forall_forall in T; apply T; eapply nth_error_In; exact N).
    destruct (step_ok t (ps_dict s) t' d' I Tt H) as (I' & T' & L). split; [exact I'|]. cbn.
    rewrite (split_nth i _ t N) in T. apply Forall_app in T as [T1 T2]. inversion T2 as [|x y _ T3 E]; subst.
    apply Forall_app. split; [eapply Forall_impl; [|exact T1]; intros x; now apply tinv_later|].
    constructor; [exact T'|]. eapply Forall_impl; [|exact T3]. intros x. now apply tinv_later.
  Qed.
  Lemma sinv_run sched : forall s, sinv s -> sinv (prun make size grow sched s).
  Proof. induction sched as [|i r IH]; intros s H; [exact H|]. cbn. apply IH. now apply sinv_step. Qed.
  Lemma sinv_begin progs : sinv (pbegin zero grow progs).
  Proof.
    split; [exact dinv_start|]. cbn. apply Forall_map. apply Forall_forall. intros p _. constructor; cbn; constructor.
  Qed.
  Lemma run_event sched progs t e : In t (ps_threads (prun make size grow sched (pbegin zero grow progs))) -> In e (pt_log t) ->
    event_ok (ps_dict (prun make size grow sched (pbegin zero grow progs))) e.
  Proof.
    intros Ht He. destruct (sinv_run sched _ (sinv_begin progs)) as [_ T]. rewrite Forall_forall in T. specialize (T t Ht).
    pose proof (tv_log _ _ T) as L. rewrite Forall_forall in L. now apply L.
  Qed.

  (** * Asking for different dictionaries *)
  (** keys a thread may still enter or has entered *)
  Definition pc_asks (p : ppc G) : list dkey := match p with PRead _ k | PMake _ k | PWrite _ k _ => [k] | _ => [] end.
  (** [owner]: which thread asks for a key *)
  Definition entered_by (owner : dkey -> nat -> Prop) (d : pdict) : Prop := forall k, pd_find k d <> None -> exists i, owner k i.
  Record down (own : dkey -> Prop) (d : pdict) (t : pthread) : Prop := mk_down {
    dn_todo : forall k, In k (asks (pt_todo t)) -> own k;
    dn_pc : forall k, In k (pc_asks (pt_pc t)) -> own k;
    dn_new : match pt_pc t with PMake _ k | PWrite _ k _ => pd_find k d = None | _ => True end;
    dn_log : forall k, ~ In (ERaced k) (pt_log t) }.
  Lemma asks_cons op p k : In k (asks p) -> In k (asks (op :: p)).
  Proof. intro H. unfold asks. cbn. apply in_or_app. now right. Qed.
  Lemma not_in_snoc {A} (x y : A) l : ~ In x l -> x <> y -> ~ In x (l ++ [y]).
  Proof. intros H N Q. apply in_app_or in Q as [Q|[Q|[]]]; [contradiction|congruence]. Qed.
  Lemma down_halt own d t e : down own d t -> (forall k, e <> ERaced k) -> down own d (halt e t).
  Proof.
    intros [A B C D] N. constructor; cbn; trivial.
    - intros k [].
    - intros k []. 
    - intro k. apply not_in_snoc; [apply D|]. intro Q. now apply (N k).
  Qed.
  Lemma down_returned (own : dkey -> Prop) d t cnt k o d' : (forall k, In k (asks (pt_todo t)) -> own k) -> (forall k, ~ In (ERaced k) (pt_log t)) -> down own d' (returned cnt k o d t).
  Proof.
    intros A D. unfold returned. destruct cnt; constructor; cbn; trivial; try (intros ? []).
    intro k'. apply not_in_snoc; [apply D|discriminate].
  Qed.
  Lemma down_step own t d t' d' : down own d t -> pthread_step make size grow t d = (t', d') ->
    down own d' t' /\ (d' = d \/ exists k g, d' = push k g d /\ own k).
  Proof.
    intros [A B C D] H. unfold pthread_step in H. destruct (pt_pc t) as [|cnt k|cnt k|cnt k g|k r] eqn:P.
    - destruct (pt_todo t) as [|op rest] eqn:Td; injection H as <- <-; (split; [|now left]).
      + constructor; rewrite ?P, ?Td; trivial.
      + assert (A' : forall k, In k (asks rest) -> own k) by (intros k Hk; apply A; now apply asks_cons).
        destruct op as [k|i|j|k]; cbn [pstart_op].
        * constructor; cbn; trivial. intros k' [<-|[]]. apply A. now left.
        * cbn [pt_refs pt_gens pt_log]. assert (Z0 : down own d (mk_pt rest PIdle (pt_refs t) (pt_gens t) (pt_log t))) by (constructor; cbn; trivial; intros ? []).
          destruct (nth_error (pt_refs t) i) as [[k r]|]; [|apply down_halt; [exact Z0|discriminate]].
          destruct (pd_deref r d) as [[a g]|]; [|apply down_halt; [exact Z0|discriminate]].
          constructor; cbn; trivial. intro k'. apply not_in_snoc; [apply D|discriminate].
        * cbn [pt_refs pt_gens pt_log]. assert (Z0 : down own d (mk_pt rest PIdle (pt_refs t) (pt_gens t) (pt_log t))) by (constructor; cbn; trivial; intros ? []).
          destruct (nth_error (pt_gens t) j) as [[k a]|]; [|apply down_halt; [exact Z0|discriminate]].
          destruct (nth_error (pd_osgs d) a) as [g|]; [|apply down_halt; [exact Z0|discriminate]].
          constructor; cbn; trivial. intro k'. apply not_in_snoc; [apply D|discriminate].
        * constructor; cbn; trivial. intros k' [<-|[]]. apply A. now left.
    - destruct (pd_find k d) as [o|] eqn:F; injection H as <- <-; (split; [|now left]).
      + now apply down_returned.
      + constructor; cbn; trivial.
    - destruct (make k) as [g|] eqn:M; injection H as <- <-; (split; [|now left]).
      + constructor; cbn; trivial.
      + apply down_halt; [|discriminate]. constructor; rewrite ?P; trivial.
    - rewrite C in H. injection H as <- <-. split; [now apply down_returned|]. right. exists k, g. split; [reflexivity|]. apply B. now left.
    - destruct (pd_deref r d) as [[a g]|] eqn:Q; injection H as <- <-; (split; [|now left]).
      + constructor; cbn; trivial. intro k'. apply not_in_snoc; [apply D|discriminate].
      + apply down_halt; [|discriminate]. constructor; rewrite ?P; trivial.
  Qed.
  Lemma down_other own t d k g : down own d t -> ~ own k -> down own (push k g d) t.
  Proof.
    intros [A B C D] N. constructor; trivial. destruct (pt_pc t) as [|cnt k0|cnt k0|cnt k0 g0|k0 r] eqn:P; trivial.
    - destruct (pd_find k0 (push k g d)) as [o|] eqn:F; [|reflexivity]. apply find_push_inv in F as [F|(-> & _)]; [congruence|].
      exfalso. apply N, B. now left.
    - destruct (pd_find k0 (push k g d)) as [o|] eqn:F; [|reflexivity]. apply find_push_inv in F as [F|(-> & _)]; [congruence|].
      exfalso. apply N, B. now left.
  Qed.
  Definition all_down (own : nat -> dkey -> Prop) (s : pstate) : Prop := forall i t, nth_error (ps_threads s) i = Some t -> down (own i) (ps_dict s) t.
  Lemma update_nth {A} (l : list A) i (t t' : A) j x : nth_error l i = Some t -> nth_error (firstn i l ++ t' :: skipn (S i) l) j = Some x ->
    (j = i /\ x = t') \/ (j <> i /\ nth_error l j = Some x).
  Proof.
    intros N H. assert (Li : length (firstn i l) = i) by (apply firstn_length_le; assert (i < length l) by (apply nth_error_Some; congruence); lia).
    destruct (Nat.lt_trichotomy j i) as [J|[->|J]].
    - right. split; [lia|]. rewrite nth_error_app1 in H by lia. rewrite (split_nth i l t N). rewrite nth_error_app1 by lia. exact H.
    - left. rewrite nth_error_app2, Li, Nat.sub_diag in H by lia. cbn in H. injection H as <-. auto.
    - right. split; [lia|]. rewrite nth_error_app2, Li in H by lia. rewrite (split_nth i l t N). rewrite nth_error_app2, Li by lia.
      destruct (j - i) as [|m] eqn:E; [lia|]. exact H.
  Qed.
  Lemma all_down_step (own : nat -> dkey -> Prop) i s : (forall i j k, own i k -> own j k -> i = j) -> all_down own s -> all_down own (pstep make size grow i s).
  Proof.
    intros Ap H. unfold pstep. destruct (nth_error (ps_threads s) i) as [t|] eqn:N; [|exact H].
    destruct (pthread_step make size grow t (ps_dict s)) as [t' d'] eqn:S.
    destruct (down_step (own i) t (ps_dict s) t' d' (H i t N) S) as [D' E]. intros j x Hx. cbn in *.
    apply (update_nth _ i t t' j x N) in Hx as [[-> ->]|[J Hx]]; [exact D'|].
    destruct E as [->|(k & g & -> & O)]; [now apply H|]. apply down_other; [now apply H|]. intro Q. apply J. now apply (Ap j i k).
  Qed.
  Lemma all_down_run (own : nat -> dkey -> Prop) sched : (forall i j k, own i k -> own j k -> i = j) -> forall s, all_down own s -> all_down own (prun make size grow sched s).
  Proof. intro Ap. induction sched as [|i r IH]; intros s H; [exact H|]. cbn. apply IH. now apply all_down_step. Qed.
  Lemma apart_no_race sched progs t k : apart progs -> In t (ps_threads (prun make size grow sched (pbegin zero grow progs))) -> ~ In (ERaced k) (pt_log t).
  Proof.
    intros Ap Ht. apply In_nth_error in Ht as [i Hi].
    apply (dn_log (fun k => exists p, nth_error progs i = Some p /\ In k (asks p)) (ps_dict (prun make size grow sched (pbegin zero grow progs)))).
    apply (all_down_run (fun i k => exists p, nth_error progs i = Some p /\ In k (asks p)) sched); [| |exact Hi].
    - intros a b k' (p & P & Kp) (q & Q & Kq). exact (Ap a b p q k' P Q Kp Kq).
    - intros j x Hx. cbn in Hx. rewrite nth_error_map in Hx. destruct (nth_error progs j) as [p|] eqn:P; [|discriminate]. injection Hx as <-.
      constructor; cbn; trivial; try (intros ? []). intros k' Hk. exists p. auto.
  Qed.
End Proofs.
