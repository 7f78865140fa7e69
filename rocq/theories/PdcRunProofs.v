(** Room, careful programs, progress. *)
From Coq Require Import List Arith Bool Lia.
From Verif Require Import PdcModel PdcSpec PdcProofs.
Import ListNotations.

Section Run.
  Variable G : Type.
  Variable make : dkey -> option G.
  Variable size : G -> nat.
  Variable zero : G.
  Variable grow : nat -> nat.
  Hypothesis Gr : growing grow.
  Notation pdict := (pdict G). Notation pthread := (pthread G). Notation pstate := (pstate G).
  Notation push := (pd_push grow).
  Notation run := (prun make size grow). Notation tstep := (pthread_step make size grow).
  Implicit Types (d : pdict) (t : pthread) (s : pstate) (g : G).

  (** * Room *)
  Definition weight t : nat := length (asks (pt_todo t)) + length (pc_asks G (pt_pc t)).
  Definition total (ts : list pthread) : nat := list_sum (map weight ts).
  Lemma asks_length_cons op p : length (asks (op :: p)) = length (asks [op]) + length (asks p).
  Proof. unfold asks. cbn. rewrite app_nil_r, app_length. reflexivity. Qed.
  Lemma weight_halt e t : weight (halt e t) = 0.
  Proof. reflexivity. Qed.
  Lemma weight_returned cnt k o d t : weight (returned cnt k o d t) = length (asks (pt_todo t)).
  Proof. unfold weight, returned. destruct cnt; apply Nat.add_0_r. Qed.
  Lemma step_weight t d t' d' : tstep t d = (t', d') ->
    (d' = d /\ weight t' <= weight t) \/ (exists k g, d' = push k g d /\ pd_find k d = None /\ S (weight t') <= weight t).
  Proof.
    intro H. unfold pthread_step in H. destruct (pt_pc t) as [|cnt k|cnt k|cnt k g|k r] eqn:P.
    - destruct (pt_todo t) as [|op rest] eqn:Td; injection H as <- <-; left; (split; [reflexivity|]); [lia|].
      unfold weight at 2. rewrite P, Td, asks_length_cons. destruct op as [k|i|j|k]; cbn [pstart_op pt_refs pt_gens pt_log].
      + unfold weight, asks. cbn. lia.
      + destruct (nth_error (pt_refs t) i) as [[k r]|]; [|rewrite weight_halt; lia]. destruct (pd_deref r d) as [[a g]|]; [unfold weight, asks; cbn; lia|rewrite weight_halt; lia].
      + destruct (nth_error (pt_gens t) j) as [[k a]|]; [|rewrite weight_halt; lia]. destruct (nth_error (pd_osgs d) a) as [g|]; [unfold weight, asks; cbn; lia|rewrite weight_halt; lia].
      + unfold weight, asks. cbn. lia.
    - left. destruct (pd_find k d) as [o|]; injection H as <- <-; (split; [reflexivity|]).
      + rewrite weight_returned. unfold weight. lia.
      + unfold weight. rewrite P. unfold asks. cbn. lia.
    - left. destruct (make k) as [g|]; injection H as <- <-; (split; [reflexivity|]).
      + unfold weight. rewrite P. unfold asks. cbn. lia.
      + rewrite weight_halt. lia.
    - destruct (pd_find k d) as [o|] eqn:F; injection H as <- <-.
      + left. split; [reflexivity|]. rewrite weight_halt. lia.
      + right. exists k, g. split; [reflexivity|]. split; [exact F|]. rewrite weight_returned. unfold weight. rewrite P. unfold asks. cbn. lia.
    - left. destruct (pd_deref r d) as [[a g]|]; injection H as <- <-; (split; [reflexivity|]).
      + unfold weight. rewrite P. unfold asks. cbn. lia.
      + rewrite weight_halt. lia.
  Qed.
  Lemma total_update ts i t t' : nth_error ts i = Some t -> total (firstn i ts ++ t' :: skipn (S i) ts) + weight t = total ts + weight t'.
  Proof.
    intro N. assert (Q : total ts = total (firstn i ts ++ t :: skipn (S i) ts)) by (f_equal; now apply split_nth).
    rewrite Q. unfold total. rewrite !map_app, !list_sum_app. cbn [map].
    assert (E : forall a l, list_sum (a :: l) = a + list_sum l) by reflexivity. rewrite !E. ring.
  Qed.
  Record roomy (M : nat) s : Prop := mk_roomy {
    ry_cap : pd_cap (ps_dict s) = M;
    ry_block : pd_block (ps_dict s) = 0;
    ry_left : length (pd_osgs (ps_dict s)) + total (ps_threads s) <= M }.
  Lemma roomy_step M i s : roomy M s -> roomy M (pstep make size grow i s).
  Proof.
    intros [C B L]. unfold pstep. destruct (nth_error (ps_threads s) i) as [t|] eqn:N; [|constructor; assumption].
    destruct (tstep t (ps_dict s)) as [t' d'] eqn:H. pose proof (total_update (ps_threads s) i t t' N) as U.
    apply step_weight in H as [[-> W]|(k & g & -> & F & W)]; constructor; cbn [ps_dict ps_threads]; trivial; try lia.
    - cbn [pd_push pd_cap]. assert (Nat.eqb (length (pd_osgs (ps_dict s))) (pd_cap (ps_dict s)) = false) as -> by (apply Nat.eqb_neq; lia). exact C.
    - cbn [pd_push pd_block]. assert (Nat.eqb (length (pd_osgs (ps_dict s))) (pd_cap (ps_dict s)) = false) as -> by (apply Nat.eqb_neq; lia). exact B.
    - cbn [pd_push pd_osgs]. rewrite app_length. cbn [length]. lia.
  Qed.
  Definition no_dangling t : Prop := forall k, ~ In (EDangling k) (pt_log t).
  Lemma dangling_step d t t' d' : dinv G make d -> tinv G make size d t -> pd_block d = 0 -> no_dangling t -> tstep t d = (t', d') -> no_dangling t'.
  Proof.
    intros I T B D H. unfold pthread_step in H.
    assert (Live : forall k r, ref_ok G d (k, r) -> pd_deref r d <> None).
    { intros k r O. destruct O as [F Bk]. destruct (deref_live G make d k r I) as [g E]; [now split|cbn in Bk; lia|]. congruence. }
    assert (Hl : forall e t0, no_dangling t0 -> (forall k, e <> EDangling k) -> no_dangling (halt e t0)).
    { intros e t0 D0 N k. cbn. apply not_in_snoc; [apply D0|]. intro Q. now apply (N k). }
    assert (Hr : forall cnt k o d0, no_dangling (returned cnt k o d0 t)).
    { intros cnt k o d0. unfold returned. destruct cnt; intro k'; cbn; [apply D|]. apply not_in_snoc; [apply D|discriminate]. }
    destruct (pt_pc t) as [|cnt k|cnt k|cnt k g|k r] eqn:P.
    - destruct (pt_todo t) as [|op rest] eqn:Td; injection H as <- <-; [exact D|].
      destruct op as [k|i|j|k]; cbn [pstart_op pt_refs pt_gens pt_log].
      + exact D.
      + destruct (nth_error (pt_refs t) i) as [[k r]|] eqn:N; [|apply Hl; [exact D|discriminate]].
        pose proof (Live k r) as Lk. destruct (pd_deref r d) as [[a g]|].
        * intro k'. cbn. apply not_in_snoc; [apply D|discriminate].
        * exfalso. apply Lk; [|reflexivity]. pose proof (tv_refs _ _ _ _ _ T) as R. rewrite Forall_forall in R. apply R. eapply nth_error_In. exact N.
      + destruct (nth_error (pt_gens t) j) as [[k a]|]; [|apply Hl; [exact D|discriminate]].
        destruct (nth_error (pd_osgs d) a) as [g|]; [|apply Hl; [exact D|discriminate]]. intro k'. cbn. apply not_in_snoc; [apply D|discriminate].
      + exact D.
    - destruct (pd_find k d) as [o|]; injection H as <- <-; [apply Hr|exact D].
    - destruct (make k) as [g|]; injection H as <- <-; [exact D|apply Hl; [exact D|discriminate]].
    - destruct (pd_find k d) as [o|]; injection H as <- <-; [apply Hl; [exact D|discriminate]|apply Hr].
    - pose proof (Live k r) as Lk. destruct (pd_deref r d) as [[a g]|]; injection H as <- <-.
      + intro k'. cbn. apply not_in_snoc; [apply D|discriminate].
      + exfalso. apply Lk; [|reflexivity]. pose proof (tv_pc _ _ _ _ _ T) as R. rewrite P in R. exact R.
  Qed.
  Lemma room_run M sched : forall s, sinv G make size s -> roomy M s -> Forall no_dangling (ps_threads s) -> Forall no_dangling (ps_threads (run sched s)).
  Proof.
    induction sched as [|i r IH]; intros s S R D; [exact D|]. cbn. apply IH.
    - now apply sinv_step.
    - now apply roomy_step.
    - unfold pstep. destruct (nth_error (ps_threads s) i) as [t|] eqn:N; [|exact D]. destruct (tstep t (ps_dict s)) as [t' d'] eqn:H. cbn.
      destruct S as [I T]. rewrite (split_nth i _ t N) in D, T. apply Forall_app in D as [D1 D2]. apply Forall_app in T as [T1 T2].
      inversion D2 as [|x y Dt D3 E]; subst. inversion T2 as [|x y Tt T3 E]; subst.
      apply Forall_app. split; [exact D1|]. constructor; [|exact D3]. eapply dangling_step; [exact I|exact Tt|exact (ry_block _ _ R)|exact Dt|exact H].
  Qed.
  Lemma total_begin progs : total (map (fun p => mk_pt p PIdle [] [] []) progs) = length (flat_map asks progs).
  Proof. unfold total. rewrite map_map. induction progs as [|p l IH]; [reflexivity|]. cbn [map flat_map]. rewrite app_length, <- IH. unfold list_sum. cbn [fold_right]. unfold weight at 1. cbn [pt_todo pt_pc pc_asks length]. lia. Qed.
  Lemma enough_room sched progs t k : length (flat_map asks progs) < grow 0 -> In t (ps_threads (run sched (pbegin zero grow progs))) -> ~ In (EDangling k) (pt_log t).
  Proof.
    intros L Ht. assert (Forall no_dangling (ps_threads (run sched (pbegin zero grow progs)))) as F.
    { apply (room_run (grow 0)).
      - now apply sinv_begin.
      - constructor; cbn [pbegin ps_dict ps_threads pd_start pd_cap pd_block pd_osgs]; trivial. rewrite total_begin. cbn. lia.
      - cbn. apply Forall_map, Forall_forall. intros p _ k' []. }
    rewrite Forall_forall in F. now apply F.
  Qed.

  (** * A careful program on its own *)
  Definition fine_event (e : pevent G) : Prop := match e with ERaced _ | EDangling _ | ELost _ | EBad => False | _ => True end.
  Definition seen_ok d (seen : list dkey) : Prop := forall k, In k seen -> pd_find k d <> None.
  Definition live_ok d t (live : list nat) : Prop := forall i, In i live -> exists k o, nth_error (pt_refs t) i = Some (k, (pd_block d, o)).
  Definition op_of (cnt : bool) (k : dkey) : pop := if cnt then Count k else Ask k.
  Definition careful_of t (seen : list dkey) (live : list nat) (p : list pop) : Prop := careful seen (length (pt_refs t)) live (length (pt_gens t)) p = true.
  Definition care d t : Prop :=
    exists seen live, seen_ok d seen /\ live_ok d t live /\
    match pt_pc t with
    | PIdle => careful_of t seen live (pt_todo t)
    | PRead cnt k => careful_of t seen live (op_of cnt k :: pt_todo t)
    | PMake cnt k | PWrite cnt k _ => careful_of t seen live (op_of cnt k :: pt_todo t) /\ pd_find k d = None
    | PSize k r => careful_of t seen live (pt_todo t) /\ fst r = pd_block d
    end.
  Lemma mem_key k l : existsb (dkey_eqb k) l = true <-> In k l.
  Proof.
    rewrite existsb_exists. split; [intros (x & H & E); apply dkey_eqb_eq in E; now subst|]. intro H. exists k. split; [exact H|apply dkey_eqb_refl].
  Qed.
  Lemma care_returned (cnt : bool) k o d t seen live : seen_ok d seen -> live_ok d t live -> pd_find k d = Some o ->
    careful (k :: seen) (if cnt then length (pt_refs t) else S (length (pt_refs t))) (if cnt then live else length (pt_refs t) :: live) (length (pt_gens t)) (pt_todo t) = true ->
    care d (returned cnt k o d t).
  Proof.
    intros S L F C. exists (k :: seen), (if cnt then live else length (pt_refs t) :: live).
    assert (S' : seen_ok d (k :: seen)) by (intros k' [<-|Hk]; [congruence|now apply S]). unfold returned.
    destruct cnt; cbn [pt_pc pt_todo].
    - split; [exact S'|]. split; [exact L|]. split; [exact C|reflexivity].
    - split; [exact S'|]. split.
      + intros i [<-|Hi]; cbn [pt_refs].
        * exists k, o. rewrite nth_error_app2, Nat.sub_diag by lia. reflexivity.
        * destruct (L i Hi) as (k' & o' & N). exists k', o'. rewrite nth_error_app1 by (apply nth_error_Some; congruence). exact N.
      + unfold careful_of. cbn [pt_refs pt_gens]. rewrite app_length. cbn [length]. rewrite Nat.add_1_r. exact C.
  Qed.
  Lemma careful_op (cnt : bool) seen refs live gens k p : careful seen refs live gens (op_of cnt k :: p) = true ->
    careful (k :: seen) (if cnt then refs else S refs) (if cnt then (if existsb (dkey_eqb k) seen then live else []) else refs :: (if existsb (dkey_eqb k) seen then live else [])) gens p = true.
  Proof. destruct cnt; exact (fun H => H). Qed.
  Lemma careful_less : forall p seen seen' refs live gens, (forall k, existsb (dkey_eqb k) seen = existsb (dkey_eqb k) seen') ->
    careful seen refs live gens p = careful seen' refs live gens p.
  Proof.
    induction p as [|op p IH]; intros seen seen' refs live gens H; [reflexivity|]. destruct op as [k|i|j|k]; cbn [careful].
    - rewrite (H k). apply IH. intro k'. cbn. now rewrite H.
    - f_equal. now apply IH.
    - f_equal. now apply IH.
    - rewrite (H k). apply IH. intro k'. cbn. now rewrite H.
  Qed.
  Lemma care_halt d t e : care d (halt e t).
  Proof. exists [], []. split; [intros ? []|]. split; [intros ? []|]. reflexivity. Qed.
  (** fewer live references only make a program less careful: monotone *)
  Lemma careful_mono : forall p seen refs live live' gens, (forall i, In i live -> In i live') -> careful seen refs live gens p = true -> careful seen refs live' gens p = true.
  Proof.
    induction p as [|op p IH]; intros seen refs live live' gens H C; [reflexivity|]. destruct op as [k|i|j|k]; cbn [careful] in *.
    - eapply IH; [|exact C]. destruct (existsb (dkey_eqb k) seen); [|auto]. intros i [->|Hi]; [now left|right; now apply H].
    - apply andb_true_iff in C as [A C]. apply andb_true_iff. split; [|eapply IH; [exact H|exact C]].
      rewrite existsb_exists in *. destruct A as (x & Hx & E). exists x. auto.
    - apply andb_true_iff in C as [A C]. apply andb_true_iff. split; [exact A|eapply IH; [exact H|exact C]].
    - eapply IH; [|exact C]. destruct (existsb (dkey_eqb k) seen); [exact H|auto].
  Qed.
  Lemma fine_snoc l e : Forall fine_event l -> fine_event e -> Forall fine_event (l ++ [e]).
  Proof. intros H E. apply Forall_app. auto. Qed.
  Lemma care_step d t t' d' : dinv G make d -> tinv G make size d t -> care d t -> Forall fine_event (pt_log t) -> tstep t d = (t', d') ->
    care d' t' /\ Forall fine_event (pt_log t').
  Proof.
    intros I T (seen & live & S & L & C) F H. unfold pthread_step in H. destruct (pt_pc t) as [|cnt k|cnt k|cnt k g|k r] eqn:P.
    - destruct (pt_todo t) as [|op rest] eqn:Td; injection H as <- <-.
      + split; [|exact F]. exists seen, live. rewrite P, Td. auto.
      + destruct op as [k|i|j|k]; cbn [pstart_op pt_refs pt_gens pt_log].
        * split; [|exact F]. exists seen, live. auto.
        * unfold careful_of in C. cbn [careful] in C. apply andb_true_iff in C as [A C]. apply existsb_exists in A as (x & Hx & E). apply Nat.eqb_eq in E. subst x.
          destruct (L i Hx) as (k & o & N). rewrite N.
          assert (O : ref_ok G d (k, (pd_block d, o))) by (pose proof (tv_refs _ _ _ _ _ T) as R; rewrite Forall_forall in R; apply R; eapply nth_error_In; exact N).
          destruct (deref_live G make d k _ I O eq_refl) as [g E]. rewrite E. cbn [snd]. split.
          -- exists seen, live. split; [exact S|]. split; [exact L|]. cbn. unfold careful_of. cbn [pt_refs pt_gens]. rewrite app_length. cbn [length].
             rewrite Nat.add_1_r. exact C.
          -- cbn. now apply fine_snoc.
        * unfold careful_of in C. cbn [careful] in C. apply andb_true_iff in C as [A C]. apply Nat.ltb_lt in A.
          destruct (nth_error (pt_gens t) j) as [[k a]|] eqn:N; [|apply nth_error_None in N; lia].
          pose proof (tv_gens _ _ _ _ _ T) as R. rewrite Forall_forall in R. specialize (R (k, a) (nth_error_In _ _ N)). cbn in R.
          destruct (dv_found _ _ d I k a R) as (g & N' & _). rewrite N'. split.
          -- exists seen, live. auto.
          -- cbn. now apply fine_snoc.
        * split; [|exact F]. exists seen, live. auto.
    - destruct (pd_find k d) as [o|] eqn:Fd; injection H as <- <-.
      + apply careful_op in C. split; [|unfold returned; destruct cnt; cbn; [exact F|now apply fine_snoc]].
        apply (care_returned cnt k o d t seen (if existsb (dkey_eqb k) seen then live else [])); [exact S| |exact Fd|exact C].
        destruct (existsb (dkey_eqb k) seen); [exact L|intros ? []].
      + split; [|exact F]. exists seen, live. split; [exact S|]. split; [exact L|]. split; [exact C|exact Fd].
    - destruct C as [C N]. destruct (make k) as [g|]; injection H as <- <-.
      + split; [|exact F]. exists seen, live. split; [exact S|]. split; [exact L|]. split; [exact C|exact N].
      + split; [apply care_halt|]. cbn. now apply fine_snoc.
    - destruct C as [C N]. rewrite N in H. injection H as <- <-. split; [|unfold returned; destruct cnt; cbn; [exact F|now apply fine_snoc]].
      apply careful_op in C. assert (E : existsb (dkey_eqb k) seen = false).
      { destruct (existsb (dkey_eqb k) seen) eqn:E; [|reflexivity]. apply mem_key in E. now destruct (S k E). }
      rewrite E in C. apply (care_returned cnt k _ _ t seen []).
      + intros k' Hk. specialize (S k' Hk). destruct (pd_find k' d) as [o|] eqn:Q; [|contradiction]. rewrite (find_push_keep G grow k g d k' o Q). discriminate.
      + intros ? [].
      + rewrite find_push_same by exact N. cbn [pd_push pd_osgs]. rewrite app_length. cbn. f_equal. lia.
      + exact C.
    - destruct C as [C E]. assert (O : ref_ok G d (k, r)) by (pose proof (tv_pc _ _ _ _ _ T) as R; rewrite P in R; exact R).
      destruct (deref_live G make d k r I O E) as [g D]. rewrite D in H. injection H as <- <-. split.
      + exists seen, live. auto.
      + cbn. now apply fine_snoc.
  Qed.
  Lemma care_run sched : forall s, sinv G make size s -> length (ps_threads s) = 1 ->
    Forall (fun t => care (ps_dict s) t /\ Forall fine_event (pt_log t)) (ps_threads s) ->
    Forall (fun t => Forall fine_event (pt_log t)) (ps_threads (run sched s)).
  Proof.
    induction sched as [|i r IH]; intros s S O C.
    - eapply Forall_impl; [|exact C]. intros t [_ F]. exact F.
    - cbn. assert (length (ps_threads (pstep make size grow i s)) = 1 /\
        Forall (fun t => care (ps_dict (pstep make size grow i s)) t /\ Forall fine_event (pt_log t)) (ps_threads (pstep make size grow i s))) as [O' C'].
      { unfold pstep. destruct (ps_threads s) as [|t [|]] eqn:E; [discriminate| |discriminate]. destruct i as [|i]; cbn [nth_error].
        - destruct (tstep t (ps_dict s)) as [t' d'] eqn:H. cbn. split; [reflexivity|]. constructor; [|constructor].
          destruct S as [I T]. rewrite E in T. inversion T as [|x y Tt _ Q]; subst. inversion C as [|x y [Ct F] _ Q]; subst.
          eapply care_step; [exact I|exact Tt|exact Ct|exact F|exact H].
        - destruct (nth_error [] i) eqn:Q; [destruct i; discriminate|]. rewrite E. auto. }
      apply IH; [now apply sinv_step|exact O'|exact C'].
  Qed.
  Lemma careful_alone sched p t e : careful [] 0 [] 0 p = true -> In t (ps_threads (run sched (pbegin zero grow [p]))) -> In e (pt_log t) -> fine_event e.
  Proof.
    intros C Ht He. assert (Forall (fun t => Forall fine_event (pt_log t)) (ps_threads (run sched (pbegin zero grow [p])))) as F.
    { apply care_run; [now apply sinv_begin|reflexivity|]. cbn. constructor; [|constructor]. split; [|constructor].
      exists [], []. split; [intros ? []|]. split; [intros ? []|]. exact C. }
    rewrite Forall_forall in F. specialize (F t Ht). rewrite Forall_forall in F. now apply F.
  Qed.

  (** * Progress *)
  Definition measure t : nat := 5 * length (pt_todo t) + match pt_pc t with PIdle => 0 | PRead _ _ => 4 | PMake _ _ => 3 | PWrite _ _ _ => 2 | PSize _ _ => 1 end.
  Lemma measure_halt e t : measure (halt e t) = 0.
  Proof. reflexivity. Qed.
  Lemma measure_returned cnt k o d t : measure (returned cnt k o d t) <= 5 * length (pt_todo t) + 1.
  Proof. unfold measure, returned. destruct cnt; cbn [pt_todo pt_pc]; lia. Qed.
  Lemma measure_step t d t' d' : tstep t d = (t', d') -> measure t' <= measure t - 1.
  Proof.
    intro H. unfold pthread_step in H. destruct (pt_pc t) as [|cnt k|cnt k|cnt k g|k r] eqn:P.
    - destruct (pt_todo t) as [|op rest] eqn:Td; injection H as <- <-.
      + unfold measure. rewrite P, Td. cbn. lia.
      + unfold measure at 2. rewrite P, Td. cbn [length]. destruct op as [k|i|j|k]; cbn [pstart_op pt_refs pt_gens pt_log].
        * unfold measure. cbn [goto pt_todo pt_pc]. lia.
        * destruct (nth_error (pt_refs t) i) as [[k r]|]; [|rewrite measure_halt; lia]. destruct (pd_deref r d) as [[a g]|]; [unfold measure; cbn [pt_todo pt_pc]; lia|rewrite measure_halt; lia].
        * destruct (nth_error (pt_gens t) j) as [[k a]|]; [|rewrite measure_halt; lia]. destruct (nth_error (pd_osgs d) a) as [g|]; [unfold measure; cbn [pt_todo pt_pc]; lia|rewrite measure_halt; lia].
        * unfold measure. cbn [goto pt_todo pt_pc]. lia.
    - unfold measure at 2. rewrite P. destruct (pd_find k d) as [o|]; injection H as <- <-.
      + pose proof (measure_returned cnt k o d t). lia.
      + unfold measure. cbn [goto pt_todo pt_pc]. lia.
    - unfold measure at 2. rewrite P. destruct (make k) as [g|]; injection H as <- <-.
      + unfold measure. cbn [goto pt_todo pt_pc]. lia.
      + rewrite measure_halt. lia.
    - unfold measure at 2. rewrite P. destruct (pd_find k d) as [o|]; injection H as <- <-.
      + rewrite measure_halt. lia.
      + match goal with |- measure (returned ?c ?k ?o ?x t) <= _ => pose proof (measure_returned c k o x t) end. lia.
    - unfold measure at 2. rewrite P. destruct (pd_deref r d) as [[a g]|]; injection H as <- <-.
      + unfold measure. cbn [pt_todo pt_pc]. lia.
      + rewrite measure_halt. lia.
  Qed.
  (** the history of one thread *)
  Lemma nth_update {A} (l : list A) i (t t' : A) : nth_error l i = Some t -> nth_error (firstn i l ++ t' :: skipn (S i) l) i = Some t'.
  Proof.
    intro N. assert (i < length l) by (apply nth_error_Some; congruence). rewrite nth_error_app2; rewrite firstn_length_le by lia; [|lia]. now rewrite Nat.sub_diag.
  Qed.
  Lemma nth_update_other {A} (l : list A) i j (t t' : A) : nth_error l i = Some t -> j <> i -> nth_error (firstn i l ++ t' :: skipn (S i) l) j = nth_error l j.
  Proof.
    intros N J. assert (Hi : i < length l) by (apply nth_error_Some; congruence). rewrite (split_nth i l t N) at 3.
    assert (Li : length (firstn i l) = i) by (apply firstn_length_le; lia).
    destruct (Nat.lt_ge_cases j i) as [Q|Q].
    - rewrite !nth_error_app1 by lia. reflexivity.
    - rewrite !nth_error_app2 by lia. rewrite Li. destruct (j - i) as [|m] eqn:E; [lia|reflexivity].
  Qed.
  Lemma measure_run i sched : forall s t, nth_error (ps_threads s) i = Some t ->
    exists t', nth_error (ps_threads (run sched s)) i = Some t' /\ measure t' <= measure t - turns i sched.
  Proof.
    induction sched as [|j r IH]; intros s t N.
    - exists t. split; [exact N|]. cbn. lia.
    - cbn [prun]. unfold turns. cbn [count_occ]. destruct (Nat.eq_dec j i) as [->|J].
      + destruct (tstep t (ps_dict s)) as [t1 d1] eqn:H. pose proof (measure_step _ _ _ _ H) as M.
        destruct (IH (pstep make size grow i s) t1) as (t' & N' & M').
        * unfold pstep. rewrite N, H. cbn. exact (nth_update _ i t t1 N).
        * exists t'. split; [exact N'|]. fold (turns i r). lia.
      + destruct (IH (pstep make size grow j s) t) as (t' & N' & M').
        * unfold pstep. destruct (nth_error (ps_threads s) j) as [x|] eqn:Nj; [|exact N]. destruct (tstep x (ps_dict s)) as [x1 d1]. cbn [ps_threads].
          rewrite (nth_update_other _ j i x x1 Nj) by congruence. exact N.
        * exists t'. auto.
  Qed.
  Lemma finishes i sched progs p : nth_error progs i = Some p -> 5 * length p <= turns i sched ->
    exists t, nth_error (ps_threads (run sched (pbegin zero grow progs))) i = Some t /\ finished t.
  Proof.
    intros N L. destruct (measure_run i sched (pbegin zero grow progs) (mk_pt p PIdle [] [] [])) as (t & Nt & M).
    - cbn. rewrite nth_error_map, N. reflexivity.
    - exists t. split; [exact Nt|]. unfold measure at 2 in M. cbn [pt_todo pt_pc] in M. unfold measure in M. assert (Z0 : measure t = 0) by (unfold measure; lia).
      unfold measure in Z0. split; [destruct (pt_todo t); [reflexivity|cbn in Z0; lia]|destruct (pt_pc t); [reflexivity| | | |]; lia].
  Qed.
  (** each operation is answered once *)
  Definition busy t : nat := match pt_pc t with PIdle => 0 | _ => 1 end.
  Definition answered (n : nat) t : Prop := (exists e, In e (pt_log t) /\ stopping_event e) \/ length (pt_log t) + length (pt_todo t) + busy t = n.
  Lemma answered_halt n e t : stopping_event e -> answered n (halt e t).
  Proof. intro H. left. exists e. split; [|exact H]. cbn. apply in_or_app. right. now left. Qed.
  Lemma answered_step n t d t' d' : answered n t -> tstep t d = (t', d') -> answered n t'.
  Proof.
    intros [(e & He & Hs)|A] H.
    - left. exists e. split; [|exact Hs]. unfold pthread_step in H.
      assert (K : forall x y, In e (pt_log (returned x y (length (pd_osgs d) + 0) d t)) /\ (forall a b, In e (pt_log (returned x y a b t))) /\ (forall z, In e (pt_log (halt z t)))).
      { intros x y. assert (forall a b, In e (pt_log (returned x y a b t))) by (intros a b; unfold returned; destruct x; cbn; [exact He|apply in_or_app; now left]).
        repeat split; auto. intro z. cbn. apply in_or_app. now left. }
      destruct (pt_pc t) as [|cnt k|cnt k|cnt k g|k r] eqn:P.
      + destruct (pt_todo t) as [|op rest] eqn:Td; injection H as <- <-; [exact He|].
        destruct op as [k|i|j|k]; cbn [pstart_op pt_refs pt_gens pt_log]; [exact He| | |exact He].
        * destruct (nth_error (pt_refs t) i) as [[k r]|]; [|cbn; apply in_or_app; now left]. destruct (pd_deref r d) as [[a g]|]; cbn; apply in_or_app; now left.
        * destruct (nth_error (pt_gens t) j) as [[k a]|]; [|cbn; apply in_or_app; now left]. destruct (nth_error (pd_osgs d) a) as [g|]; cbn; apply in_or_app; now left.
      + destruct (pd_find k d) as [o|]; injection H as <- <-; [apply (K cnt k)|exact He].
      + destruct (make k) as [g|]; injection H as <- <-; [exact He|apply (K cnt k)].
      + destruct (pd_find k d) as [o|]; injection H as <- <-; apply (K cnt k).
      + destruct (pd_deref r d) as [[a g]|]; injection H as <- <-; [cbn; apply in_or_app; now left|apply (K true k)].
    - unfold pthread_step in H. unfold busy in A.
      assert (K : forall x y a b, length (pt_log t) + length (pt_todo t) + 1 = n -> answered n (returned x y a b t)).
      { intros x y a b Q. right. unfold returned, busy. destruct x; cbn; [exact Q|]. rewrite app_length. cbn. lia. }
      destruct (pt_pc t) as [|cnt k|cnt k|cnt k g|k r] eqn:P.
      + destruct (pt_todo t) as [|op rest] eqn:Td; injection H as <- <-; [right; unfold busy; rewrite P, Td; exact A|]. cbn [length] in A.
        destruct op as [k|i|j|k]; cbn [pstart_op pt_refs pt_gens pt_log].
        * right. cbn. lia.
        * destruct (nth_error (pt_refs t) i) as [[k r]|]; [|now apply answered_halt]. destruct (pd_deref r d) as [[a g]|]; [|now apply answered_halt].
          right. cbn. rewrite app_length. cbn. lia.
        * destruct (nth_error (pt_gens t) j) as [[k a]|]; [|now apply answered_halt]. destruct (nth_error (pd_osgs d) a) as [g|]; [|now apply answered_halt].
          right. cbn. rewrite app_length. cbn. lia.
        * right. cbn. lia.
      + destruct (pd_find k d) as [o|]; injection H as <- <-; [now apply K|right; cbn; lia].
      + destruct (make k) as [g|]; injection H as <- <-; [right; cbn; lia|now apply answered_halt].
      + destruct (pd_find k d) as [o|]; injection H as <- <-; [now apply answered_halt|now apply K].
      + destruct (pd_deref r d) as [[a g]|]; injection H as <- <-; [right; cbn; rewrite app_length; cbn; lia|now apply answered_halt].
  Qed.
  Lemma answered_run n i sched : forall s t, nth_error (ps_threads s) i = Some t -> answered n t ->
    forall t', nth_error (ps_threads (run sched s)) i = Some t' -> answered n t'.
  Proof.
    induction sched as [|j r IH]; intros s t N A t' N'.
    - cbn in N'. congruence.
    - cbn [prun] in N'. destruct (Nat.eq_dec j i) as [->|J].
      + destruct (tstep t (ps_dict s)) as [t1 d1] eqn:H. apply (IH (pstep make size grow i s) t1); [|eapply answered_step; [exact A|exact H]|exact N'].
        unfold pstep. rewrite N, H. cbn. exact (nth_update _ i t t1 N).
      + apply (IH (pstep make size grow j s) t); [|exact A|exact N'].
        unfold pstep. destruct (nth_error (ps_threads s) j) as [x|] eqn:Nj; [|exact N]. destruct (tstep x (ps_dict s)) as [x1 d1]. cbn [ps_threads].
        rewrite (nth_update_other _ j i x x1 Nj) by congruence. exact N.
  Qed.
  Lemma all_answered i sched progs p t : nth_error progs i = Some p -> nth_error (ps_threads (run sched (pbegin zero grow progs))) i = Some t -> finished t ->
    (forall e, In e (pt_log t) -> ~ stopping_event e) -> length (pt_log t) = length p.
  Proof.
    intros N Nt [F1 F2] Q. assert (A : answered (length p) t).
    { apply (answered_run (length p) i sched (pbegin zero grow progs) (mk_pt p PIdle [] [] [])); [|right; cbn; lia|exact Nt]. cbn. rewrite nth_error_map, N. reflexivity. }
    destruct A as [(e & He & Hs)|A]; [now destruct (Q e He)|]. unfold busy in A. rewrite F1, F2 in A. cbn in A. lia.
  Qed.
End Run.
