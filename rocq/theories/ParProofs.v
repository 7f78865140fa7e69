(** Generic theorems on the interleaving semantics: no deadlock, termination, determinism. *)
From Coq Require Import List Arith Bool Lia Permutation.
From Verif Require Import ParModel.
Import ListNotations.

Lemma set_at_length {A} n (x : A) l : length (set_at n x l) = length l.
Proof.
  unfold set_at. rewrite app_length. destruct (skipn n l) as [|y r] eqn:E.
  - cbn. rewrite firstn_length. pose proof (f_equal (@length A) E) as H. rewrite skipn_length in H. cbn in H. lia.
  - cbn. rewrite firstn_length. pose proof (f_equal (@length A) E) as H. rewrite skipn_length in H. cbn in H. lia.
Qed.
Lemma set_at_nth {A} n (x : A) : forall l m, nth_error (set_at n x l) m = if Nat.eqb m n then (match nth_error l n with Some _ => Some x | None => None end) else nth_error l m.
Proof.
  unfold set_at. induction n as [|n IH]; intros [|y l] [|m]; cbn; try reflexivity.
  - now destruct (Nat.eqb m n).
  - apply IH.
Qed.
Lemma set_at_nil {A} n (x : A) : set_at n x [] = [].
Proof. unfold set_at. now rewrite firstn_nil, skipn_nil. Qed.
Lemma set_at_S {A} n (x y : A) l : set_at (S n) x (y :: l) = y :: set_at n x l.
Proof. reflexivity. Qed.
Lemma set_at_comm {A} i j (x y : A) : i <> j -> forall l, set_at i x (set_at j y l) = set_at j y (set_at i x l).
Proof.
  revert j. induction i as [|i IH]; intros [|j] D [|z l]; try (now elim D); try reflexivity; rewrite ?set_at_nil; try reflexivity.
  rewrite !set_at_S, IH; [reflexivity|congruence].
Qed.

Section Par.
  Context {S E : Type}.
  Implicit Types (s : @cstate S E) (ps : list (list (@instr S E))).

  (** * Counting *)
  Definition count (t : nat) (l : list nat) : nat := count_occ Nat.eq_dec l t.
  Definition remaining s : nat := list_sum (map (@length _) (c_progs s)).
  Lemma set_at_sum ps t i rest : nth_error ps t = Some (i :: rest) -> list_sum (map (@length _) ps) = Datatypes.S (list_sum (map (@length _) (set_at t rest ps))).
  Proof.
    revert t. induction ps as [|p ps IH]; intros [|t] H; cbn in H; try discriminate.
    - injection H as ->. reflexivity.
    - rewrite set_at_S. cbn [map]. change (length p + list_sum (map (@length _) ps) = Datatypes.S (length p + list_sum (map (@length _) (set_at t rest ps)))). rewrite (IH t H). lia.
  Qed.
  Lemma step_remaining s t s' : step s t s' -> remaining s = Datatypes.S (remaining s').
  Proof. intros [ps evs m t' i rest H _]. unfold remaining. cbn. now apply (set_at_sum ps t' i). Qed.
  Lemma exec_bounded s l s' : exec s l s' -> length l + remaining s' = remaining s.
  Proof. induction 1 as [|s t s1 l s2 H _ IH]; [reflexivity|]. apply step_remaining in H. cbn. lia. Qed.
  Lemma remaining_finished s : remaining s = 0 <-> finished s.
  Proof.
    unfold remaining, finished. induction (c_progs s) as [|p l IH]; cbn; [split; [intros _ q []|reflexivity]|]. rewrite Nat.eq_add_0, IH. split.
    - intros [A B] q [<-|H]; [now apply length_zero_iff_nil|auto].
    - intro H. split; [rewrite (H p (or_introl eq_refl)); reflexivity|auto].
  Qed.
  Lemma exec_app s l s1 l' s2 : exec s l s1 -> exec s1 l' s2 -> exec s (l ++ l') s2.
  Proof. induction 1; intro H'; [exact H'|]. cbn. econstructor; eauto. Qed.
  Lemma exec_split l : forall s l' s2, exec s (l ++ l') s2 -> exists s1, exec s l s1 /\ exec s1 l' s2.
  Proof.
    induction l as [|t l IH]; intros s l' s2 H; [exists s; split; [constructor|exact H]|]. inversion H as [|? ? s1 ? ? St R]; subst.
    destruct (IH _ _ _ R) as (s3 & A & B). exists s3. split; [econstructor; eauto|exact B].
  Qed.

  (** * What has been run *)
  Lemma exec_progs s l s' : exec s l s' -> forall t, nth_error (c_progs s') t = option_map (skipn (count t l)) (nth_error (c_progs s) t).
  Proof.
    induction 1 as [s|s t s1 l s2 H _ IH]; intro u; [now destruct (nth_error (c_progs s) u)|]. rewrite IH. destruct H as [ps evs m t i rest H _]. cbn [c_progs].
    rewrite set_at_nth. unfold count. cbn [count_occ]. destruct (Nat.eqb_spec u t) as [->|D].
    - rewrite H. cbn. destruct (Nat.eq_dec t t) as [_|N]; [|now elim N]. reflexivity.
    - destruct (Nat.eq_dec t u) as [->|_]; [now elim D|reflexivity].
  Qed.
  Lemma exec_progs_len s l s' : exec s l s' -> length (c_progs s') = length (c_progs s).
  Proof. induction 1 as [|s t s1 l s2 H _ IH]; [reflexivity|]. rewrite IH. destruct H. cbn. apply set_at_length. Qed.
  Lemma step_count s l s' t s'' : exec s l s' -> step s' t s'' -> exists p, nth_error (c_progs s) t = Some p /\ exists i, nth_error p (count t l) = Some i /\
    nth_error (c_progs s') t = Some (skipn (count t l) p) /\ (forall e, In e (needs i) -> In e (c_evs s')) /\ c_evs s'' = emits i ++ c_evs s' /\ c_mem s'' = act i (c_mem s').
  Proof.
    intros X H. pose proof (exec_progs _ _ _ X t) as P. destruct H as [ps evs m t i rest H N]. cbn [c_progs c_evs c_mem] in *. rewrite H in P.
    destruct (nth_error (c_progs s) t) as [p|] eqn:Ep; [|discriminate]. cbn in P. injection P as P. exists p. split; [reflexivity|]. exists i. split.
    - clear - P. revert p P. generalize (count t l). induction n as [|n IH]; intros [|x p] P; cbn in *; try discriminate; [congruence|]. now apply IH.
    - split; [now rewrite <- P|]. split; [assumption|]. split; reflexivity.
  Qed.

  (** positions run by a schedule, in order *)
  Fixpoint trace_from (done l : list nat) : list (nat * nat) :=
    match l with [] => [] | t :: l' => (t, count t done) :: trace_from (done ++ [t]) l' end.
  Definition trace (l : list nat) : list (nat * nat) := trace_from [] l.
  Lemma count_snoc t l u : count t (l ++ [u]) = count t l + (if Nat.eqb u t then 1 else 0).
  Proof. unfold count. rewrite count_occ_app. cbn. destruct (Nat.eq_dec u t) as [->|N]; [now rewrite Nat.eqb_refl|]. now destruct (Nat.eqb_spec u t). Qed.
  Lemma trace_app done l l' : trace_from done (l ++ l') = trace_from done l ++ trace_from (done ++ l) l'.
  Proof. revert done. induction l as [|t l IH]; intro done; cbn; [now rewrite app_nil_r|]. rewrite IH, <- app_assoc. reflexivity. Qed.
  Lemma trace_snoc l t : trace (l ++ [t]) = trace l ++ [(t, count t l)].
  Proof. unfold trace. rewrite trace_app. reflexivity. Qed.
  Lemma in_trace l t i : In (t, i) (trace l) <-> i < count t l.
  Proof.
    induction l as [|u l IH] using rev_ind; [cbn; lia|]. rewrite trace_snoc, in_app_iff, IH, count_snoc. cbn. destruct (Nat.eqb_spec u t) as [->|N].
    - split; [intros [H|[H|[]]]; [lia|injection H as <-; lia]|]. intro H. destruct (Nat.eq_dec i (count t l)) as [->|D]; [right; now left|left; lia].
    - split; [intros [H|[H|[]]]; [lia|injection H as H1 H2; contradiction]|]. intro H. left. lia.
  Qed.
  Lemma trace_nodup l : NoDup (trace l).
  Proof.
    induction l as [|u l IH] using rev_ind; [constructor|]. rewrite trace_snoc. apply NoDup_rev in IH. rewrite <- (rev_involutive (trace l ++ _)). apply NoDup_rev. rewrite rev_app_distr. cbn.
    constructor; [|exact IH]. rewrite <- in_rev, in_trace. lia.
  Qed.
  Definition acts ps (tr : list (nat * nat)) (m : S) : S := fold_left (fun m p => match at_pos ps p with Some i => act i m | None => m end) tr m.
  Definition given ps (tr : list (nat * nat)) (e : E) : Prop := exists p i, In p tr /\ at_pos ps p = Some i /\ In e (emits i).
  Lemma exec_snoc s l t s' : exec s (l ++ [t]) s' -> exists s1, exec s l s1 /\ step s1 t s'.
  Proof. intro H. destruct (exec_split _ _ _ _ H) as (s1 & A & B). exists s1. split; [exact A|]. inversion B as [|? ? ? ? ? St R]; subst. inversion R; subst. exact St. Qed.
  Lemma exec_mem ps m l s : exec (start ps m) l s -> c_mem s = acts ps (trace l) m /\ (forall e, In e (c_evs s) <-> given ps (trace l) e).
  Proof.
    revert s. induction l as [|t l IH] using rev_ind; intros s H.
    - inversion H; subst. cbn. split; [reflexivity|]. intro e. split; [intros []|intros (p & i & [] & _)].
    - apply exec_snoc in H as (s1 & X & St). destruct (IH s1 X) as [M EV]. destruct (step_count _ _ _ _ _ X St) as (p & P & i & I & _ & _ & V & A). cbn [start c_progs] in P.
      assert (AP : at_pos ps (t, count t l) = Some i) by (unfold at_pos; cbn; now rewrite P). rewrite trace_snoc. split.
      + unfold acts. rewrite fold_left_app. cbn. fold (acts ps (trace l) m). now rewrite AP, A, M.
      + intro e. rewrite V, in_app_iff, EV. split.
        * intros [H|(q & j & Q1 & Q2 & Q3)]; [exists (t, count t l), i; split; [apply in_or_app; right; now left|auto]|exists q, j; split; [apply in_or_app; now left|auto]].
        * intros (q & j & Q1 & Q2 & Q3). apply in_app_or in Q1 as [Q1|[<-|[]]]; [right; now exists q, j|left; congruence].
  Qed.
  Lemma finished_trace ps m l s : exec (start ps m) l s -> finished s -> forall t i, In (t, i) (trace l) <-> at_pos ps (t, i) <> None.
  Proof.
    intros X F t i. rewrite in_trace. pose proof (exec_progs _ _ _ X t) as P. cbn [start c_progs] in P. unfold at_pos. cbn [fst snd]. destruct (nth_error ps t) as [p|] eqn:Ep.
    - cbn in P. assert (Z : skipn (count t l) p = []) by (apply F; eapply nth_error_In; exact P). pose proof (f_equal (@length _) Z) as Z'. rewrite skipn_length in Z'. cbn in Z'.
      rewrite nth_error_Some. split; [|lia]. intro Hi. assert (C : count t l <= length p); [|lia]. clear - X Ep. revert s X. induction l as [|u l IH] using rev_ind; intros s X; [cbn; lia|].
      apply exec_snoc in X as (s1 & X & St). rewrite count_snoc. destruct (Nat.eqb_spec u t) as [->|]; [|specialize (IH _ X); lia].
      destruct (step_count _ _ _ _ _ X St) as (q & Q & i & I & _). cbn in Q. rewrite Ep in Q. injection Q as <-. assert (count t l < length p) by (apply nth_error_Some; congruence). lia.
    - split; [|now intros []]. intro Hi. exfalso. clear P F. revert s X Hi. induction l as [|u l IH] using rev_ind; intros s X Hi; [cbn in Hi; lia|].
      apply exec_snoc in X as (s1 & X & St). rewrite count_snoc in Hi. destruct (Nat.eqb_spec u t) as [->|]; [|apply (IH _ X); lia].
      destruct (step_count _ _ _ _ _ X St) as (q & Q & _). cbn in Q. congruence.
  Qed.

  (** * No deadlock: if one complete run exists, no run gets stuck before it is complete *)
  Theorem no_deadlock ps m ref fin l s : exec (start ps m) ref fin -> finished fin -> exec (start ps m) l s -> finished s \/ exists t s', step s t s'.
  Proof.
    intros XR FR X. destruct (Nat.eq_dec (remaining s) 0) as [Z|NZ]; [left; now apply remaining_finished|right].
    (* first step of the reference schedule that the run has not made *)
    assert (K : exists r1 t r2, ref = r1 ++ t :: r2 /\ (forall u, count u r1 <= count u l) /\ count t (r1 ++ [t]) > count t l).
    { assert (Big : exists t, count t l < count t ref).
      { destruct (Exists_dec (fun t => count t l < count t ref) (seq 0 (length ps))) as [H|H]; [intro; apply lt_dec|apply Exists_exists in H as (t & _ & H); now exists t|].
        exfalso. apply NZ. apply remaining_finished. intros p Hp. apply In_nth_error in Hp as [t Hp]. assert (Lt : t < length ps).
        { pose proof (exec_progs_len _ _ _ X) as LX. cbn [start c_progs] in LX. rewrite <- LX. apply nth_error_Some. congruence. }
        assert (Ge : count t ref <= count t l) by (apply Nat.nlt_ge; intro H'; apply H; apply Exists_exists; exists t; split; [apply in_seq; lia|assumption]).
        pose proof (exec_progs _ _ _ X t) as P. pose proof (exec_progs _ _ _ XR t) as Q. cbn [start c_progs] in P, Q. rewrite Hp in P.
        destruct (nth_error ps t) as [pt|]; [|discriminate]. cbn in P, Q. injection P as ->. assert (Z : skipn (count t ref) pt = []) by (apply FR; eapply nth_error_In; exact Q).
        apply length_zero_iff_nil. pose proof (f_equal (@length _) Z) as Z'. rewrite skipn_length in Z'. rewrite skipn_length. cbn in Z'. lia. }
      clear - Big. destruct Big as [t0 H0]. induction ref as [|t r IH] using rev_ind; [cbn in H0; lia|].
      destruct (Exists_dec (fun u => count u l < count u r) (nodup Nat.eq_dec (r ++ l))) as [H|H]; [intro; apply lt_dec| |].
      - apply Exists_exists in H as (u & _ & Hu). assert (G : forall v, count v l < count v r -> exists r1 t1 r2, r = r1 ++ t1 :: r2 /\ (forall w, count w r1 <= count w l) /\ count t1 (r1 ++ [t1]) > count t1 l).
        { clear - r. intros v Hv. revert v Hv. induction r as [|x r IHr] using rev_ind; intros v Hv; [cbn in Hv; lia|].
          destruct (Exists_dec (fun u => count u l < count u r) (r ++ l)) as [H|H]; [intro; apply lt_dec| |].
          - apply Exists_exists in H as (u & _ & Hu). destruct (IHr u Hu) as (r1 & t1 & r2 & -> & A & B). exists r1, t1, (r2 ++ [x]). rewrite <- app_assoc. auto.
          - assert (AL : forall w, count w r <= count w l).
            { intro w. apply Nat.nlt_ge. intro Hw. apply H. apply Exists_exists. exists w. split; [|exact Hw]. apply in_or_app. left. apply (count_occ_In Nat.eq_dec). unfold count in Hw. lia. }
            exists r, x, []. split; [reflexivity|]. split; [exact AL|]. rewrite count_snoc in Hv. destruct (Nat.eqb_spec x v) as [->|]; [rewrite count_snoc, Nat.eqb_refl; lia|specialize (AL v); lia]. }
        destruct (G u Hu) as (r1 & t1 & r2 & -> & A & B). exists r1, t1, (r2 ++ [t]). rewrite <- app_assoc. auto.
      - assert (AL : forall w, count w r <= count w l).
        { intro w. apply Nat.nlt_ge. intro Hw. apply H. apply Exists_exists. exists w. split; [|exact Hw]. apply nodup_In, in_or_app. left. apply (count_occ_In Nat.eq_dec). unfold count in Hw. lia. }
        exists r, t, []. split; [reflexivity|]. split; [exact AL|]. rewrite count_snoc in H0. destruct (Nat.eqb_spec t t0) as [->|]; [rewrite count_snoc, Nat.eqb_refl; lia|specialize (AL t0); lia]. }
    destruct K as (r1 & t & r2 & -> & AL & BIG). destruct (exec_split _ _ _ _ XR) as (s1 & X1 & X2). inversion X2 as [|? ? s2 ? ? St R]; subst.
    destruct (step_count _ _ _ _ _ X1 St) as (p & P & i & I & _ & N & _). cbn [start c_progs] in P.
    assert (C : count t r1 = count t l) by (rewrite count_snoc, Nat.eqb_refl in BIG; specialize (AL t); lia).
    pose proof (exec_progs _ _ _ X t) as PT. cbn [start c_progs] in PT. rewrite P in PT. cbn in PT. rewrite C in I.
    assert (SK : exists rest, skipn (count t l) p = i :: rest).
    { clear - I. revert p I. generalize (count t l). induction n as [|n IH]; intros [|x p] I; cbn in *; try discriminate; [injection I as ->; eauto|auto]. }
    destruct SK as [rest SK]. rewrite SK in PT. destruct s as [ps' evs' m']. exists t. eexists. econstructor; [exact PT|].
    intros e He. specialize (N e He). apply (proj2 (exec_mem _ _ _ _ X)). apply (proj2 (exec_mem _ _ _ _ X1)) in N. destruct N as ([u j] & q & Q1 & Q2 & Q3).
    exists (u, j), q. split; [|auto]. apply in_trace. apply in_trace in Q1. specialize (AL u). lia.
  Qed.

  (** * Determinism *)
  Definition before {A} (l : list A) (a b : A) : Prop := exists l1 l2 l3, l = l1 ++ a :: l2 ++ b :: l3.
  Lemma commute_front ps a x : at_pos ps a = Some x -> forall p m, (forall b y, In b p -> at_pos ps b = Some y -> forall m, act x (act y m) = act y (act x m)) ->
    acts ps (p ++ [a]) m = acts ps (a :: p) m.
  Proof.
    intros Ha. induction p as [|b p IH]; intros m H; [reflexivity|]. cbn [app]. unfold acts in *. cbn [fold_left]. rewrite IH; [|intros b' y' Hb' Hy'; apply (H b' y'); [now right|exact Hy']].
    cbn [fold_left]. rewrite Ha. destruct (at_pos ps b) as [y|] eqn:Eb; [|reflexivity]. f_equal. apply (H b y (or_introl eq_refl) Eb).
  Qed.
  Lemma same_result ps : forall l1 l2 m, NoDup l1 -> Permutation l1 l2 -> (forall p, In p l1 -> at_pos ps p <> None) ->
    (forall a b x y, before l1 a b -> before l2 b a -> at_pos ps a = Some x -> at_pos ps b = Some y -> forall m, act x (act y m) = act y (act x m)) -> acts ps l1 m = acts ps l2 m.
  Proof.
    induction l1 as [|a l1 IH]; intros l2 m ND P AT C.
    - apply Permutation_nil in P as ->. reflexivity.
    - assert (I : In a l2) by (eapply Permutation_in; [exact P|now left]). apply in_split in I as (p & q & ->).
      destruct (at_pos ps a) as [x|] eqn:Ha; [|exfalso; apply (AT a); [now left|exact Ha]]. inversion ND as [|? ? Na ND']; subst.
      pose proof (Permutation_cons_app_inv _ _ P) as P'.
      replace (p ++ a :: q) with ((p ++ [a]) ++ q) by now rewrite <- app_assoc. unfold acts at 2. rewrite fold_left_app. fold (acts ps (p ++ [a]) m).
      rewrite (commute_front ps a x Ha).
      + unfold acts. cbn [fold_left]. rewrite <- fold_left_app. apply (IH (p ++ q)); [assumption|assumption|intros; apply AT; now right|].
        intros b c y z B1 B2. apply (C b c y z).
        * destruct B1 as (u1 & u2 & u3 & ->). exists (a :: u1), u2, u3. reflexivity.
        * destruct B2 as (u1 & u2 & u3 & E2). clear - E2. revert u1 E2. induction p as [|z p IHp]; intros u1 E2.
          -- cbn in E2. subst q. exists (a :: u1), u2, u3. reflexivity.
          -- destruct u1 as [|w u1]; cbn in E2; injection E2 as E1 E2.
             ++ subst z. assert (G : exists v1 v2, p ++ a :: q = v1 ++ b :: v2).
                { clear - E2. revert u2 E2. induction p as [|z p IHp]; intros u2 E2; [cbn in E2; subst; exists (a :: u2), u3; reflexivity|].
                  destruct u2 as [|w u2]; cbn in E2; injection E2 as E1 E2; [subst z; exists [], (p ++ a :: q); reflexivity|]. destruct (IHp u2 E2) as (v1 & v2 & Hv). exists (z :: v1), v2. cbn. now rewrite Hv. }
                destruct G as (v1 & v2 & G). exists [], v1, v2. cbn. now rewrite G.
             ++ subst z. destruct (IHp u1 E2) as (v1 & v2 & v3 & Hv). exists (w :: v1), v2, v3. cbn. now rewrite Hv.
      + intros b y Hb Hy m'. apply (C a b x y); [| |assumption|assumption].
        * assert (Ib : In b l1). { eapply Permutation_in; [apply Permutation_sym; exact P'|apply in_or_app; now left]. }
          apply in_split in Ib as (u1 & u2 & ->). now exists [], u1, u2.
        * apply in_split in Hb as (u1 & u2 & ->). exists u1, u2, q. now rewrite <- app_assoc.
  Qed.
  (** every run respects happens-before *)
  Lemma before_nodup {A} (l : list A) a b : NoDup l -> before l a b -> ~ before l b a.
  Proof.
    intros ND (l1 & l2 & l3 & ->) (k1 & k2 & k3 & E0). revert k1 E0. induction l1 as [|x l1 IH]; intros [|y k1] E0; cbn in *.
    - injection E0 as -> E0. inversion ND as [|? ? N _]; subst. apply N. apply in_or_app. right. now left.
    - injection E0 as -> E0. inversion ND as [|? ? N ND2]; subst. apply N. rewrite E0. apply in_or_app. right. right. apply in_or_app. right. now left.
    - injection E0 as -> E0. inversion ND as [|? ? N ND2]; subst. apply N. apply in_or_app. right. right. apply in_or_app. right. now left.
    - injection E0 as -> E0. inversion ND; subst. eapply IH; eauto.
  Qed.
  Lemma before_trans {A} (l : list A) a b c : NoDup l -> before l a b -> before l b c -> before l a c.
  Proof.
    intros ND (l1 & l2 & l3 & ->) (k1 & k2 & k3 & E0). revert k1 E0. induction l1 as [|x l1 IH]; intros [|y k1] E0; cbn in *.
    - injection E0 as -> E0. exfalso. inversion ND as [|? ? N _]; subst. apply N. apply in_or_app. right. now left.
    - injection E0 as -> E0. exists [], (k1 ++ b :: k2), k3. cbn. rewrite E0, <- app_assoc. reflexivity.
    - injection E0 as -> E0. exfalso. inversion ND as [|? ? N ND2]; subst. apply N. apply in_or_app. right. right. apply in_or_app. right. now left.
    - injection E0 as -> E0. inversion ND; subst. destruct (IH H2 k1 E0) as (u1 & u2 & u3 & G). exists (y :: u1), u2, u3. cbn. now rewrite G.
  Qed.
  Lemma trace_split l t i : i < count t l -> exists l1 l2, l = l1 ++ t :: l2 /\ count t l1 = i.
  Proof.
    induction l as [|u l IH] using rev_ind; [cbn; lia|]. rewrite count_snoc. intro H. destruct (Nat.eqb_spec u t) as [->|N].
    - destruct (Nat.eq_dec i (count t l)) as [->|D]; [now exists l, []|]. destruct IH as (l1 & l2 & -> & C); [lia|]. exists l1, (l2 ++ [t]). now rewrite <- app_assoc.
    - destruct IH as (l1 & l2 & -> & C); [lia|]. exists l1, (l2 ++ [u]). now rewrite <- app_assoc.
  Qed.
  Lemma hb_left_at ps a b : hb ps a b -> at_pos ps b <> None -> at_pos ps a <> None.
  Proof.
    induction 1 as [t i j H|a b x y e A B _ _ _|a b c _ IH1 _ IH2]; intro N.
    - unfold at_pos in *. cbn [fst snd] in *. destruct (nth_error ps t); [|congruence]. apply nth_error_Some in N. apply nth_error_Some. lia.
    - congruence.
    - auto.
  Qed.
  Lemma hb_respected ps m l s : exec (start ps m) l s -> forall a b, hb ps a b -> In b (trace l) -> before (trace l) a b.
  Proof.
    intros X a b H. induction H as [t i j H|a b x y e A B Ee En U|a b c H1 IH1 H2 IH2]; intro I.
    - apply in_trace in I. destruct (trace_split _ _ _ I) as (l1 & l2 & -> & C). unfold trace. rewrite trace_app. cbn [app trace_from]. rewrite C.
      assert (I2 : In (t, i) (trace l1)) by (apply in_trace; lia). unfold trace in I2. apply in_split in I2 as (u1 & u2 & ->). exists u1, u2, (trace_from (l1 ++ [t]) l2). now rewrite <- app_assoc.
    - destruct b as [t j]. apply in_trace in I. destruct (trace_split _ _ _ I) as (l1 & l2 & -> & C). destruct (exec_split _ _ _ _ X) as (s1 & X1 & X2). inversion X2 as [|? ? s2 ? ? St _]; subst.
      destruct (step_count _ _ _ _ _ X1 St) as (p & P & i & Ip & _ & N & _). cbn [start c_progs] in P. assert (i = y) as -> by (unfold at_pos in B; cbn in B; rewrite P in B; congruence).
      specialize (N e En). apply (proj2 (exec_mem _ _ _ _ X1)) in N as (q & z & Q1 & Q2 & Q3). rewrite (U q z Q2 Q3) in Q1.
      unfold trace in *. rewrite trace_app. cbn [app trace_from]. apply in_split in Q1 as (u1 & u2 & ->). exists u1, u2, (trace_from (l1 ++ [t]) l2). now rewrite <- app_assoc.
    - specialize (IH2 I). assert (I2 : In b (trace l)) by (destruct IH2 as (u1 & u2 & u3 & ->); apply in_or_app; right; now left).
      eapply before_trans; [apply trace_nodup|exact (IH1 I2)|exact IH2].
  Qed.
  Theorem deterministic ps m l s l' s' : ordered_conflicts ps -> exec (start ps m) l s -> finished s -> exec (start ps m) l' s' -> finished s' -> c_mem s = c_mem s'.
  Proof.
    intros OC X F X' F'. rewrite (proj1 (exec_mem _ _ _ _ X)), (proj1 (exec_mem _ _ _ _ X')). apply same_result.
    - apply trace_nodup.
    - apply NoDup_Permutation; [apply trace_nodup|apply trace_nodup|]. intros [t i]. rewrite (finished_trace _ _ _ _ X F), (finished_trace _ _ _ _ X' F'). reflexivity.
    - intros [t i] I. now apply (finished_trace _ _ _ _ X F) in I.
    - intros a b x y B1 B2 Ha Hb. destruct (Nat.eq_dec (fst a) (fst b)) as [Eq|D].
      + exfalso. destruct a as [t i], b as [u j]. cbn in Eq. subst u. destruct (Nat.lt_trichotomy i j) as [H|[<-|H]].
        * apply (before_nodup _ _ _ (trace_nodup l') (hb_respected _ _ _ _ X' (t, i) (t, j) (hb_po _ _ _ _ _ _ H) ltac:(destruct B2 as (u1 & u2 & u3 & ->); apply in_or_app; right; now left)) B2).
        * apply (before_nodup _ _ _ (trace_nodup l) B1 B1).
        * apply (before_nodup _ _ _ (trace_nodup l) (hb_respected _ _ _ _ X (t, j) (t, i) (hb_po _ _ _ _ _ _ H) ltac:(destruct B1 as (u1 & u2 & u3 & ->); apply in_or_app; right; now left)) B1).
      + destruct (OC a b x y Ha Hb D) as [C|[C|C]]; [exact C| |]; exfalso.
        * apply (before_nodup _ _ _ (trace_nodup l') (hb_respected _ _ _ _ X' a b C ltac:(destruct B2 as (u1 & u2 & u3 & ->); apply in_or_app; right; now left)) B2).
        * apply (before_nodup _ _ _ (trace_nodup l) (hb_respected _ _ _ _ X b a C ltac:(destruct B1 as (u1 & u2 & u3 & ->); apply in_or_app; right; now left)) B1).
  Qed.

  (** * Building a complete run *)
  Definition run_instrs (p : list (instr S E)) (m : S) : S := fold_left (fun m i => act i m) p m.
  Lemma set_at_same {A} n (x : A) l : nth_error l n = Some x -> set_at n x l = l.
  Proof. revert n. induction l as [|y l IH]; intros [|n] H; cbn in H; try discriminate; [now injection H as ->|]. rewrite set_at_S, IH; auto. Qed.
  Lemma set_at_twice {A} n (x y : A) l : set_at n x (set_at n y l) = set_at n x l.
  Proof. revert n. induction l as [|z l IH]; intros [|n]; rewrite ?set_at_nil; try reflexivity. rewrite !set_at_S, IH. reflexivity. Qed.
  Lemma run_prefix p1 : forall ps t p2 evs m, nth_error ps t = Some (p1 ++ p2) -> (forall i e, In i p1 -> In e (needs i) -> In e evs) ->
    exists l evs', exec (mk_cstate ps evs m) l (mk_cstate (set_at t p2 ps) evs' (run_instrs p1 m)) /\ incl evs evs' /\ (forall i e, In i p1 -> In e (emits i) -> In e evs').
  Proof.
    induction p1 as [|i p1 IH]; intros ps t p2 evs m Hp N.
    - exists [], evs. cbn in *. rewrite (set_at_same _ _ _ Hp). split; [constructor|]. split; [apply incl_refl|intros i e []].
    - cbn [app] in Hp. destruct (IH (set_at t (p1 ++ p2) ps) t p2 (emits i ++ evs) (act i m)) as (l & evs' & X & I & Em).
      + rewrite set_at_nth, Nat.eqb_refl, Hp. reflexivity.
      + intros j e Hj He. apply in_or_app. right. eapply N; [right; exact Hj|exact He].
      + exists (t :: l), evs'. rewrite set_at_twice in X. split; [|split].
        * econstructor; [|exact X]. constructor; [exact Hp|]. intros e He. apply (N i e (or_introl eq_refl) He).
        * intros e He. apply I, in_or_app. now right.
        * intros j e [<-|Hj] He; [apply I, in_or_app; now left|eapply Em; eauto].
  Qed.
  Lemma run_main p1 p2 rest evs m : (forall i e, In i p1 -> In e (needs i) -> In e evs) ->
    exists l evs', exec (mk_cstate ((p1 ++ p2) :: rest) evs m) l (mk_cstate (p2 :: rest) evs' (run_instrs p1 m)) /\ incl evs evs' /\ (forall i e, In i p1 -> In e (emits i) -> In e evs').
  Proof. intro N. apply (run_prefix p1 ((p1 ++ p2) :: rest) 0 p2 evs m eq_refl N). Qed.
  Lemma run_workers (pre post : nat -> list (instr S E)) mainp : forall todo pdone evs m, (forall w i e, In w todo -> In i (pre w) -> In e (needs i) -> In e evs) ->
    exists l evs', exec (mk_cstate (mainp :: pdone ++ map (fun w => pre w ++ post w) todo) evs m) l (mk_cstate (mainp :: pdone ++ map post todo) evs' (run_instrs (flat_map pre todo) m)) /\
      incl evs evs' /\ (forall w i e, In w todo -> In i (pre w) -> In e (emits i) -> In e evs').
  Proof.
    induction todo as [|w todo IH]; intros pdone evs m N.
    - exists [], evs. split; [constructor|]. split; [apply incl_refl|intros w i e []].
    - cbn [map flat_map]. destruct (run_prefix (pre w) (mainp :: pdone ++ (pre w ++ post w) :: map (fun w => pre w ++ post w) todo) (Datatypes.S (length pdone)) (post w) evs m) as (l & evs1 & X & I & Em).
      + cbn. rewrite nth_error_app2, Nat.sub_diag; [reflexivity|lia].
      + intros i e Hi He. eapply N; [now left|exact Hi|exact He].
      + destruct (IH (pdone ++ [post w]) evs1 (run_instrs (pre w) m)) as (l2 & evs2 & X2 & I2 & Em2).
        { intros w' i e Hw Hi He. apply I. eapply N; [right; exact Hw|exact Hi|exact He]. }
        exists (l ++ l2), evs2. split; [|split].
        * eapply exec_app; [exact X|]. assert (Q : set_at (Datatypes.S (length pdone)) (post w) (mainp :: pdone ++ (pre w ++ post w) :: map (fun w => pre w ++ post w) todo) = mainp :: (pdone ++ [post w]) ++ map (fun w => pre w ++ post w) todo).
          { rewrite set_at_S, <- app_assoc. f_equal. clear. induction pdone as [|x pd IH]; [reflexivity|]. cbn [length app]. now rewrite set_at_S, IH. }
          rewrite Q. replace (pdone ++ post w :: map post todo) with ((pdone ++ [post w]) ++ map post todo) by now rewrite <- app_assoc. unfold run_instrs in *. rewrite fold_left_app. exact X2.
        * intros e He. apply I2, I, He.
        * intros w' i e [<-|Hw] Hi He; [apply I2; eapply Em; eauto|eapply Em2; eauto].
  Qed.
  (** * Uniqueness of signals *)
  Lemma emits_unique (l : list (instr S E)) i j x y e : nth_error l i = Some x -> nth_error l j = Some y -> In e (emits x) -> In e (emits y) -> NoDup (flat_map emits l) -> i = j.
  Proof.
    revert i j. induction l as [|z l IH]; intros i j Hi Hj Ex Ey ND; [destruct i; discriminate|]. cbn in ND.
    assert (D : forall e, In e (emits z) -> ~ In e (flat_map emits l)).
    { clear - ND. intros e He. induction (emits z) as [|a r IHr]; [destruct He|]. cbn in ND. inversion ND; subst. destruct He as [->|He]; [intro Q; apply H1, in_or_app; now right|auto]. }
    destruct i as [|i], j as [|j]; cbn in Hi, Hj; [reflexivity| | |].
    - injection Hi as ->. exfalso. apply (D e Ex). apply in_flat_map. exists y. split; [eapply nth_error_In; exact Hj|exact Ey].
    - injection Hj as ->. exfalso. apply (D e Ey). apply in_flat_map. exists x. split; [eapply nth_error_In; exact Hi|exact Ex].
    - f_equal. apply (IH i j); auto. clear - ND. induction (emits z) as [|a r IHr]; [exact ND|]. cbn in ND. inversion ND; subst. auto.
  Qed.
End Par.
