(** Proofs about tensors made on first use: schedules. *)
From Coq Require Import List Arith Bool Lia.
From Verif Require Import MtenModel MtenSpec MtenProofs.
Import ListNotations.

Section P.
  Variables (total : nat) (can_fc : bool).
  Notation tstep := (tstep total can_fc).
  Notation trun := (trun total can_fc).
  Notation thread_step := (thread_step total can_fc).

  Record inv (F : Prop) (st : tstate) : Prop := mk_inv {
    in_cons : consistent total (st_shared st);
    in_full : F -> sh_known (st_shared st) = total;
    in_threads : forall i t, nth_error (st_threads st) i = Some t -> thread_ok total can_fc F (st_shared st) t;
    in_alone : sh_cg (st_shared st) = None -> length (st_threads st) <= 1 }.

  Lemma inv_step F i st st' : inv F st -> tstep i st = Some st' -> inv F st' /\ later (st_shared st) (st_shared st').
  Proof.
    intros V H. unfold MtenModel.tstep in H. destruct (nth_error (st_threads st) i) as [t|] eqn:N; [|discriminate].
    destruct (thread_step (no_reader (st_threads st)) t (st_shared st)) as [[t' s']|] eqn:T; [|discriminate]. injection H as <-. cbn [st_shared st_threads].
    destruct (step_ok total can_fc F _ _ _ _ _ (in_cons _ _ V) (in_full _ _ V) (in_threads _ _ V _ _ N) T) as (C & L & K & O).
    split; [|exact L]. split; cbn [st_shared st_threads]; [exact C|exact K| |].
    - intros j u E. rewrite (put_nth _ _ _ _ _ _ N) in E. destruct (Nat.eqb j i) eqn:Eij; [injection E as <-; exact O|].
      apply Nat.eqb_neq in Eij.
      assert (G : sh_cg (st_shared st) <> None).
      { intros G. pose proof (in_alone _ _ V G) as Le. assert (i < length (st_threads st)) by (apply nth_error_Some; congruence). assert (j < length (st_threads st)) by (apply nth_error_Some; congruence). lia. }
      destruct (in_threads _ _ V _ _ E) as (P & Lg & Lf). split; [exact (pc_later _ _ _ _ _ L C G P)|]. split; [exact (log_later _ _ _ _ _ L C Lg)|exact Lf].
    - intros G. rewrite (put_length _ _ _ _ _ N). apply (in_alone _ _ V). destruct (sh_cg (st_shared st)) as [x|] eqn:E; [|reflexivity].
      exfalso. apply (later_cg _ _ L); [congruence|exact G].
  Qed.
  Lemma later_trans F st s2 : inv F st -> later (st_shared st) s2 -> forall s3, later s2 s3 -> (forall q id n, sh_obj q (st_shared st) = Some (id, n) -> exists n', sh_obj q s3 = Some (id, n') /\ n <= n').
  Proof.
    intros _ L1 s3 L2 q id n E. destruct (la_obj _ _ L1 _ _ _ E) as (n1 & E1 & H1). destruct (la_obj _ _ L2 _ _ _ E1) as (n2 & E2 & H2). exists n2. split; [exact E2|lia].
  Qed.
  Lemma inv_run F : forall sched st, inv F st -> inv F (trun sched st) /\ forall q id n, sh_obj q (st_shared st) = Some (id, n) -> exists n', sh_obj q (st_shared (trun sched st)) = Some (id, n') /\ n <= n'.
  Proof.
    induction sched as [|i r IH]; intros st V; cbn [MtenModel.trun].
    - split; [exact V|]. intros q id n E. exists n. split; [exact E|lia].
    - destruct (tstep i st) as [st'|] eqn:E.
      + destruct (inv_step F i st st' V E) as (V' & L). destruct (IH st' V') as (V2 & L2). split; [exact V2|].
        intros q id n Eo. destruct (la_obj _ _ L _ _ _ Eo) as (n1 & E1 & H1). destruct (L2 _ _ _ E1) as (n2 & E2 & H2). exists n2. split; [exact E2|lia].
      + exact (IH st V).
  Qed.
  Lemma inv_start (F : Prop) s progs : consistent total s -> (F -> sh_known s = total) -> sh_cg s <> None \/ length progs <= 1 -> inv F (tstart s progs).
  Proof.
    intros C K O. split; cbn [tstart st_shared st_threads]; [exact C|exact K| |].
    - intros i t E. rewrite nth_error_map in E. destruct (nth_error progs i) as [p|]; [|discriminate]. injection E as <-. split; [exact I|]. split; [intros q o []|intros _ q o []].
    - intros G. rewrite map_length. destruct O as [O|O]; [congruence|exact O].
  Qed.

  Lemma safe s progs sched : consistent total s -> sh_cg s <> None \/ length progs <= 1 -> consistent total (st_shared (trun sched (tstart s progs))).
  Proof. intros C O. apply (in_cons False). apply inv_run. apply inv_start; [exact C|intros []|exact O]. Qed.
  Lemma use_ok s progs sched i q b : consistent total s -> sh_cg s <> None \/ length progs <= 1 ->
    in_use (trun sched (tstart s progs)) i q b -> usable total q b (st_shared (trun sched (tstart s progs))).
  Proof.
    intros C O (t & N & P). assert (V : inv False (trun sched (tstart s progs))) by (apply inv_run, inv_start; [exact C|intros []|exact O]).
    destruct (in_threads _ _ V _ _ N) as (PO & _). rewrite P in PO. cbn in PO. destruct PO as (R & (id & n & E & B) & _).
    destruct (req_object q R) as [(-> & _)|(Q & _)].
    - exists id, n, n. split; [exact E|]. split; [exact E|exact B].
    - destruct (co_obj _ _ (in_cons _ _ V) q id n Q E) as (m & Em & _). exists id, n, m. split; [exact E|]. split; [exact Em|exact B].
  Qed.
  Lemma answer_full s progs sched i q o : consistent total s -> sh_cg s <> None \/ length progs <= 1 -> sh_known s = total -> (q = TCg \/ q = TFc \/ q = TPt) ->
    answers (trun sched (tstart s progs)) i q o -> o = Some true \/ o = None /\ q = TFc /\ can_fc = false.
  Proof.
    intros C O K Q (t & N & I0). assert (V : inv True (trun sched (tstart s progs))) by (apply inv_run, inv_start; [exact C|intros _; exact K|exact O]).
    destruct (in_threads _ _ V _ _ N) as (_ & _ & LF). assert (R : real_req q) by (destruct Q as [->|[->| ->]]; exact I).
    destruct (LF I q o I0 R) as [X|X]; [right; exact X|left; exact X].
  Qed.
  Lemma answer_true s progs sched i q o : consistent total s -> sh_cg s <> None \/ length progs <= 1 -> (q = TCg \/ q = TFc \/ q = TPt) ->
    answers (trun sched (tstart s progs)) i q o -> (o = None /\ q = TFc /\ can_fc = false) \/ exists b, o = Some b /\ usable total q b (st_shared (trun sched (tstart s progs))).
  Proof.
    intros C O Q (t & N & I0). assert (V : inv False (trun sched (tstart s progs))) by (apply inv_run, inv_start; [exact C|intros []|exact O]).
    destruct (in_threads _ _ V _ _ N) as (_ & LG & _). assert (R : real_req q) by (destruct Q as [->|[->| ->]]; exact I).
    destruct (LG q o I0 R) as [X|(b & E & (id & n & En & B))]; [left; exact X|right]. exists b. split; [exact E|].
    destruct (req_object q R) as [(-> & _)|(Q' & _)].
    - exists id, n, n. split; [exact En|]. split; [exact En|exact B].
    - destruct (co_obj _ _ (in_cons _ _ V) q id n Q' En) as (m & Em & _). exists id, n, m. split; [exact En|]. split; [exact Em|exact B].
  Qed.
  Lemma run_app : forall a b st, trun (a ++ b) st = trun b (trun a st).
  Proof. induction a as [|i a IH]; intros b st; [reflexivity|]. cbn [app MtenModel.trun]. apply IH. Qed.
  Lemma kept s progs sched more q id n : consistent total s -> sh_cg s <> None \/ length progs <= 1 ->
    sh_obj q (st_shared (trun sched (tstart s progs))) = Some (id, n) ->
    exists n', sh_obj q (st_shared (trun (sched ++ more) (tstart s progs))) = Some (id, n') /\ n <= n'.
  Proof.
    intros C O E. rewrite run_app. assert (V : inv False (trun sched (tstart s progs))) by (apply inv_run, inv_start; [exact C|intros []|exact O]).
    exact (proj2 (inv_run False more _ V) q id n E).
  Qed.

  (** ** No deadlock, termination, answers in order; no hypothesis *)
  Lemma goes alone t s : alone = true \/ holds (tt_pc t) = true -> ~ finished t -> thread_step alone t s <> None.
  Proof.
    intros A NF. unfold MtenModel.thread_step, finished in *. destruct (tt_pc t) as [|q|q|q|q b|q|q|q|q b|q b]; cbn [holds] in A.
    - destruct A as [->|A]; [|discriminate]. destruct (tt_todo t) as [|[| | |n] r]; [exfalso; apply NF; split; reflexivity|discriminate..].
    - destruct (sh_cg s) as [x|]; [destruct (complete total x)|]; discriminate.
    - destruct A as [->|A]; discriminate.
    - destruct A as [->|A]; [|discriminate]. destruct (sh_cg s) as [[id n]|]; discriminate.
    - discriminate.
    - destruct (sh_obj q s) as [x|]; [destruct (complete total x); discriminate|]. destruct (match q with TFc => can_fc | _ => true end); discriminate.
    - destruct A as [->|A]; [|discriminate]. destruct (sh_obj q s) as [x|]; [discriminate|]. destruct (sh_cg s) as [x|]; discriminate.
    - destruct A as [->|A]; [|discriminate]. destruct (sh_obj q s) as [[r n]|]; [|discriminate]. destruct (Nat.eqb n total); [discriminate|]. destruct (deref r s) as [[x m]|]; discriminate.
    - discriminate.
    - destruct q; [destruct (sh_obj TCg s)|destruct (sh_obj TFc s) as [[r m]|]|destruct (sh_obj TPt s) as [[r m]|]|destruct (sh_obj (TGrow n) s) as [[r m]|]]; discriminate.
  Qed.
  Lemma progress st : (exists i t, nth_error (st_threads st) i = Some t /\ ~ finished t) -> exists i st', tstep i st = Some st'.
  Proof.
    intros (i & t & N & NF). destruct (no_reader (st_threads st)) eqn:R.
    - pose proof (goes true t (st_shared st) (or_introl eq_refl) NF) as G. exists i. unfold MtenModel.tstep. rewrite N, R.
      destruct (thread_step true t (st_shared st)) as [[t' s']|]; [eexists; reflexivity|congruence].
    - assert (X : exists u, In u (st_threads st) /\ holds (tt_pc u) = true).
      { clear N. unfold no_reader in R. induction (st_threads st) as [|u l IH]; [discriminate|]. cbn in R. destruct (holds (tt_pc u)) eqn:E; [exists u; split; [left; reflexivity|exact E]|].
        destruct (IH R) as (u' & I' & E'). exists u'. split; [right; exact I'|exact E']. }
      destruct X as (u & Iu & Hu). apply In_nth_error in Iu. destruct Iu as (j & Nj).
      assert (NFu : ~ finished u) by (intros (_ & E); rewrite E in Hu; discriminate).
      pose proof (goes false u (st_shared st) (or_intror Hu) NFu) as G. exists j. unfold MtenModel.tstep. rewrite Nj, R.
      destruct (thread_step false u (st_shared st)) as [[t' s']|]; [eexists; reflexivity|congruence].
  Qed.

  Definition pc_left (p : tpc) : nat := match p with Idle => 0 | CgTest _ => 7 | CgMake _ | CgFill _ => 6 | CgBack _ _ => 5 | ObTest _ => 4 | ObMake _ | ObFill _ => 3 | ObBack _ _ => 2 | Use _ _ => 1 end.
  Definition left_of (t : tthread) : nat := pc_left (tt_pc t) + request_steps * length (tt_todo t).
  Definition pc_req (p : tpc) : list treq := match p with Idle => [] | CgTest q | CgMake q | CgFill q | CgBack q _ | ObTest q | ObMake q | ObFill q | ObBack q _ | Use q _ => [q] end.
  Definition all_of (t : tthread) : list treq := map fst (tt_log t) ++ pc_req (tt_pc t) ++ tt_todo t.
  Lemma after_left q b : pc_left (after_cg q b) <= 4.
  Proof. destruct q; cbn; lia. Qed.
  Lemma after_req q b : pc_req (after_cg q b) = [q].
  Proof. destruct q; reflexivity. Qed.
  Lemma step_left alone t s t' s' : thread_step alone t s = Some (t', s') -> left_of t' < left_of t /\ all_of t' = all_of t.
  Proof.
    intros H. unfold MtenModel.thread_step in H. unfold left_of, all_of.
    assert (go : forall p s1, pc_left p < pc_left (tt_pc t) -> pc_req p = pc_req (tt_pc t) -> Some (mk_tt (tt_todo t) p (tt_log t), s1) = Some (t', s') ->
       pc_left (tt_pc t') + request_steps * length (tt_todo t') < pc_left (tt_pc t) + request_steps * length (tt_todo t) /\ map fst (tt_log t') ++ pc_req (tt_pc t') ++ tt_todo t' = map fst (tt_log t) ++ pc_req (tt_pc t) ++ tt_todo t).
    { intros p s1 L R E. injection E as <- <-. cbn [tt_pc tt_todo tt_log]. rewrite R. split; [lia|reflexivity]. }
    assert (an : forall q o s1, tt_pc t <> Idle -> pc_req (tt_pc t) = [q] -> Some (mk_tt (tt_todo t) Idle (tt_log t ++ [(q, o)]), s1) = Some (t', s') ->
       pc_left (tt_pc t') + request_steps * length (tt_todo t') < pc_left (tt_pc t) + request_steps * length (tt_todo t) /\ map fst (tt_log t') ++ pc_req (tt_pc t') ++ tt_todo t' = map fst (tt_log t) ++ pc_req (tt_pc t) ++ tt_todo t).
    { intros q o s1 NI R E. injection E as <- <-. cbn [tt_pc tt_todo tt_log]. rewrite R, map_app, <- app_assoc. split; [|reflexivity]. destruct (tt_pc t); cbn; (congruence || lia). }
    destruct (tt_pc t) as [|q|q|q|q b|q|q|q|q b|q b] eqn:Ep.
    - clear go an. destruct (tt_todo t) as [|[| | |n] r] eqn:Et; [discriminate| | | |].
      1-3: injection H as <- <-; cbn; split; [lia|reflexivity].
      destruct alone; [|discriminate]. injection H as <- <-. cbn. rewrite map_app, <- app_assoc. split; [lia|reflexivity].
    - destruct (sh_cg s) as [x|]; [destruct (complete total x)|]; (eapply go; [..|exact H]; [first [apply (Nat.le_lt_trans _ _ _ (after_left q true)); cbn; lia|cbn; lia]|first [apply after_req|reflexivity]]).
    - destruct alone; [|discriminate]. eapply go; [..|exact H]; [cbn; lia|reflexivity].
    - destruct alone; [|discriminate]. destruct (sh_cg s) as [[id n]|]; (eapply go; [..|exact H]; [cbn; lia|reflexivity]).
    - eapply go; [..|exact H]; [apply (Nat.le_lt_trans _ _ _ (after_left q b)); cbn; lia|apply after_req].
    - destruct (sh_obj q s) as [x|]; [destruct (complete total x); (eapply go; [..|exact H]; [cbn; lia|reflexivity])|].
      destruct (match q with TFc => can_fc | _ => true end); [eapply go; [..|exact H]; [cbn; lia|reflexivity]|eapply an; [..|exact H]; [discriminate|reflexivity]].
    - destruct alone; [|discriminate]. destruct (sh_obj q s) as [x|]; [|destruct (sh_cg s) as [x|]]; (eapply go; [..|exact H]; [cbn; lia|reflexivity]).
    - destruct alone; [|discriminate]. destruct (sh_obj q s) as [[r n]|]; [|eapply go; [..|exact H]; [cbn; lia|reflexivity]].
      destruct (Nat.eqb n total); [eapply go; [..|exact H]; [cbn; lia|reflexivity]|]. destruct (deref r s) as [[x m]|]; (eapply go; [..|exact H]; [cbn; lia|reflexivity]).
    - eapply go; [..|exact H]; [cbn; lia|reflexivity].
    - assert (X : exists s1, Some (mk_tt (tt_todo t) Idle (tt_log t ++ [(q, Some b)]), s1) = Some (t', s')).
      { rewrite <- H. destruct q; [destruct (sh_obj TCg s)|destruct (sh_obj TFc s) as [[r m]|]|destruct (sh_obj TPt s) as [[r m]|]|destruct (sh_obj (TGrow n) s) as [[r m]|]]; eexists; reflexivity. }
      destruct X as (s1 & X). eapply an; [..|exact X]; [discriminate|reflexivity].
  Qed.
  Definition total_left (l : list tthread) : nat := list_sum (map left_of l).
  Lemma put_left : forall l i t x, nth_error l i = Some t -> total_left (firstn i l ++ x :: skipn (S i) l) + left_of t = total_left l + left_of x.
  Proof.
    unfold total_left. induction l as [|y l IH]; intros i t x H; [destruct i; discriminate|]. destruct i as [|i]; cbn in H.
    - injection H as ->. cbn. lia.
    - pose proof (IH i t x H) as E. change (skipn (S (S i)) (y :: l)) with (skipn (S i) l). cbn [firstn app map list_sum fold_right] in *. unfold list_sum in *. cbn [fold_right]. lia.
  Qed.
  Lemma tstep_left i st st' : tstep i st = Some st' -> total_left (st_threads st') < total_left (st_threads st).
  Proof.
    intros H. unfold MtenModel.tstep in H. destruct (nth_error (st_threads st) i) as [t|] eqn:N; [|discriminate].
    destruct (thread_step (no_reader (st_threads st)) t (st_shared st)) as [[t' s']|] eqn:T; [|discriminate]. injection H as <-. cbn [st_threads].
    pose proof (put_left _ _ _ t' N) as A. pose proof (proj1 (step_left _ _ _ _ _ T)) as B. change (total_left (firstn i (st_threads st) ++ t' :: skipn (S i) (st_threads st)) < total_left (st_threads st)). lia.
  Qed.
  Lemma taken_bound : forall sched st, taken total can_fc sched st <= total_left (st_threads st).
  Proof.
    induction sched as [|i r IH]; intros st; cbn [taken]; [lia|]. destruct (tstep i st) as [st'|] eqn:E; [|apply IH]. pose proof (tstep_left i st st' E). specialize (IH st'). lia.
  Qed.
  Lemma start_left s progs : total_left (st_threads (tstart s progs)) = request_steps * length (concat progs).
  Proof.
    unfold total_left. cbn [tstart st_threads]. induction progs as [|p l IH]; [reflexivity|]. cbn [map list_sum fold_right concat] in *. unfold list_sum in *. cbn [fold_right map]. rewrite IH, app_length. unfold left_of. cbn [tt_pc tt_todo pc_left]. lia.
  Qed.
  Lemma bounded s progs sched : taken total can_fc sched (tstart s progs) <= request_steps * length (concat progs).
  Proof. rewrite <- (start_left s progs). apply taken_bound. Qed.

  Definition keeps (progs : list (list treq)) (st : tstate) : Prop := length (st_threads st) = length progs /\ forall i t, nth_error (st_threads st) i = Some t -> nth_error progs i = Some (all_of t).
  Lemma keeps_run progs : forall sched st, keeps progs st -> keeps progs (trun sched st).
  Proof.
    induction sched as [|i r IH]; intros st V; cbn [MtenModel.trun]; [exact V|]. apply IH. destruct (tstep i st) as [st'|] eqn:E; [|exact V].
    unfold MtenModel.tstep in E. destruct (nth_error (st_threads st) i) as [t|] eqn:N; [|discriminate].
    destruct (thread_step (no_reader (st_threads st)) t (st_shared st)) as [[t' s']|] eqn:T; [|discriminate]. injection E as <-. destruct V as (VL & VT). split; cbn [st_threads].
    - rewrite (put_length _ _ _ _ _ N). exact VL.
    - intros j u H. rewrite (put_nth _ _ _ _ _ _ N) in H. destruct (Nat.eqb j i) eqn:Eij; [|exact (VT j u H)]. apply Nat.eqb_eq in Eij. subst j. injection H as <-. rewrite (proj2 (step_left _ _ _ _ _ T)). exact (VT i t N).
  Qed.
  Lemma in_order s progs sched i t : nth_error (st_threads (trun sched (tstart s progs))) i = Some t ->
    exists p, nth_error progs i = Some p /\ (exists rest, p = map fst (tt_log t) ++ rest) /\ (finished t -> map fst (tt_log t) = p).
  Proof.
    intros N. assert (V : keeps progs (trun sched (tstart s progs))).
    { apply keeps_run. split; cbn [tstart st_threads]; [apply map_length|]. intros j u E. rewrite nth_error_map in E. destruct (nth_error progs j) as [p|]; [|discriminate]. injection E as <-. reflexivity. }
    exists (all_of t). split; [exact (proj2 V i t N)|]. split; [eexists; reflexivity|]. intros (E1 & E2). unfold all_of. rewrite E1, E2. cbn. symmetry. apply app_nil_r.
  Qed.
  Lemma ends s progs sched : (forall i st', tstep i (trun sched (tstart s progs)) <> Some st') -> forall i t, nth_error (st_threads (trun sched (tstart s progs))) i = Some t -> finished t.
  Proof.
    intros H i t N. destruct (tt_todo t) as [|x l] eqn:Et; [destruct (tt_pc t) eqn:Ep; [split; assumption|..]|];
      (exfalso; destruct (progress (trun sched (tstart s progs))) as (j & st' & E); [exists i, t; split; [exact N|intros (F1 & F2); congruence]|exact (H j st' E)]).
  Qed.
End P.
