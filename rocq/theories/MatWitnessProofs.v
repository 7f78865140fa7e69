(** Concrete runs of the parallel factory, and the deadlock after an exception. *)
From Coq Require Import List NArith Arith Bool Lia.
From Verif Require Import CoreModel CoreSpec CoreProofs AlgModel AlgSpec AlgProofs AlgWitnessProofs PauliModel PauliSpec PauliProofs PauliFinalProofs ParModel ParProofs MatModel MatSpec MatProofs MatRunProofs MatInstModel MatInstSpec.
Import ListNotations.

Section Runner.
  Context {S E : Type} (eqb : E -> E -> bool).
  Hypothesis eqb_ok : forall x y, eqb x y = true <-> x = y.
  Definition inb (e : E) (l : list E) : bool := existsb (eqb e) l.
  Lemma inb_in e l : inb e l = true <-> In e l.
  Proof. unfold inb. rewrite existsb_exists. split; [intros (x & H & K); apply eqb_ok in K; now subst|intro H; exists e; split; [exact H|now apply eqb_ok]]. Qed.
  Definition move (s : cstate S E) (t : nat) : option (cstate S E) :=
    match nth_error (c_progs s) t with
    | Some (i :: rest) => if forallb (fun e => inb e (c_evs s)) (needs i)
                          then Some (mk_cstate (set_at t rest (c_progs s)) (emits i ++ c_evs s) (act i (c_mem s))) else None
    | _ => None
    end.
  Fixpoint moves (s : cstate S E) (l : list nat) : option (cstate S E) :=
    match l with [] => Some s | t :: l' => match move s t with Some s' => moves s' l' | None => None end end.
  Lemma move_step s t s' : move s t = Some s' <-> step s t s'.
  Proof.
    destruct s as [ps evs m]. unfold move. cbn. split.
    - destruct (nth_error ps t) as [[|i rest]|] eqn:H; try discriminate. destruct (forallb _ _) eqn:F; [|discriminate]. intro X. injection X as <-.
      constructor; [exact H|]. intros e He. rewrite forallb_forall in F. apply inb_in. now apply F.
    - intro X. inversion X as [? ? ? ? i rest H K]; subst. rewrite H. replace (forallb _ _) with true; [reflexivity|]. symmetry. apply forallb_forall. intros e He. apply inb_in. now apply K.
  Qed.
  Lemma moves_exec l : forall s s', moves s l = Some s' -> exec s l s'.
  Proof.
    induction l as [|t l IH]; intros s s'; cbn; [intro H; injection H as <-; constructor|].
    destruct (move s t) as [s1|] eqn:M; [|discriminate]. intro H. apply move_step in M. econstructor; [exact M|now apply IH].
  Qed.
  Definition stuckb (s : cstate S E) : bool := forallb (fun t => match move s t with None => true | _ => false end) (seq 0 (length (c_progs s))).
  Lemma stuckb_ok s : stuckb s = true -> stuck s.
  Proof.
    intros H t s' X. apply move_step in X. unfold stuckb in H. rewrite forallb_forall in H.
    destruct (Nat.lt_ge_cases t (length (c_progs s))) as [L|L].
    - specialize (H t ltac:(apply in_seq; lia)). rewrite X in H. discriminate.
    - unfold move in X. apply nth_error_None in L. rewrite L in X. discriminate.
  Qed.
  Definition finishedb (s : cstate S E) : bool := forallb (fun p => match p with [] => true | _ => false end) (c_progs s).
  Lemma finishedb_ok s : finishedb s = true <-> finished s.
  Proof.
    unfold finishedb, finished. rewrite forallb_forall. split; intros H p Hp; specialize (H p Hp); destruct p; congruence || discriminate || reflexivity.
  Qed.
End Runner.

(** a signal that is waited for and that nobody gives *)
Lemma missing_signal {S E} (e : E) : forall s l (s' : cstate S E), exec s l s' ->
  (exists p i, In p (c_progs s) /\ In i p /\ In e (needs i)) -> (forall p i, In p (c_progs s) -> In i p -> ~ In e (emits i)) -> ~ In e (c_evs s) -> ~ finished s'.
Proof.
  induction 1 as [s|s t s1 l s2 X _ IH]; intros (p & i & Hp & Hi & He) NE NV.
  - intro F. rewrite (F p Hp) in Hi. destruct Hi.
  - inversion X as [ps evs m ? j rest Hj N]; subst. cbn [c_progs c_evs] in *.
    assert (SUB : forall q x, In q (set_at t rest ps) -> In x q -> exists q', In q' ps /\ In x q').
    { intros q x Hq Hx. apply In_nth_error in Hq as [k Hk]. rewrite set_at_nth in Hk. destruct (Nat.eqb_spec k t) as [Q|D].
      - rewrite Hj in Hk. injection Hk as <-. exists (j :: rest). split; [eapply nth_error_In; exact Hj|now right].
      - exists q. split; [eapply nth_error_In; exact Hk|exact Hx]. }
    apply IH.
    + destruct (In_nth_error _ _ Hp) as [k Hk]. destruct (Nat.eq_dec k t) as [->|D].
      * rewrite Hj in Hk. injection Hk as <-. destruct Hi as [->|Hi]; [now destruct NV; apply N|].
        exists rest, i. split; [apply (nth_error_In _ t); rewrite set_at_nth, Nat.eqb_refl, Hj; reflexivity|now split].
      * exists p, i. split; [apply (nth_error_In _ k); rewrite set_at_nth; destruct (Nat.eqb_spec k t); [contradiction|exact Hk]|now split].
    + intros q x Hq Hx. destruct (SUB q x Hq Hx) as (q' & Hq' & Hx'). now apply (NE q' x).
    + intro K. apply in_app_iff in K as [K|K]; [|now apply NV]. apply (NE (j :: rest) j); [eapply nth_error_In; exact Hj|now left|exact K].
Qed.

(** with aliases, one worker throwing and another not, nobody ever gives the second flag *)
Lemma alias_deadlock {A} (f : A -> A -> A) (cj sm : A -> A) rows cols nonh N throws w k v l s :
  w < N -> throws w = Some k -> v < N -> throws v = None ->
  exec (start (programs f cj sm rows cols nonh true N throws) (fresh cols)) l s -> ~ finished s.
Proof.
  intros Hw Tw Hv Tv X. apply (missing_signal (Ready 1) _ _ _ X).
  - cbn [c_progs start]. exists (map (instr_of cj sm) (worker f rows cols nonh true N throws v)), (instr_of cj sm (CWait (Ready 1))).
    split; [apply in_map; unfold threads; right; apply in_map; apply in_seq; lia|]. split; [|now left].
    apply in_map. unfold worker. rewrite Tv. right. apply in_or_app. right. right. now left.
  - cbn [c_progs start]. intros p i Hp Hi. unfold programs in Hp. apply in_map_iff in Hp as (th & <- & Hth). apply in_map_iff in Hi as (c & <- & Hc).
    assert (NC : c <> CSignal (Ready 1)).
    { assert (G : forall b u d, In d (gen f rows cols b N u) -> forall e, d <> CSignal e).
      { intros b u d Hd e ->. unfold gen in Hd. destruct b; unfold gen_generic, gen_hermitian in Hd; apply in_flat_map in Hd as (x & _ & [H|H]); try discriminate;
        apply in_flat_map in H as (y & _ & [H|[H|[]]]); discriminate. }
      assert (G' : forall b u d, In d (alias cols b N u) -> forall e, d <> CSignal e).
      { intros b u d Hd e ->. unfold alias in Hd. destruct b; unfold alias_generic, alias_hermitian in Hd; apply in_flat_map in Hd as (x & _ & [H|H]); try discriminate;
        apply in_flat_map in H as (y & _ & [H|[H|[]]]); discriminate. }
      destruct Hth as [<-|Hth].
      - unfold main_thread in Hc. destruct Hc as [<-|Hc]; [discriminate|]. apply in_app_iff in Hc as [Hc|Hc].
        + destruct (find _ (seq 0 N)) as [w0|] eqn:Fd.
          * apply in_map_iff in Hc as (x & <- & _). discriminate.
          * pose proof (find_none _ _ Fd w ltac:(apply in_seq; lia)) as F. cbn in F. rewrite Tw in F. discriminate.
        + apply in_map_iff in Hc as (x & <- & _). discriminate.
      - apply in_map_iff in Hth as (u & <- & _). unfold worker in Hc. destruct Hc as [<-|Hc]; [discriminate|]. destruct (throws u).
        + apply in_app_iff in Hc as [Hc|[<-|[<-|[]]]]; try discriminate. apply (G nonh u). rewrite <- (firstn_skipn n). apply in_or_app. now left.
        + apply in_app_iff in Hc as [Hc|[<-|[<-|Hc]]]; try discriminate; [now apply (G nonh u)|].
          apply in_app_iff in Hc as [Hc|[<-|[]]]; [|discriminate]. apply in_app_iff in Hc as [Hc|[<-|[]]]; [now apply (G' nonh u)|discriminate]. }
    destruct c; cbn; intros [E|[]] || intros []. subst. now apply NC.
  - intros [].
Qed.

Definition sig_eqb (a b : signal) : bool :=
  match a, b with Ready i, Ready j => Nat.eqb i j | Promised i p, Promised j q => Nat.eqb i j && Nat.eqb p q | Exited i, Exited j => Nat.eqb i j | _, _ => false end.
Lemma sig_eqb_ok a b : sig_eqb a b = true <-> a = b.
Proof.
  destruct a, b; cbn; try (split; discriminate); rewrite ?andb_true_iff, ?Nat.eqb_eq; split; intro H; try (now injection H); try (now (f_equal; try apply H)); try (now destruct H; f_equal).
Qed.

(** the word X Y of the algebra with Y X = - X Y is sent to - X Y by conjugation *)
Definition ac_ctx : acontext := mk_actx false anticommuting.
Definition ac_mul := multiply 50 ac_ctx.
Definition ac_conj := conjugate 50 ac_ctx.
Definition ac_word : hseq := hseq_make 2 [0; 1] SPos.
Definition ac_dict : list hseq := [hseq_const false; hseq_make 2 [0] SPos].
Definition ac_progs := programs (localizing_functor ac_mul ac_word) (rconj ac_conj) (fun x => x) (row_gen ac_conj ac_dict) (col_gen ac_dict) false false 1 nothing_throws.
Definition ac_sched : list nat := [0; 1;1;1;1;1;1;1; 0;0;0].
Lemma localizing_run : exists s, exec (start ac_progs (fresh (col_gen ac_dict))) ac_sched s /\ finished s /\
  m_ret (c_mem s) <> Some (map Some (localizing_matrix ac_mul ac_conj ac_word ac_dict)).
Proof.
  destruct (moves sig_eqb (start ac_progs (fresh (col_gen ac_dict))) ac_sched) as [s|] eqn:E; [|vm_compute in E; discriminate].
  exists s. split; [apply (moves_exec sig_eqb sig_eqb_ok); exact E|]. 
  assert (F : option_map finishedb (moves sig_eqb (start ac_progs (fresh (col_gen ac_dict))) ac_sched) = Some true) by (vm_compute; reflexivity).
  rewrite E in F. cbn [option_map] in F. injection F as F. split; [now apply finishedb_ok|].
  assert (R : option_map (fun s => m_ret (c_mem s)) (moves sig_eqb (start ac_progs (fresh (col_gen ac_dict))) ac_sched) =
              Some (Some [Some (Ret ac_word); Some (Ret (hseq_make 2 [0;0;1] SPos)); Some (Ret (hseq_make 2 [0;0;1] SPos)); Some (Ret (hseq_make 2 [0;0;0;1] SNeg))])) by (vm_compute; reflexivity).
  rewrite E in R. cbn [option_map] in R. injection R as R. rewrite R. vm_compute. discriminate.
Qed.

Lemma find_run {S E} (eqb : E -> E -> bool) (ok : forall x y, eqb x y = true <-> x = y) (s0 : cstate S E) l (R : Type) (g : cstate S E -> R) (r : R) :
  option_map (fun s => (finishedb s, g s)) (moves eqb s0 l) = Some (true, r) -> exists s, exec s0 l s /\ finished s /\ g s = r.
Proof.
  destruct (moves eqb s0 l) as [s|] eqn:E0; [|discriminate]. cbn. intro H. injection H as H1 H2. exists s. split; [now apply (moves_exec eqb ok)|]. split; [now apply finishedb_ok|exact H2].
Qed.
Lemma localizing_refuted : exists L M c ctx fc fuel w d l s,
  decidable_context L M c ctx /\ is_complete fc (ac_rules ctx) true = Ret true /\
  (canonical L ctx w /\ phase_safe c ctx w) /\ Forall (fun q => canonical L ctx q /\ phase_safe c ctx q) d /\
  localizing_should_be_hermitian (conjugate fuel ctx) w = Ret true /\
  exec (start (programs (localizing_functor (multiply fuel ctx) w) (rconj (conjugate fuel ctx)) (fun x => x) (row_gen (conjugate fuel ctx) d) (col_gen d)
         (could_be_non_hermitian true false) false 1 nothing_throws) (fresh (col_gen d))) l s /\ finished s /\
  m_ret (c_mem s) <> Some (map Some (localizing_matrix (multiply fuel ctx) (conjugate fuel ctx) w d)).
Proof.
  destruct localizing_run as (s & X & F & R). exists 8, 2, false, ac_ctx, 20, 50, ac_word, ac_dict, ac_sched, s.
  assert (C : forall u, In u [[]; [0]; [0; 1]] -> canonical 8 ac_ctx (hseq_make 2 u SPos)).
  { intros u Hu. split; [|split].
    - right. cbn in Hu. destruct Hu as [<-|[<-|[<-|[]]]]; (split; [reflexivity|]); (split; [intros x Hx; cbn in Hx; repeat (destruct Hx as [<-|Hx]; [cbn; lia|]); destruct Hx|cbn; lia]).
    - cbn in Hu. intros k rl Hin Hne (p & q & E). cbn in Hin. destruct Hin as [H|[]]. injection H as <- <-. cbn in E, Hu.
      destruct Hu as [<-|[<-|[<-|[]]]]; destruct p as [|? [|? [|? p]]]; cbn in E; try discriminate; injection E; intros; try discriminate; congruence.
    - cbn in Hu. destruct Hu as [<-|[<-|[<-|[]]]]; vm_compute; discriminate. }
  split; [exact anticommuting_decidable|]. split; [exact anticommuting_complete|].
  split; [split; [apply C; cbn; tauto|left; reflexivity]|]. split.
  { constructor; [split; [exact (C [] (or_introl eq_refl))|left; reflexivity]|]. constructor; [split; [exact (C [0] (or_intror (or_introl eq_refl)))|left; reflexivity]|constructor]. }
  split; [vm_compute; reflexivity|]. split; [exact X|]. split; [exact F|exact R].
Qed.

Definition pw_dict : list hseq := [hseq_const false; pauli_sequence 1 [0] SPos; pauli_sequence 1 [2] SPos].
Definition pw_sched : list nat := [0; 1; 2; 1; 1; 2; 1; 2; 2; 1; 1; 2; 1; 2; 1; 1; 0; 0; 0; 0; 0].
Lemma pauli_run : let d := [hseq_const false; pauli_sequence 1 [0] SPos; pauli_sequence 1 [2] SPos] in
  pauli_safe 1 2 /\ Forall (fun q => pauli_wf 1 1 q /\ hs_hash q <> 0%N) d /\
  exists l s, exec (start (programs (moment_functor (pauli_mul 1)) (rconj pauli_conj) (fun x => x) (row_gen pauli_conj d) (col_gen d) false false 2 nothing_throws) (fresh (col_gen d))) l s /\
    finished s /\ (exists l1 l2 l3, l = l1 ++ [1; 2; 1] ++ l2 ++ [2; 1; 2] ++ l3) /\
    m_ret (c_mem s) = Some (map (fun q => Some (Ret q)) [hseq_const false; pauli_sequence 1 [0] SPos; pauli_sequence 1 [2] SPos;
      pauli_sequence 1 [0] SPos; hseq_const false; pauli_sequence 1 [1] SIm; pauli_sequence 1 [2] SPos; pauli_sequence 1 [1] SNegIm; hseq_const false]).
Proof.
  cbv zeta. split; [vm_compute; reflexivity|]. split.
  { apply Forall_forall. intros q Hq. split.
    - destruct Hq as [<-|[<-|[<-|[]]]]; try (apply sequence_wf; [intros x [<-|[]]; lia|cbn; lia]).
      right. split; [reflexivity|]. split; [intros x []|]. split; [cbn; lia|]. constructor.
    - destruct Hq as [<-|[<-|[<-|[]]]]; vm_compute; discriminate. }
  exists pw_sched.
  destruct (find_run sig_eqb sig_eqb_ok (start (programs (moment_functor (pauli_mul 1)) (rconj pauli_conj) (fun x => x) (row_gen pauli_conj pw_dict) (col_gen pw_dict) false false 2 nothing_throws) (fresh (col_gen pw_dict)))
    pw_sched _ (fun s => m_ret (c_mem s)) (Some (map (fun q => Some (Ret q)) [hseq_const false; pauli_sequence 1 [0] SPos; pauli_sequence 1 [2] SPos;
      pauli_sequence 1 [0] SPos; hseq_const false; pauli_sequence 1 [1] SIm; pauli_sequence 1 [2] SPos; pauli_sequence 1 [1] SNegIm; hseq_const false]))) as (s & X & F & R).
  { vm_compute. reflexivity. }
  exists s. split; [exact X|]. split; [exact F|]. split; [|exact R]. exists [0], [1], (skipn 8 pw_sched). reflexivity.
Qed.

Lemma nat_runs : let thr := (fun w => if Nat.eqb w 0 then Some 1 else None) in let d := [1; 2; 3] in
  (exists l s, exec (start (programs Nat.mul (fun x => x) (fun x => x) d d false true 2 thr) (fresh d)) l s /\ stuck s /\ ~ finished s) /\
  (exists l s, exec (start (programs Nat.mul (fun x => x) (fun x => x) d d false false 2 thr) (fresh d)) l s /\ finished s) /\
  (exists l s, exec (start (programs Nat.mul (fun x => x) (fun x => x) d d true true 2 nothing_throws) (fresh d)) l s /\ finished s /\
    m_ret (c_mem s) = Some (map Some [1; 2; 3; 2; 4; 6; 3; 6; 9])).
Proof.
  cbv zeta. set (thr := fun w => if Nat.eqb w 0 then Some 1 else None).
  split; [|split].
  - set (s0 := start (programs Nat.mul (fun x => x) (fun x => x) [1;2;3] [1;2;3] false true 2 thr) (fresh [1;2;3])).
    exists [0; 1;1;1;1; 2;2;2;2;2; 0; 0].
    assert (Q : option_map (fun s => (stuckb sig_eqb s, finishedb s)) (moves sig_eqb s0 [0; 1;1;1;1; 2;2;2;2;2; 0; 0]) = Some (true, false)) by (vm_compute; reflexivity).
    destruct (moves sig_eqb s0 _) as [s|] eqn:E0; [|discriminate]. cbn [option_map] in Q. assert (Q1 : stuckb sig_eqb s = true) by congruence. assert (Q2 : finishedb s = false) by congruence.
    exists s. split; [now apply (moves_exec sig_eqb sig_eqb_ok)|]. split; [now apply (stuckb_ok sig_eqb sig_eqb_ok)|]. intro F. apply finishedb_ok in F. congruence.
  - exists [0; 1;1;1;1; 2;2;2;2;2;2; 0; 0; 0].
    destruct (find_run sig_eqb sig_eqb_ok (start (programs Nat.mul (fun x => x) (fun x => x) [1;2;3] [1;2;3] false false 2 thr) (fresh [1;2;3])) [0; 1;1;1;1; 2;2;2;2;2;2; 0; 0; 0] _ (fun _ => tt) tt) as (s & X & F & _).
    { vm_compute. reflexivity. } exists s. now split.
  - set (sch := [0] ++ repeat 1 8 ++ repeat 2 5 ++ [0;0;0;0] ++ repeat 1 9 ++ repeat 2 6 ++ [0;0;0;0;0]). exists sch.
    destruct (find_run sig_eqb sig_eqb_ok (start (programs Nat.mul (fun x => x) (fun x => x) [1;2;3] [1;2;3] true true 2 nothing_throws) (fresh [1;2;3])) sch _ (fun s => m_ret (c_mem s)) (Some (map Some [1; 2; 3; 2; 4; 6; 3; 6; 9]))) as (s & X & F & R).
    { vm_compute. reflexivity. } exists s. split; [exact X|]. now split.
Qed.
