(** The factory's threads never deadlock. *)
From Coq Require Import List NArith ZArith Arith Bool Lia.
From Verif Require Import CoreModel CoreSpec FieldModel FieldProofs SymModel SymSpec PolyModel ParModel ParProofs MatModel MatProofs FacModel FacSpec FacMapProofs FacParProofs.
Import ListNotations.

(** If instructions can be ranked so that program order and waiting go upwards, some thread can always move. *)
Section Ranked.
  Context {S E : Type}.
  Variable ps : list (list (instr S E)).
  Variable rank : nat -> nat -> nat.
  Hypothesis PO : forall t i, at_pos ps (t, Datatypes.S i) <> None -> rank t i < rank t (Datatypes.S i).
  Hypothesis SY : forall t i x e, at_pos ps (t, i) = Some x -> In e (needs x) -> exists t' j y, at_pos ps (t', j) = Some y /\ In e (emits y) /\ rank t' j < rank t i.
  Lemma at_below t i j : i <= j -> at_pos ps (t, j) <> None -> at_pos ps (t, i) <> None.
  Proof. unfold at_pos. cbn. destruct (nth_error ps t); [|auto]. intros L H. apply nth_error_Some in H. apply nth_error_Some. lia. Qed.
  Lemma rank_up t i j : i <= j -> at_pos ps (t, j) <> None -> rank t i <= rank t j.
  Proof. induction 1 as [|j L IH]; [lia|]. intro H. pose proof (PO t j H). assert (rank t i <= rank t j) by (apply IH; apply (at_below t j (Datatypes.S j)); [lia|exact H]). lia. Qed.
  Lemma ranked_step m l s : exec (start ps m) l s -> forall n t x, at_pos ps (t, count t l) = Some x -> rank t (count t l) < n -> exists t' s', step s t' s'.
  Proof.
    intro X. induction n as [|n IH]; intros t x P Rn; [lia|].
    assert (D : (forall e, In e (needs x) -> In e (c_evs s)) \/ exists t' y, at_pos ps (t', count t' l) = Some y /\ rank t' (count t' l) < rank t (count t l)).
    { assert (Q : forall l0, incl l0 (needs x) -> (forall e, In e l0 -> In e (c_evs s)) \/ exists t' y, at_pos ps (t', count t' l) = Some y /\ rank t' (count t' l) < rank t (count t l)); [|apply Q, incl_refl].
      induction l0 as [|e l0 IHl]; intro I0; [left; intros e []|]. destruct IHl as [A|A]; [intros z Z; apply I0; now right| |now right].
      destruct (SY t _ x e P (I0 e (or_introl eq_refl))) as (t' & j & y & Y & Em & Rk). destruct (le_lt_dec (count t' l) j) as [L|L].
      - right. assert (YN : at_pos ps (t', j) <> None) by congruence. pose proof (at_below t' _ j L YN) as C. destruct (at_pos ps (t', count t' l)) as [z|] eqn:Z; [|congruence]. exists t', z. split; [exact Z|]. pose proof (rank_up t' _ j L YN). lia.
      - left. intros z [<-|Z]; [|now apply A]. apply (proj2 (exec_mem _ _ _ _ X)). exists (t', j), y. split; [now apply in_trace|]. auto. }
    destruct D as [D|(t' & y & Y & Rk)]; [|apply (IH t' y Y); lia].
    pose proof (exec_progs _ _ _ X t) as Q. unfold at_pos in P. cbn [fst snd start c_progs] in P, Q. destruct (nth_error ps t) as [q|]; [|discriminate]. cbn [option_map] in Q.
    assert (Sk : exists rest, skipn (count t l) q = x :: rest).
    { clear -P. revert P. generalize (count t l). induction q as [|a q IH]; intros [|k] P; try discriminate; cbn in *; [injection P as <-; eauto|now apply IH]. }
    destruct Sk as (rest & Sk). rewrite Sk in Q. destruct s as [sp se sm]. eexists t, _. eapply step_thread; [exact Q|exact D].
  Qed.
  Theorem ranked_progress m l s : exec (start ps m) l s -> finished s \/ exists t s', step s t s'.
  Proof.
    intro X. destruct (Nat.eq_dec (remaining s) 0) as [Z|Z]; [left; now apply remaining_finished|right].
    assert (U : exists t x, at_pos ps (t, count t l) = Some x).
    { assert (Q : exists t q, nth_error (c_progs s) t = Some q /\ q <> []).
      { unfold remaining in Z. induction (c_progs s) as [|q r IH]; [now destruct Z|]. destruct q as [|a q]; [|exists 0, (a :: q); split; [reflexivity|discriminate]].
        cbn in Z. destruct (IH Z) as (t & q & A & B). now exists (Datatypes.S t), q. }
      destruct Q as (t & q & A & B). rewrite (exec_progs _ _ _ X t) in A. cbn [start c_progs] in A. destruct (nth_error ps t) as [q0|] eqn:Q0; [|discriminate]. cbn in A. injection A as <-.
      exists t. unfold at_pos. cbn [fst snd]. rewrite Q0. clear -B. revert B. generalize (count t l). induction q0 as [|a q0 IH]; intros [|k] B; cbn in *; try (now destruct B); [eauto|]. now apply IH. }
    destruct U as (t & x & P). apply (ranked_step m l s X _ t x P (le_n _)).
  Qed.
End Ranked.

Section FDone.
  Variable c : sctx.
  Variable R : rfield.
  Variable dim : nat.
  Variable m : list hseq.
  Variable p : cx R.
  Variable hermitian : bool.
  Variable N : nat.
  Hypothesis NP : 0 < N.
  Notation first := (first_merge_level N).
  Notation final := final_merge_level.
  Notation top := (bit_width N).
  Notation progs := (fprograms c dim m hermitian p N no_throw).
  Notation wprog := (fworker dim hermitian N no_throw).
  Notation mprog := (fmain N no_throw).
  Notation gen := (generate dim hermitian N).
  Notation finstr := (finstr c dim m hermitian p).
  Notation depth := (depth N).

  Definition longest : nat := list_max (map (fun w => length (gen w)) (seq 0 N)).
  Lemma gen_longest w : w < N -> length (gen w) <= longest.
  Proof.
    intro Hw. assert (H : Forall (fun k => k <= longest) (map (fun w => length (gen w)) (seq 0 N))) by (apply list_max_le; unfold longest; lia).
    rewrite Forall_forall in H. apply H. apply in_map_iff. exists w. split; [reflexivity|apply in_seq; lia].
  Qed.
  Definition wrank (w k : nat) : nat :=
    if Nat.eqb k 0 then 1 else
    if Nat.leb k (depth w) then 2 + (top - (first w - (k - 1))) else
    if Nat.eqb k (depth w + 1) then top + 3 else
    if Nat.ltb k (depth w + 3 + length (gen w)) then top + 6 + N + (k - (depth w + 2)) else
    top + 6 + N + longest + (k - (depth w + 1 + length (gen w))).
  Definition mrank (k : nat) : nat :=
    if Nat.eqb k 0 then 0 else
    if Nat.leb k (N + 2) then top + 3 + k else
    top + 10 + longest + k.
  Definition rank (t k : nat) : nat := match t with 0 => mrank k | S w => wrank w k end.
  Ltac cases := repeat match goal with |- context [Nat.eqb ?a ?b] => destruct (Nat.eqb_spec a b) | |- context [Nat.leb ?a ?b] => destruct (Nat.leb_spec a b) | |- context [Nat.ltb ?a ?b] => destruct (Nat.ltb_spec a b) end.
  Lemma wrank_up w k : w < N -> k < depth w + 4 + length (gen w) -> wrank w k < wrank w (S k).
  Proof.
    intros Hw Hk. pose proof (gen_longest w Hw). pose proof (final_first N NP w Hw). pose proof (first_top N NP w). unfold wrank. unfold FacParProofs.depth in *. cases; lia.
  Qed.
  Lemma mrank_up k : mrank k < mrank (S k).
  Proof. unfold mrank. cases; lia. Qed.
  Lemma worker_length w : length (wprog w) = depth w + 5 + length (gen w).
  Proof. rewrite worker_eq. repeat first [rewrite app_length | rewrite merges_length | progress cbn [length]]. lia. Qed.
  Lemma prom0_at w : nth_error (wprog w) (depth w + 1) = Some (FSignal (FPromised w 0)).
  Proof. rewrite worker_eq. rewrite Nat.add_1_r. cbn [nth_error]. rewrite nth_error_app2 by (rewrite merges_length; lia). rewrite merges_length. now rewrite Nat.sub_diag. Qed.
  Lemma tail_at w j : nth_error (wprog w) (depth w + 3 + length (gen w) + j) = nth_error [FSignal (FPromised w 1); FSignal (FExited w)] j.
  Proof.
    rewrite worker_eq. replace (depth w + 3 + length (gen w) + j) with (S (depth w + (2 + (length (gen w) + j)))) by lia. cbn [nth_error]. rewrite nth_error_app2 by (rewrite merges_length; lia). rewrite merges_length.
    replace (depth w + (2 + (length (gen w) + j)) - depth w) with (S (S (length (gen w) + j))) by lia. cbn [app nth_error]. rewrite nth_error_app2 by lia. f_equal. lia.
  Qed.
  Lemma ready1_at : nth_error mprog (N + 2) = Some (FSignal (FReady 1)).
  Proof. rewrite main_eq. replace (N + 2) with (S (N + 1)) by lia. cbn [nth_error]. rewrite nth_error_app2 by (rewrite map_length, seq_length; lia). rewrite map_length, seq_length. now replace (N + 1 - N) with 1 by lia. Qed.
  Lemma w_at w k x : w < N -> nth_error (wprog w) k = Some x -> at_pos progs (S w, k) = Some (finstr x).
  Proof. intros Hw H. rewrite at_worker by exact NP. destruct (Nat.ltb_spec w N); [now rewrite H|lia]. Qed.
  Lemma m_at k x : nth_error mprog k = Some x -> at_pos progs (0, k) = Some (finstr x).
  Proof. intro H. rewrite at_main. now rewrite H. Qed.
  Theorem progress t0 l s : exec (start progs (ffresh dim N t0)) l s -> finished s \/ exists t s', step s t s'.
  Proof.
    apply ranked_progress with (rank := rank).
    - intros [|w] k H; [apply mrank_up|]. rewrite at_worker in H by exact NP. destruct (Nat.ltb_spec w N) as [L|L]; [|now destruct H]. apply wrank_up; [exact L|].
      destruct (nth_error (wprog w) (S k)) eqn:Q; [|now destruct H]. assert (B : S k < length (wprog w)) by (apply nth_error_Some; congruence). rewrite worker_length in B. lia.
    - intros [|w] k x e P Ne.
      + rewrite at_main in P. destruct (nth_error mprog k) as [y|] eqn:Q; [|discriminate]. injection P as <-. apply main_pos in Q; [|exact NP]. destruct Q; cbn in Ne; try contradiction; destruct Ne as [<-|[]].
        * exists (S w), (depth w + 1), (finstr (FSignal (FPromised w 0))). split; [apply w_at; [assumption|apply prom0_at]|]. split; [now left|]. cbn [rank]. subst k. unfold wrank, mrank. cases; lia.
        * exists (S w), (depth w + 3 + length (gen w)), (finstr (FSignal (FPromised w 1))). split; [apply w_at; [assumption|]; pose proof (tail_at w 0) as T; rewrite Nat.add_0_r in T; exact T|]. split; [now left|]. cbn [rank]. subst k.
          pose proof (gen_longest w ltac:(assumption)). unfold wrank, mrank. cases; lia.
        * exists (S w), (depth w + 3 + length (gen w) + 1), (finstr (FSignal (FExited w))). split; [apply w_at; [assumption|apply tail_at]|]. split; [now left|]. cbn [rank]. subst k.
          pose proof (gen_longest w ltac:(assumption)). unfold wrank, mrank. cases; lia.
      + rewrite at_worker in P by exact NP. destruct (Nat.ltb_spec w N) as [Hw|L]; [|discriminate]. destruct (nth_error (wprog w) k) as [y|] eqn:Q; [|discriminate]. injection P as <-. apply worker_pos in Q.
        destruct Q as [K|K|K|K|y K Iy|K|K]; try (cbn in Ne; contradiction).
        * cbn in Ne. destruct Ne as [<-|[]]. exists 0, 0, (finstr (FSignal (FReady 0))). split; [apply m_at; now rewrite main_eq|]. split; [now left|]. cbn [rank]. subst k. unfold wrank, mrank. cases; lia.
        * cbn in Ne. destruct Ne as [<-|[]]. remember (first w - k) as lv eqn:Lv. unfold FacParProofs.depth in K. assert (D1 : first w - (k - 1) = S lv) by lia.
          destruct (partner N NP w lv Hw) as (W & Wn & Fn); [lia|lia|]. rewrite D1. rewrite (Nat.sub_succ lv 0), Nat.sub_0_r. set (o := w + 2 ^ lv) in *. pose proof (first_top N NP w). pose proof (first_top N NP o).
          assert (RW : wrank w k = 2 + (top - S lv)) by (unfold wrank, FacParProofs.depth; rewrite D1; cases; lia).
          destruct (le_lt_dec (first o) (S lv)) as [L|L].
          -- exists (S o), 0, (finstr (FIdentify N o)). split; [apply w_at; [exact Wn|reflexivity]|]. split; [|cbn [rank]; rewrite RW; unfold wrank; cbn; lia].
             cbn. apply in_map. unfold first_levels. apply in_seq. lia.
          -- exists (S o), (first o - S lv), (finstr (FMerge o (S (S lv)))). split; [apply w_at; [exact Wn|apply worker_merge; lia]|]. split; [cbn; now left|].
             cbn [rank]. rewrite RW. unfold wrank, FacParProofs.depth. cases; lia.
        * cbn in Ne. destruct Ne as [<-|[]]. exists 0, (N + 2), (finstr (FSignal (FReady 1))). split; [apply m_at, ready1_at|]. split; [now left|]. cbn [rank]. subst k. unfold wrank, mrank. cases; lia.
        * destruct (gen_cmd dim hermitian N NP w y Hw Iy) as (row & col & _ & _ & [->|[_ ->]]); cbn in Ne; contradiction.
  Qed.
End FDone.
