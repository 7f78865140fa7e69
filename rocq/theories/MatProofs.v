(** Proofs about operator matrix generation. *)
From Coq Require Import List Arith Bool Lia PeanoNat.
From Verif Require Import ParModel ParProofs MatModel MatSpec.
Import ListNotations.

Lemma strided_spec step n : 0 < step -> forall fuel w c, n <= fuel + w -> (In c (strided fuel w step n) <-> w <= c /\ c < n /\ (c - w) mod step = 0).
Proof.
  intro Hs. induction fuel as [|fuel IH]; intros w c Hf; cbn [strided In]; [split; [intro H; destruct H|lia]|]. destruct (Nat.ltb_spec w n) as [L|G]; [|split; [intro H; destruct H|lia]]. cbn [In]. rewrite IH by lia. split.
  - intros [<-|(A & B & C)]; [rewrite Nat.sub_diag, Nat.mod_0_l; lia|]. split; [lia|]. split; [exact B|]. replace (c - w) with ((c - (w + step)) + 1 * step) by lia. now rewrite Nat.mod_add by lia.
  - intros (A & B & C). destruct (Nat.eq_dec w c) as [->|D]; [now left|right]. assert (step <= c - w). { destruct (Nat.lt_ge_cases (c - w) step) as [H|H]; [|exact H]. rewrite Nat.mod_small in C by exact H. lia. }
    split; [lia|]. split; [exact B|]. replace (c - w) with ((c - (w + step)) + 1 * step) in C by lia. now rewrite Nat.mod_add in C by lia.
Qed.
Lemma strided_mod N n w c : w < N -> (In c (strided n w N n) <-> c < n /\ c mod N = w).
Proof.
  intro Hw. rewrite strided_spec by lia. split.
  - intros (A & B & C). split; [exact B|]. apply Nat.mod_divides in C as [k C]; [|lia]. replace c with (w + k * N) by lia. rewrite Nat.mod_add by lia. now apply Nat.mod_small.
  - intros [B C]. assert (D : c = N * (c / N) + c mod N) by (apply Nat.div_mod; lia). split; [lia|]. split; [exact B|]. replace (c - w) with ((c / N) * N) by lia. apply Nat.mod_mul. lia.
Qed.

Section Mat.
  Context {A : Type} (f : A -> A -> A) (cj sm : A -> A) (rows cols : list A).
  Notation n := (dim cols).
  Notation run := (run_cmd cj sm).
  Definition run_all (l : list (cmd A)) (m : mat_mem A) : mat_mem A := fold_left (fun m c => run c m) l m.

  (** * Who touches which cell *)
  Definition owner (N i : nat) : nat := Nat.min (i mod n) (i / n) mod N.
  Definition os_op (N w : nat) (x : cmd A) : Prop := match x with CPut i _ => owner N i = w | CMirror i j => owner N i = w /\ owner N j = w | _ => False end.
  Definition al_op (N w : nat) (x : cmd A) : Prop := match x with CAlias i j | CAliasMirror i j => owner N i = w /\ owner N j = w | _ => False end.
  Lemma owner_cell N r c : r < n -> owner N (c * n + r) = Nat.min r c mod N.
  Proof. intro H. unfold owner. rewrite (Nat.add_comm (c * n)), Nat.mod_add, Nat.div_add, (Nat.mod_small r n), (Nat.div_small r n) by lia. reflexivity. Qed.
  Lemma in_below r c : In r (below cols c) <-> c < r < n.
  Proof. unfold below. rewrite in_seq. lia. Qed.
  Lemma gen_owned nonh N w x : w < N -> In x (gen f rows cols nonh N w) -> os_op N w x.
  Proof.
    intros Hw H. destruct nonh; cbn [gen] in H; apply in_flat_map in H as (c & Hc & [<-|H]); apply (strided_mod N n w c Hw) in Hc as [Hc M].
    1,3: cbn; rewrite owner_cell, Nat.min_id by exact Hc; exact M.
    all: apply in_flat_map in H as (r & Hr & H); apply in_below in Hr; destruct H as [<-|[<-|[]]]; cbn; rewrite ?owner_cell by lia; rewrite ?(Nat.min_l c r), ?(Nat.min_r r c) by lia; auto.
  Qed.
  Lemma alias_owned nonh N w x : w < N -> In x (alias cols nonh N w) -> al_op N w x.
  Proof.
    intros Hw H. destruct nonh; cbn [alias] in H; apply in_flat_map in H as (c & Hc & [<-|H]); apply (strided_mod N n w c Hw) in Hc as [Hc M].
    1,3: cbn; rewrite owner_cell, Nat.min_id by exact Hc; auto.
    all: apply in_flat_map in H as (r & Hr & H); apply in_below in Hr; destruct H as [<-|[<-|[]]]; cbn; rewrite ?owner_cell by lia; rewrite ?(Nat.min_l c r), ?(Nat.min_r r c) by lia; auto.
  Qed.

  (** * Shape of the programs *)
  Section Programs.
    Variables (nonh can_alias : bool) (N : nat) (throws : nat -> option nat).
    Notation ths := (threads f rows cols nonh can_alias N throws).
    Notation ps := (programs f cj sm rows cols nonh can_alias N throws).
    Definition work (w : nat) : list (cmd A) := match throws w with Some k => firstn k (gen f rows cols nonh N w) | None => gen f rows cols nonh N w end.
    Definition after (w : nat) : list (cmd A) :=
      match throws w with Some _ => [] | None => if can_alias then CWait (Ready 1) :: alias cols nonh N w ++ [CSignal (Promised w 1)] else [] end ++ [CSignal (Exited w)].
    Lemma worker_shape w : worker f rows cols nonh can_alias N throws w = (CWait (Ready 0) :: work w) ++ CSignal (Promised w 0) :: after w.
    Proof. unfold worker, work, after. destruct (throws w); [reflexivity|]. cbn [app]. destruct can_alias; reflexivity. Qed.
    Lemma work_owned w x : w < N -> In x (work w) -> os_op N w x.
    Proof. unfold work. intros Hw H. apply (gen_owned nonh N w x Hw). destruct (throws w) as [b|]; [|exact H]. rewrite <- (firstn_skipn b). apply in_or_app. now left. Qed.
    Lemma after_cases w x : w < N -> In x (after w) -> x = CWait (Ready 1) \/ al_op N w x \/ x = CSignal (Promised w 1) \/ x = CSignal (Exited w).
    Proof.
      intros Hw H. unfold after in H. destruct (throws w); [destruct H as [<-|[]]; auto|]. apply in_app_or in H as [H|[<-|[]]]; [|auto]. destruct can_alias; [|destruct H].
      destruct H as [<-|H]; [auto|]. apply in_app_or in H as [H|[<-|[]]]; [|auto]. right. left. eapply alias_owned; eauto.
    Qed.
    Lemma worker_cases w x : w < N -> In x (worker f rows cols nonh can_alias N throws w) -> (exists e, x = CWait e) \/ (exists e, x = CSignal e) \/ os_op N w x \/ al_op N w x.
    Proof.
      intros Hw H. rewrite worker_shape in H. apply in_app_or in H as [[<-|H]|[<-|H]]; [eauto| |eauto|].
      - right. right. left. eapply work_owned; eauto.
      - destruct (after_cases w x Hw H) as [->|[H'|[->| ->]]]; eauto.
    Qed.
    Lemma main_cases x : In x (main_thread can_alias N throws : list (cmd A)) -> (exists e, x = CWait e) \/ (exists k, x = CSignal (Ready k)) \/ x = CTake \/ x = CTakeAlias.
    Proof.
      intros [<-|H]; [eauto|]. apply in_app_or in H as [H|H]; [|apply in_map_iff in H as (w & <- & _); eauto]. destruct (find _ _).
      - apply in_map_iff in H as (w & <- & _); eauto.
      - apply in_app_or in H as [H|H]; [apply in_map_iff in H as (w & <- & _); eauto|]. destruct H as [<-|H]; [auto|]. destruct can_alias; [|destruct H].
        destruct H as [<-|H]; [eauto|]. apply in_app_or in H as [H|[<-|[]]]; [apply in_map_iff in H as (w & <- & _); eauto|auto].
    Qed.
    Lemma thread_at p x : cmd_at ths p = Some x -> (fst p = 0 /\ nth_error (main_thread can_alias N throws) (snd p) = Some x) \/
      (exists w, fst p = S w /\ w < N /\ nth_error (worker f rows cols nonh can_alias N throws w) (snd p) = Some x).
    Proof.
      destruct p as [t k]. unfold cmd_at, threads. cbn [fst snd]. destruct t as [|w]; cbn [nth_error]; [auto|]. intro H. right. exists w. split; [reflexivity|].
      destruct (nth_error (map (worker f rows cols nonh can_alias N throws) (seq 0 N)) w) as [l|] eqn:E; [|discriminate]. assert (L : w < N).
      { assert (L : w < length (map (worker f rows cols nonh can_alias N throws) (seq 0 N))) by (apply nth_error_Some; congruence). now rewrite map_length, seq_length in L. }
      split; [exact L|]. rewrite nth_error_map in E. rewrite (nth_error_nth' _ 0) in E by now rewrite seq_length. rewrite seq_nth in E by exact L. cbn in E. injection E as <-. exact H.
    Qed.
    Lemma at_pos_cmd p : at_pos ps p = option_map (instr_of cj sm) (cmd_at ths p).
    Proof. unfold at_pos, cmd_at, programs. rewrite nth_error_map. destruct (nth_error ths (fst p)); [|reflexivity]. cbn. now rewrite nth_error_map. Qed.
    (** the only place that gives a promise *)
    Lemma flat_emits l : flat_map emits (map (instr_of cj sm) l) = flat_map (fun x : cmd A => match x with CSignal e => [e] | _ => [] end) l.
    Proof. induction l as [|x l IH]; [reflexivity|]. cbn. now rewrite IH. Qed.
    Lemma os_no_emits N' w l : (forall x, In x l -> os_op N' w x) -> flat_map (fun x : cmd A => match x with CSignal e => [e] | _ => [] end) l = [].
    Proof. induction l as [|x l IH]; intro H; [reflexivity|]. cbn. rewrite IH by (intros; apply H; now right). specialize (H x (or_introl eq_refl)). destruct x; cbn in H; now try contradiction. Qed.
    Lemma al_no_emits N' w l : (forall x, In x l -> al_op N' w x) -> flat_map (fun x : cmd A => match x with CSignal e => [e] | _ => [] end) l = [].
    Proof. induction l as [|x l IH]; intro H; [reflexivity|]. cbn. rewrite IH by (intros; apply H; now right). specialize (H x (or_introl eq_refl)). destruct x; cbn in H; now try contradiction. Qed.
    Lemma worker_emits w : w < N -> NoDup (flat_map emits (map (instr_of cj sm) (worker f rows cols nonh can_alias N throws w))).
    Proof.
      intro Hw. rewrite flat_emits, worker_shape, flat_map_app. cbn [flat_map app]. rewrite (os_no_emits N w (work w)) by (intros; eapply work_owned; eauto). cbn [app].
      unfold after. rewrite flat_map_app. destruct (throws w); [cbn; constructor; [intros [H|[]]; discriminate|constructor; [intros []|constructor]]|]. destruct can_alias.
      - cbn [flat_map app]. rewrite flat_map_app, (al_no_emits N w (alias cols nonh N w)) by (intros; eapply alias_owned; eauto). cbn.
        repeat constructor; cbn; intuition discriminate.
      - cbn. repeat constructor; cbn; intuition discriminate.
    Qed.
    Lemma promise_unique w k j c z : w < N -> nth_error (worker f rows cols nonh can_alias N throws w) j = Some (CSignal (Promised w k)) -> at_pos ps c = Some z -> In (Promised w k) (emits z) -> c = (S w, j).
    Proof.
      intros Hw Hj Hc He. rewrite at_pos_cmd in Hc. destruct (cmd_at ths c) as [x|] eqn:E; [|discriminate]. cbn in Hc. injection Hc as <-. destruct x as [| | | | | |e|e]; cbn in He; try contradiction. destruct He as [->|[]].
      destruct (thread_at c _ E) as [[F H]|(w' & F & Hw' & H)].
      - apply nth_error_In, main_cases in H. destruct H as [[e H]|[[k' H]|[H|H]]]; discriminate.
      - pose proof (nth_error_In _ _ H) as I. rewrite worker_shape in I. assert (w' = w) as ->.
        { apply in_app_or in I as [[I|I]|[I|I]]; [discriminate| |congruence|].
          - apply work_owned in I; [destruct I|exact Hw'].
          - destruct (after_cases w' _ Hw' I) as [I'|[I'|[I'|I']]]; [discriminate|destruct I'|congruence|discriminate]. }
        destruct c as [t i]. cbn [fst snd] in *. subst t. f_equal. apply (emits_unique (map (instr_of cj sm) (worker f rows cols nonh can_alias N throws w)) i j (instr_of cj sm (CSignal (Promised w k))) (instr_of cj sm (CSignal (Promised w k))) (Promised w k)).
        + rewrite nth_error_map, H. reflexivity.
        + rewrite nth_error_map, Hj. reflexivity.
        + now left.
        + now left.
        + now apply worker_emits.
    Qed.
    Lemma promise_hb w k j i : w < N -> nth_error (worker f rows cols nonh can_alias N throws w) j = Some (CSignal (Promised w k)) ->
      nth_error (main_thread can_alias N throws : list (cmd A)) i = Some (CWait (Promised w k)) -> hb ps (S w, j) (0, i).
    Proof.
      intros Hw Hj Hi. eapply hb_sync with (e := Promised w k).
      - rewrite at_pos_cmd. unfold cmd_at, threads. cbn. rewrite nth_error_map. rewrite (nth_error_nth' _ 0) by now rewrite seq_length. rewrite seq_nth by exact Hw. cbn [option_map Nat.add]. rewrite Hj. reflexivity.
      - rewrite at_pos_cmd. unfold cmd_at, threads. cbn [fst snd nth_error]. rewrite Hi. reflexivity.
      - now left.
      - now left.
      - intros c z Hc He. eapply promise_unique; eauto.
    Qed.
    (** writes of a worker come before its promise *)
    Lemma nth_app_at {B} (l1 : list B) x l2 : nth_error (l1 ++ x :: l2) (length l1) = Some x.
    Proof. rewrite nth_error_app2, Nat.sub_diag; [reflexivity|lia]. Qed.
    Lemma os_write_promise w k x : w < N -> nth_error (worker f rows cols nonh can_alias N throws w) k = Some x -> os_op N w x ->
      exists j, k < j /\ nth_error (worker f rows cols nonh can_alias N throws w) j = Some (CSignal (Promised w 0)).
    Proof.
      intros Hw H O. rewrite worker_shape in *. exists (length (CWait (Ready 0) :: work w)). split; [|apply nth_app_at].
      destruct (Nat.lt_ge_cases k (length (CWait (Ready 0) :: work w))) as [L|G]; [exact L|]. exfalso. rewrite nth_error_app2 in H by exact G. apply nth_error_In in H. destruct H as [<-|H]; [destruct O|].
      destruct (after_cases w x Hw H) as [->|[H'|[->| ->]]]; try exact O. destruct x; contradiction.
    Qed.
    Lemma al_write_promise w k x : w < N -> nth_error (worker f rows cols nonh can_alias N throws w) k = Some x -> al_op N w x ->
      exists j, k < j /\ nth_error (worker f rows cols nonh can_alias N throws w) j = Some (CSignal (Promised w 1)).
    Proof.
      intros Hw H O. unfold worker in *. destruct (throws w) as [b|] eqn:Et.
      - exfalso. apply nth_error_In in H. destruct H as [<-|H]; [destruct O|]. apply in_app_or in H as [H|H].
        + assert (os_op N w x) as O' by (apply (gen_owned nonh N w x Hw); rewrite <- (firstn_skipn b); apply in_or_app; now left). destruct x; contradiction.
        + destruct H as [<-|[<-|[]]]; destruct O.
      - destruct can_alias eqn:Ea.
        + set (pre := CWait (Ready 0) :: gen f rows cols nonh N w ++ [CSignal (Promised w 0)] ++ CWait (Ready 1) :: alias cols nonh N w).
          assert (Q : CWait (Ready 0) :: gen f rows cols nonh N w ++ [CSignal (Promised w 0)] ++ (CWait (Ready 1) :: alias cols nonh N w ++ [CSignal (Promised w 1)]) ++ [CSignal (Exited w)] = pre ++ CSignal (Promised w 1) :: [CSignal (Exited w)]).
          { unfold pre. cbn [app]. rewrite <- !app_assoc. cbn [app]. reflexivity. }
          rewrite Q in *. exists (length pre). split; [|apply nth_app_at]. destruct (Nat.lt_ge_cases k (length pre)) as [L|G]; [exact L|]. exfalso. rewrite nth_error_app2 in H by exact G. apply nth_error_In in H.
          destruct H as [<-|[<-|[]]]; destruct O.
        + exfalso. apply nth_error_In in H. destruct H as [<-|H]; [destruct O|]. apply in_app_or in H as [H|H].
          * assert (os_op N w x) as O' by now apply (gen_owned nonh N w x Hw). destruct x; contradiction.
          * destruct H as [<-|[<-|[]]]; destruct O.
    Qed.
    (** the main thread takes the matrix after it has seen every promise *)
    Lemma take_after i w : w < N -> nth_error (main_thread can_alias N throws : list (cmd A)) i = Some CTake -> exists j, j < i /\ nth_error (main_thread can_alias N throws : list (cmd A)) j = Some (CWait (Promised w 0)).
    Proof.
      intros Hw. unfold main_thread. destruct (find _ _) as [w0|].
      - intro H. exfalso. apply nth_error_In in H. destruct H as [H|H]; [discriminate|]. apply in_app_or in H as [H|H]; apply in_map_iff in H as (v & H & _); discriminate.
      - intro H. exists (S w). split.
        + destruct i as [|i]; [discriminate|]. cbn [nth_error] in H. destruct (Nat.lt_ge_cases i N) as [L|G]; [|lia]. exfalso. rewrite <- app_assoc, nth_error_app1 in H by now rewrite map_length, seq_length.
          apply nth_error_In, in_map_iff in H as (v & H & _). discriminate.
        + cbn [nth_error]. rewrite <- app_assoc, nth_error_app1 by now rewrite map_length, seq_length. rewrite nth_error_map, (nth_error_nth' _ 0) by now rewrite seq_length. now rewrite seq_nth.
    Qed.
    Lemma take_alias_after i w : w < N -> nth_error (main_thread can_alias N throws : list (cmd A)) i = Some CTakeAlias -> exists j, j < i /\ nth_error (main_thread can_alias N throws : list (cmd A)) j = Some (CWait (Promised w 1)).
    Proof.
      intros Hw. unfold main_thread. destruct (find _ _) as [w0|].
      - intro H. exfalso. apply nth_error_In in H. destruct H as [H|H]; [discriminate|]. apply in_app_or in H as [H|H]; apply in_map_iff in H as (v & H & _); discriminate.
      - destruct can_alias.
        + set (pre := (CSignal (Ready 0) : cmd A) :: map (fun w => CWait (Promised w 0)) (seq 0 N) ++ [CTake; CSignal (Ready 1)]).
          assert (Q : CSignal (Ready 0) :: (map (fun w => CWait (Promised w 0)) (seq 0 N) ++ [CTake] ++ CSignal (Ready 1) :: map (fun w => CWait (Promised w 1)) (seq 0 N) ++ [CTakeAlias]) ++ map (fun w => CWait (Exited w)) (seq 0 N)
            = pre ++ map (fun w => CWait (Promised w 1)) (seq 0 N) ++ CTakeAlias :: map (fun w => CWait (Exited w)) (seq 0 N) :> list (cmd A)).
          { unfold pre. cbn [app]. f_equal. rewrite <- !app_assoc. cbn [app]. rewrite <- !app_assoc. reflexivity. }
          rewrite Q. intro H. exists (length pre + w). assert (NP : ~ In CTakeAlias pre).
          { intros [P|P]; [discriminate|]. apply in_app_or in P as [P|[P|[P|[]]]]; [|discriminate|discriminate]. apply in_map_iff in P as (v & P & _). discriminate. }
          split.
          * destruct (Nat.lt_ge_cases i (length pre)) as [L|G]; [exfalso; rewrite nth_error_app1 in H by exact L; apply NP; eapply nth_error_In; exact H|].
            rewrite nth_error_app2 in H by exact G. destruct (Nat.lt_ge_cases (i - length pre) N) as [L2|G2]; [|lia]. exfalso. rewrite nth_error_app1 in H by now rewrite map_length, seq_length.
            apply nth_error_In, in_map_iff in H as (v & H & _). discriminate.
          * rewrite nth_error_app2 by lia. replace (length pre + w - length pre) with w by lia. rewrite nth_error_app1 by now rewrite map_length, seq_length. rewrite nth_error_map, (nth_error_nth' _ 0) by now rewrite seq_length. now rewrite seq_nth.
        + intro H. exfalso. apply nth_error_In in H. destruct H as [H|H]; [discriminate|]. rewrite app_nil_r in H. apply in_app_or in H as [H|H].
          * apply in_app_or in H as [H|[H|[]]]; [|discriminate]. apply in_map_iff in H as (v & H & _). discriminate.
          * apply in_map_iff in H as (v & H & _). discriminate.
    Qed.
    Lemma os_before_take w k x i : w < N -> nth_error (worker f rows cols nonh can_alias N throws w) k = Some x -> os_op N w x -> nth_error (main_thread can_alias N throws : list (cmd A)) i = Some CTake -> hb ps (S w, k) (0, i).
    Proof.
      intros Hw Hk O Hi. destruct (os_write_promise w k x Hw Hk O) as (j & L & Hj). destruct (take_after i w Hw Hi) as (q & Lq & Hq).
      eapply hb_trans; [apply hb_po; exact L|]. eapply hb_trans; [eapply promise_hb; eauto|]. now apply hb_po.
    Qed.
    Lemma al_before_take w k x i : w < N -> nth_error (worker f rows cols nonh can_alias N throws w) k = Some x -> al_op N w x -> nth_error (main_thread can_alias N throws : list (cmd A)) i = Some CTakeAlias -> hb ps (S w, k) (0, i).
    Proof.
      intros Hw Hk O Hi. destruct (al_write_promise w k x Hw Hk O) as (j & L & Hj). destruct (take_alias_after i w Hw Hi) as (q & Lq & Hq).
      eapply hb_trans; [apply hb_po; exact L|]. eapply hb_trans; [eapply promise_hb; eauto|]. now apply hb_po.
    Qed.

    (** * No data races *)
    Theorem no_races : race_free cj sm (n * n) ths.
    Proof.
      intros a b x y l Ha Hb D Wx Wy. destruct (thread_at a x Ha) as [[Fa Ia]|(w & Fa & Hw & Ia)]; destruct (thread_at b y Hb) as [[Fb Ib]|(v & Fb & Hv & Ib)]; [congruence| | |].
      - (* main against worker *)
        pose proof (nth_error_In _ _ Ia) as Ma. apply main_cases in Ma. pose proof (nth_error_In _ _ Ib) as Wb. apply worker_cases in Wb; [|exact Hv].
        destruct Ma as [[e ->]|[[k ->]|[->| ->]]]; cbn in Wx; try contradiction; destruct Wx as [<-|[]]; exfalso.
        all: destruct Wb as [[e ->]|[[e ->]|[O|O]]]; [destruct Wy as [[]|[]]|destruct Wy as [[]|[]]| |]; destruct y; cbn in O; try contradiction; cbn in Wy; intuition discriminate.
      - (* worker against main *)
        pose proof (nth_error_In _ _ Ib) as Mb. apply main_cases in Mb. pose proof (nth_error_In _ _ Ia) as Wa. apply worker_cases in Wa; [|exact Hw].
        assert (Pa : a = (S w, snd a)) by (destruct a; cbn in *; congruence). assert (Pb : b = (0, snd b)) by (destruct b; cbn in *; congruence). rewrite Pa, Pb. left.
        destruct Wa as [[e ->]|[[e ->]|[O|O]]]; [destruct Wx|destruct Wx| |].
        + destruct Mb as [[e ->]|[[k ->]|[->| ->]]]; [destruct Wy as [[]|[]]|destruct Wy as [[]|[]]|eapply os_before_take; eauto|exfalso].
          cbn in Wy. destruct x; cbn in O, Wx; try contradiction; destruct Wx as [<-|[]]; destruct Wy as [[Wy|[]]|Wy]; try discriminate; apply in_map_iff in Wy as (q & Wy & _); discriminate.
        + destruct Mb as [[e ->]|[[k ->]|[->| ->]]]; [destruct Wy as [[]|[]]|destruct Wy as [[]|[]]|exfalso|eapply al_before_take; eauto].
          cbn in Wy. destruct x; cbn in O, Wx; try contradiction; destruct Wx as [<-|[]]; destruct Wy as [[Wy|[]]|Wy]; try discriminate; apply in_map_iff in Wy as (q & Wy & _); discriminate.
      - (* two workers *)
        exfalso. assert (w <> v) as Dv by congruence. apply Dv. apply nth_error_In, worker_cases in Ia; [|exact Hw]. apply nth_error_In, worker_cases in Ib; [|exact Hv].
        destruct Ia as [[e ->]|[[e ->]|[O|O]]]; [destruct Wx|destruct Wx| |]; destruct Ib as [[e ->]|[[e ->]|[O'|O']]]; try (destruct Wy as [[]|[]]).
        all: destruct x; cbn in O; try contradiction; destruct y; cbn in O'; try contradiction; cbn in Wx, Wy; intuition congruence.
    Qed.
    (** * Conflicting actions are ordered *)
    Lemma set_at_cell (l : list (option A)) i j v : i <> j -> cell (set_at i v l) j = cell l j.
    Proof. intro D. unfold cell. rewrite set_at_nth. destruct (Nat.eqb_spec j i); [congruence|reflexivity]. Qed.
    Theorem conflicts_ordered : ordered_conflicts ps.
    Proof.
      intros a b x y Ha Hb D. rewrite at_pos_cmd in Ha, Hb. destruct (cmd_at ths a) as [cx|] eqn:Ca; [|discriminate]. destruct (cmd_at ths b) as [cy|] eqn:Cb; [|discriminate]. cbn in Ha, Hb. injection Ha as <-. injection Hb as <-. cbn [act instr_of].
      destruct (thread_at a cx Ca) as [[Fa Ia]|(w & Fa & Hw & Ia)]; destruct (thread_at b cy Cb) as [[Fb Ib]|(v & Fb & Hv & Ib)]; [congruence| | |].
      - pose proof (nth_error_In _ _ Ia) as Ma. apply main_cases in Ma. pose proof (nth_error_In _ _ Ib) as Wb. apply worker_cases in Wb; [|exact Hv].
        assert (Pb : b = (S v, snd b)) by (destruct b; cbn in *; congruence). assert (Pa : a = (0, snd a)) by (destruct a; cbn in *; congruence). rewrite Pa, Pb.
        destruct Ma as [[e ->]|[[k ->]|[->| ->]]]; [left; reflexivity|left; reflexivity| |]; destruct Wb as [[e ->]|[[e ->]|[O|O]]]; try (left; reflexivity).
        + right. right. eapply os_before_take; eauto.
        + left. intro m. destruct cy; try contradiction; reflexivity.
        + left. intro m. destruct cy; try contradiction; reflexivity.
        + right. right. eapply al_before_take; eauto.
      - pose proof (nth_error_In _ _ Ib) as Mb. apply main_cases in Mb. pose proof (nth_error_In _ _ Ia) as Wa. apply worker_cases in Wa; [|exact Hw].
        assert (Pa : a = (S w, snd a)) by (destruct a; cbn in *; congruence). assert (Pb : b = (0, snd b)) by (destruct b; cbn in *; congruence). rewrite Pa, Pb.
        destruct Mb as [[e ->]|[[k ->]|[->| ->]]]; [left; reflexivity|left; reflexivity| |]; destruct Wa as [[e ->]|[[e ->]|[O|O]]]; try (left; reflexivity).
        + right. left. eapply os_before_take; eauto.
        + left. intro m. destruct cx; try contradiction; reflexivity.
        + left. intro m. destruct cx; try contradiction; reflexivity.
        + right. left. eapply al_before_take; eauto.
      - left. intro m. assert (w <> v) as Dv by congruence. apply nth_error_In, worker_cases in Ia; [|exact Hw]. apply nth_error_In, worker_cases in Ib; [|exact Hv].
        destruct Ia as [[e ->]|[[e ->]|[O|O]]]; try reflexivity; destruct Ib as [[e ->]|[[e ->]|[O'|O']]]; try reflexivity.
        all: destruct cx; cbn in O; try contradiction; destruct cy; cbn in O'; try contradiction; cbn [run_cmd m_os m_al m_ret m_ret_al]; try reflexivity.
        all: f_equal; rewrite ?set_at_cell by (intros <-; intuition congruence); try reflexivity; apply set_at_comm; intros <-; intuition congruence.
    Qed.
  End Programs.
End Mat.
