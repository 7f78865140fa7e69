(** Complete runs of parallel matrix generation, and what they leave in memory. *)
From Coq Require Import List Arith Bool Lia PeanoNat.
From Verif Require Import ParModel ParProofs MatModel MatSpec MatProofs.
Import ListNotations.

Lemma list_ext {B} (l : list B) : forall l', (forall i, nth_error l i = nth_error l' i) -> l = l'.
Proof.
  induction l as [|x l IH]; intros [|y l'] H; [reflexivity|specialize (H 0); discriminate|specialize (H 0); discriminate|].
  f_equal; [specialize (H 0); now injection H|]. apply IH. intro i. apply (H (S i)).
Qed.
Lemma nth_map_seq {B} (g : nat -> B) k i : i < k -> nth_error (map g (seq 0 k)) i = Some (g i).
Proof. intro H. rewrite nth_error_map, (nth_error_nth' _ 0) by now rewrite seq_length. now rewrite seq_nth. Qed.
Section Run.
  Context {A : Type} (f : A -> A -> A) (cj sm : A -> A) (rows cols : list A).
  Notation n := (dim cols).
  Notation run := (run_cmd cj sm).
  Notation run_all := (run_all cj sm).
  Notation ins := (map (instr_of cj sm)).

  Lemma run_ins l m : run_instrs (ins l) m = run_all l m.
  Proof. unfold run_instrs, run_all. revert m. induction l as [|x l IH]; intro m; [reflexivity|]. cbn. apply IH. Qed.
  Lemma run_all_app l l' m : run_all (l ++ l') m = run_all l' (run_all l m).
  Proof. apply fold_left_app. Qed.
  Lemma ins_flat {B} (g : B -> list (cmd A)) l : flat_map (fun w => ins (g w)) l = ins (flat_map g l).
  Proof. induction l as [|x l IH]; [reflexivity|]. cbn. now rewrite IH, map_app. Qed.
  Lemma needs_ins l evs : (forall e, In (CWait e) l -> In e evs) -> forall i e, In i (ins l) -> In e (needs i) -> In e evs.
  Proof. intros H i e Hi He. apply in_map_iff in Hi as (c & <- & Hc). destruct c; cbn in He; try contradiction. destruct He as [<-|[]]. auto. Qed.
  Lemma main_run l1 l2 rest evs m : (forall e, In (CWait e) l1 -> In e evs) ->
    exists l evs', exec (mk_cstate (ins (l1 ++ l2) :: rest) evs m) l (mk_cstate (ins l2 :: rest) evs' (run_all l1 m)) /\ incl evs evs' /\ (forall e, In (CSignal e) l1 -> In e evs').
  Proof.
    intro H. rewrite map_app. destruct (run_main (ins l1) (ins l2) rest evs m (needs_ins _ _ H)) as (l & evs' & X & I & Em). exists l, evs'. rewrite run_ins in X. split; [exact X|]. split; [exact I|].
    intros e He. apply (Em (instr_of cj sm (CSignal e)) e); [now apply in_map|now left].
  Qed.
  Lemma workers_run (pre post : nat -> list (cmd A)) mainp todo evs m : (forall w e, In w todo -> In (CWait e) (pre w) -> In e evs) ->
    exists l evs', exec (mk_cstate (mainp :: map (fun w => ins (pre w ++ post w)) todo) evs m) l (mk_cstate (mainp :: map (fun w => ins (post w)) todo) evs' (run_all (flat_map pre todo) m)) /\
      incl evs evs' /\ (forall w e, In w todo -> In (CSignal e) (pre w) -> In e evs').
  Proof.
    intro H. destruct (run_workers (fun w => ins (pre w)) (fun w => ins (post w)) mainp todo [] evs m) as (l & evs' & X & I & Em).
    - intros w i e Hw. apply needs_ins. intros e' He'. eapply H; eauto.
    - exists l, evs'. rewrite ins_flat, run_ins in X. cbn [app] in X. split; [|split; [exact I|]].
      + erewrite map_ext; [exact X|]. intro w. cbn. apply map_app.
      + intros w e Hw He. eapply (Em w (instr_of cj sm (CSignal e)) e Hw); [now apply in_map|now left].
  Qed.
  Lemma workers_finish (pre : nat -> list (cmd A)) mainp todo evs m : (forall w e, In w todo -> In (CWait e) (pre w) -> In e evs) ->
    exists l evs', exec (mk_cstate (mainp :: map (fun w => ins (pre w)) todo) evs m) l (mk_cstate (mainp :: map (fun _ => []) todo) evs' (run_all (flat_map pre todo) m)) /\
      incl evs evs' /\ (forall w e, In w todo -> In (CSignal e) (pre w) -> In e evs').
  Proof.
    intro H. destruct (workers_run pre (fun _ => []) mainp todo evs m H) as (l & evs' & X & I & Em). exists l, evs'. split; [|split; assumption].
    rewrite (map_ext (fun w => ins (pre w)) (fun w => ins (pre w ++ []))); [exact X|]. intro w. now rewrite app_nil_r.
  Qed.
  Lemma gen_no_wait nonh N w e : w < N -> ~ In (CWait e) (gen f rows cols nonh N w).
  Proof. intros Hw H. now apply gen_owned in H. Qed.
  Lemma alias_no_wait nonh N w e : w < N -> ~ In (CWait e) (alias cols nonh N w : list (cmd A)).
  Proof. intros Hw H. now apply alias_owned in H. Qed.
  Lemma in_seq0 w N : In w (seq 0 N) <-> w < N.
  Proof. rewrite in_seq. lia. Qed.
  Lemma find_none_throws N : find (fun w => match nothing_throws w with Some _ => true | None => false end) (seq 0 N) = None.
  Proof. induction (seq 0 N); [reflexivity|]. exact IHl. Qed.
  Lemma all_finished (rest : list (list (instr (mat_mem A) signal))) evs m : (forall p, In p rest -> p = []) -> finished (mk_cstate ([] :: rest) evs m).
  Proof. intros H p [<-|Hp]; auto. Qed.
  Lemma programs_shape nonh can_alias N throws : programs f cj sm rows cols nonh can_alias N throws = ins (main_thread can_alias N throws) :: map (fun w => ins (worker f rows cols nonh can_alias N throws w)) (seq 0 N).
  Proof. unfold programs, threads. cbn [map]. now rewrite map_map. Qed.

  (** * Complete runs *)
  Definition waits0 N : list (cmd A) := map (fun w => CWait (Promised w 0)) (seq 0 N).
  Definition waits1 N : list (cmd A) := map (fun w => CWait (Promised w 1)) (seq 0 N).
  Definition joins N : list (cmd A) := map (fun w => CWait (Exited w)) (seq 0 N).
  Lemma in_waits k N e : In (CWait e) (map (fun w => CWait (Promised w k)) (seq 0 N) : list (cmd A)) -> exists w, w < N /\ e = Promised w k.
  Proof. intro H. apply in_map_iff in H as (w & H & I). injection H as <-. exists w. now apply in_seq0 in I. Qed.
  Lemma in_joins N e : In (CWait e) (joins N) -> exists w, w < N /\ e = Exited w.
  Proof. intro H. apply in_map_iff in H as (w & H & I). injection H as <-. exists w. now apply in_seq0 in I. Qed.

  Lemma complete_plain nonh N throws : exists l s, exec (start (programs f cj sm rows cols nonh false N throws) (fresh cols)) l s /\ finished s /\
    c_mem s = run_all (main_thread false N throws) (run_all (flat_map (worker f rows cols nonh false N throws) (seq 0 N)) (fresh cols)).
  Proof.
    rewrite programs_shape. set (mt := main_thread false N throws). assert (Em : exists mt', mt = CSignal (Ready 0) :: mt' /\ (forall e, In (CWait e) mt' -> exists w, w < N /\ (e = Promised w 0 \/ e = Exited w))).
    { unfold mt, main_thread. eexists. split; [reflexivity|]. intros e H. apply in_app_or in H as [H|H]; [|apply in_joins in H as (w & L & ->); eauto].
      destruct (find _ _) as [w0|] eqn:F.
      - apply in_waits in H as (w & L & ->). exists w. apply find_some in F as [F _]. apply in_seq0 in F. split; [lia|auto].
      - rewrite app_nil_r in H. apply in_app_or in H as [H|[H|[]]]; [|discriminate]. apply in_waits in H as (w & L & ->). eauto. }
    destruct Em as (mt' & -> & Wm). unfold start.
    destruct (main_run [CSignal (Ready 0)] mt' (map (fun w => ins (worker f rows cols nonh false N throws w)) (seq 0 N)) [] (fresh cols)) as (l1 & e1 & X1 & I1 & S1).
    { intros e [H|[]]. discriminate. }
    destruct (workers_finish (worker f rows cols nonh false N throws) (ins mt') (seq 0 N) e1 (run_all [CSignal (Ready 0)] (fresh cols))) as (l2 & e2 & X2 & I2 & S2).
    { intros w e Hw He. apply in_seq0 in Hw. rewrite worker_shape in He. apply in_app_or in He as [[He|He]|[He|He]]; [injection He as <-; apply S1; now left| |discriminate|].
      - apply work_owned in He; [destruct He|exact Hw].
      - unfold after in He. destruct (throws w); apply in_app_or in He as [[]|[He|[]]]; discriminate. }
    destruct (main_run mt' [] (map (fun _ => []) (seq 0 N)) e2 (run_all (flat_map (worker f rows cols nonh false N throws) (seq 0 N)) (run_all [CSignal (Ready 0)] (fresh cols)))) as (l3 & e3 & X3 & I3 & S3).
    { intros e He. destruct (Wm e He) as (w & Hw & [-> | ->]); apply (S2 w _ (proj2 (in_seq0 w N) Hw)); rewrite worker_shape; apply in_or_app; right; [now left|right]. unfold after. apply in_or_app. right. now left. }
    exists (l1 ++ l2 ++ l3). eexists. split; [|split].
    - eapply exec_app; [exact X1|]. eapply exec_app; [exact X2|rewrite app_nil_r in X3; exact X3].
    - apply all_finished. intros p Hp. apply in_map_iff in Hp as (w & <- & _). reflexivity.
    - reflexivity.
  Qed.
  Lemma complete_alias nonh N : exists l s, exec (start (programs f cj sm rows cols nonh true N nothing_throws) (fresh cols)) l s /\ finished s /\
    c_mem s = run_all (waits1 N ++ [CTakeAlias] ++ joins N) (run_all (flat_map (fun w => CWait (Ready 1) :: alias cols nonh N w ++ [CSignal (Promised w 1); CSignal (Exited w)]) (seq 0 N))
      (run_all (waits0 N ++ [CTake; CSignal (Ready 1)]) (run_all (flat_map (fun w => CWait (Ready 0) :: gen f rows cols nonh N w ++ [CSignal (Promised w 0)]) (seq 0 N)) (fresh cols)))).
  Proof.
    rewrite programs_shape. assert (Em : main_thread true N nothing_throws = [CSignal (Ready 0)] ++ (waits0 N ++ [CTake; CSignal (Ready 1)]) ++ waits1 N ++ [CTakeAlias] ++ joins N :> list (cmd A)).
    { unfold main_thread. rewrite find_none_throws. cbn [app]. f_equal. unfold waits0, waits1, joins. rewrite <- !app_assoc. cbn [app]. do 3 f_equal. now rewrite <- app_assoc. }
    set (pre := fun w => CWait (Ready 0) :: gen f rows cols nonh N w ++ [CSignal (Promised w 0)]).
    set (post := fun w => CWait (Ready 1) :: alias cols nonh N w ++ [CSignal (Promised w 1); CSignal (Exited w)]).
    assert (Ew : forall w, worker f rows cols nonh true N nothing_throws w = pre w ++ post w).
    { intro w. unfold worker, pre, post, nothing_throws. cbn [app]. f_equal. rewrite <- !app_assoc. cbn [app]. rewrite <- ?app_assoc. reflexivity. }
    rewrite Em. unfold start.
    destruct (main_run [CSignal (Ready 0)] ((waits0 N ++ [CTake; CSignal (Ready 1)]) ++ waits1 N ++ [CTakeAlias] ++ joins N) (map (fun w => ins (worker f rows cols nonh true N nothing_throws w)) (seq 0 N)) [] (fresh cols)) as (l1 & e1 & X1 & I1 & S1).
    { intros e [H|[]]. discriminate. }
    destruct (workers_run pre post (ins ((waits0 N ++ [CTake; CSignal (Ready 1)]) ++ waits1 N ++ [CTakeAlias] ++ joins N)) (seq 0 N) e1 (run_all [CSignal (Ready 0)] (fresh cols))) as (l2 & e2 & X2 & I2 & S2).
    { intros w e Hw [He|He]; [injection He as <-; apply S1; now left|]. apply in_seq0 in Hw. apply in_app_or in He as [He|[He|[]]]; [now apply gen_no_wait in He|discriminate]. }
    set (m2 := run_all (flat_map pre (seq 0 N)) (run_all [CSignal (Ready 0)] (fresh cols))) in *.
    destruct (main_run (waits0 N ++ [CTake; CSignal (Ready 1)]) (waits1 N ++ [CTakeAlias] ++ joins N) (map (fun w => ins (post w)) (seq 0 N)) e2 m2) as (l3 & e3 & X3 & I3 & S3).
    { intros e He. apply in_app_or in He as [He|[He|[He|[]]]]; try discriminate. apply in_waits in He as (w & Hw & ->). apply (S2 w _ (proj2 (in_seq0 w N) Hw)). right. apply in_or_app. right. now left. }
    set (m3 := run_all (waits0 N ++ [CTake; CSignal (Ready 1)]) m2) in *.
    destruct (workers_finish post (ins (waits1 N ++ [CTakeAlias] ++ joins N)) (seq 0 N) e3 m3) as (l4 & e4 & X4 & I4 & S4).
    { intros w e Hw [He|He]; [injection He as <-; apply S3; apply in_or_app; right; right; now left|]. apply in_seq0 in Hw. apply in_app_or in He as [He|[He|[He|[]]]]; [now apply alias_no_wait in He|discriminate|discriminate]. }
    set (m4 := run_all (flat_map post (seq 0 N)) m3) in *.
    destruct (main_run (waits1 N ++ [CTakeAlias] ++ joins N) [] (map (fun _ => []) (seq 0 N)) e4 m4) as (l5 & e5 & X5 & I5 & S5).
    { intros e He. apply in_app_or in He as [He|[He|He]]; [|discriminate|].
      - apply in_waits in He as (w & Hw & ->). apply (S4 w _ (proj2 (in_seq0 w N) Hw)). right. apply in_or_app. right. now left.
      - apply in_joins in He as (w & Hw & ->). apply (S4 w _ (proj2 (in_seq0 w N) Hw)). right. apply in_or_app. right. right. now left. }
    exists (l1 ++ l2 ++ l3 ++ l4 ++ l5). eexists. split; [|split].
    - eapply exec_app; [exact X1|]. eapply exec_app; [|eapply exec_app; [exact X3|eapply exec_app; [exact X4|rewrite app_nil_r in X5; exact X5]]].
      rewrite (map_ext (fun w => ins (worker f rows cols nonh true N nothing_throws w)) (fun w => ins (pre w ++ post w))); [exact X2|]. intro w. now rewrite Ew.
    - apply all_finished. intros p Hp. apply in_map_iff in Hp as (w & <- & _). reflexivity.
    - reflexivity.
  Qed.

  (** * What the cells hold *)
  Section Cells.
    Variables (inv : mat_mem A -> Prop) (good : mat_mem A -> nat -> Prop).
    Definition sets (L : list nat) (l : list (cmd A)) : Prop :=
      forall m, inv m -> inv (run_all l m) /\ (forall i, In i L -> good (run_all l m) i) /\ (forall i, good m i -> good (run_all l m) i).
    Lemma sets_nil : sets [] [].
    Proof. intros m I. split; [exact I|]. split; [intros i []|auto]. Qed.
    Lemma sets_app L l L' l' : sets L l -> sets L' l' -> sets (L ++ L') (l ++ l').
    Proof.
      intros H H' m I. rewrite run_all_app. destruct (H m I) as (I1 & G1 & K1). destruct (H' _ I1) as (I2 & G2 & K2). split; [exact I2|]. split; [|auto].
      intros i Hi. apply in_app_or in Hi as [Hi|Hi]; auto.
    Qed.
    Lemma sets_flat {B} (L : B -> list nat) (g : B -> list (cmd A)) l : (forall x, In x l -> sets (L x) (g x)) -> sets (flat_map L l) (flat_map g l).
    Proof. induction l as [|x l IH]; intro H; [apply sets_nil|]. cbn. apply sets_app; [apply H; now left|apply IH; intros; apply H; now right]. Qed.
    Lemma sets_cons i x L l : sets [i] [x] -> sets L l -> sets (i :: L) (x :: l).
    Proof. apply (sets_app [i] [x]). Qed.
  End Cells.
  Definition cells_of (N w : nat) : list nat := flat_map (fun c => (c * n + c) :: flat_map (fun r => [c * n + r; r * n + c]) (below cols c)) (strided n w N n).
  Lemma cells_all N i : 0 < N -> i < n * n -> exists w, w < N /\ In i (cells_of N w).
  Proof.
    intros HN Hi. assert (P : 0 < n) by (destruct n; lia). set (r := i mod n). set (c := i / n).
    assert (Ei : i = c * n + r) by (pose proof (Nat.div_mod i n); lia). assert (Hr : r < n) by (apply Nat.mod_upper_bound; lia). assert (Hc : c < n) by (apply Nat.div_lt_upper_bound; lia).
    exists (Nat.min r c mod N). split; [apply Nat.mod_upper_bound; lia|]. unfold cells_of. apply in_flat_map. exists (Nat.min r c). split; [apply strided_mod; [apply Nat.mod_upper_bound; lia|lia]|].
    destruct (Nat.lt_trichotomy r c) as [L|[Q|L]].
    - rewrite Nat.min_l by lia. right. apply in_flat_map. exists c. split; [apply in_below; lia|]. right. left. lia.
    - left. rewrite Q, Nat.min_id. lia.
    - rewrite Nat.min_r by lia. right. apply in_flat_map. exists r. split; [apply in_below; lia|]. left. lia.
  Qed.
  Lemma idx_bound r c : r < n -> c < n -> c * n + r < n * n.
  Proof. intros. nia. Qed.

  (** first phase *)
  Definition want (i : nat) : option A := elem f rows cols (i mod n) (i / n).
  Lemma want_cell r c : r < n -> want (c * n + r) = elem f rows cols r c.
  Proof. intro H. unfold want. rewrite (Nat.add_comm (c * n)), Nat.mod_add, Nat.div_add, (Nat.mod_small r n), (Nat.div_small r n) by lia. reflexivity. Qed.
  Definition inv0 (al : list (option A)) (rt ra : option (list (option A))) (m : mat_mem A) : Prop := length (m_os m) = n * n /\ m_al m = al /\ m_ret m = rt /\ m_ret_al m = ra.
  Definition good0 (m : mat_mem A) (i : nat) : Prop := nth_error (m_os m) i = Some (want i).
  Lemma put_sets al rt ra i : i < n * n -> sets (inv0 al rt ra) good0 [i] [CPut i (want i)].
  Proof.
    intros Hi m (I1 & I2 & I3 & I4). cbn. split; [repeat split; try assumption; cbn; now rewrite set_at_length|]. unfold good0. cbn [m_os].
    split; [intros j [<-|[]]; rewrite set_at_nth, Nat.eqb_refl; destruct (nth_error (m_os m) i) eqn:E; [reflexivity|apply nth_error_None in E; lia]|].
    intros j Hj. rewrite set_at_nth. destruct (Nat.eqb_spec j i) as [->|]; [now rewrite Hj|exact Hj].
  Qed.
  Lemma mirror_sets al rt ra i j : i < n * n -> j < n * n -> want i = option_map cj (want j) -> sets (inv0 al rt ra) good0 [j; i] [CPut j (want j); CMirror i j].
  Proof.
    intros Hi Hj W m I. destruct (put_sets al rt ra j Hj m I) as (I1 & G1 & K1). change [CPut j (want j); CMirror i j] with ([CPut j (want j)] ++ [CMirror i j]). rewrite run_all_app.
    set (m1 := run_all [CPut j (want j)] m) in *. specialize (G1 j (or_introl eq_refl)). unfold good0 in G1. destruct I1 as (I1 & I2 & I3 & I4).
    assert (C : cell (m_os m1) j = want j) by (unfold cell; now rewrite G1). change (run_all [CMirror i j] m1) with (run (CMirror i j) m1). cbn [run_cmd]. rewrite C, <- W. split; [repeat split; try assumption; cbn; now rewrite set_at_length|]. unfold good0. cbn [m_os].
    assert (K : forall k, nth_error (m_os m1) k = Some (want k) -> nth_error (set_at i (want i) (m_os m1)) k = Some (want k)).
    { intros k Hk. rewrite set_at_nth. destruct (Nat.eqb_spec k i) as [->|]; [now rewrite Hk|exact Hk]. }
    split; [|intros k Hk; now apply K, K1]. intros k [<-|[<-|[]]]; [now apply K|]. rewrite set_at_nth, Nat.eqb_refl. destruct (nth_error (m_os m1) i) eqn:E; [reflexivity|apply nth_error_None in E; lia].
  Qed.
  Lemma gen_sets nonh N w al rt ra : w < N -> (nonh = false -> forall r c, r < n -> c < n -> elem f rows cols c r = option_map cj (elem f rows cols r c)) ->
    sets (inv0 al rt ra) good0 (cells_of N w) (gen f rows cols nonh N w).
  Proof.
    intros Hw HH. unfold cells_of. destruct nonh; cbn [gen]; apply sets_flat; intros c Hc; apply strided_mod in Hc as [Hc _]; try exact Hw.
    - apply sets_cons; [rewrite <- (want_cell c c) by exact Hc; apply put_sets; now apply idx_bound|]. apply sets_flat. intros r Hr. apply in_below in Hr.
      apply sets_cons; [rewrite <- (want_cell r c) by lia; apply put_sets; apply idx_bound; lia|]. rewrite <- (want_cell c r) by lia. apply put_sets. apply idx_bound; lia.
    - apply sets_cons; [rewrite <- (want_cell c c) by exact Hc; apply put_sets; now apply idx_bound|]. apply sets_flat. intros r Hr. apply in_below in Hr.
      rewrite <- (want_cell r c) by lia. apply mirror_sets; [apply idx_bound; lia|apply idx_bound; lia|]. rewrite !want_cell by lia. apply HH; [reflexivity|lia|lia].
  Qed.
  Lemma skip_sets inv good l : (forall x, In x l -> (exists e, x = CWait e) \/ exists e, x = CSignal e) -> sets inv good [] l.
  Proof.
    intros H m I. assert (R : run_all l m = m). { clear I. revert m. induction l as [|x l IH]; intro m; [reflexivity|]. cbn. destruct (H x (or_introl eq_refl)) as [[e ->]|[e ->]]; cbn; apply IH; intros; apply H; now right. }
    rewrite R. split; [exact I|]. split; [intros i []|auto].
  Qed.
  Definition full : list (option A) := map want (seq 0 (n * n)).
  Lemma all_good (l : list (option A)) : length l = n * n -> (forall i, i < n * n -> nth_error l i = Some (want i)) -> l = full.
  Proof.
    intros L H. apply list_ext. intro i. destruct (Nat.lt_ge_cases i (n * n)) as [Hi|Hi].
    - rewrite H by exact Hi. unfold full. rewrite nth_error_map, (nth_error_nth' _ 0) by now rewrite seq_length. now rewrite seq_nth.
    - rewrite (proj2 (nth_error_None l i)), (proj2 (nth_error_None full i)); [reflexivity|unfold full; rewrite map_length, seq_length; lia|lia].
  Qed.

  (** second phase *)
  Definition inv1 (m : mat_mem A) : Prop := m_os m = full /\ length (m_al m) = n * n /\ m_ret m = Some full /\ m_ret_al m = None.
  Definition want1 (i : nat) : option A := option_map sm (want i).
  Definition good1 (m : mat_mem A) (i : nat) : Prop := nth_error (m_al m) i = Some (want1 i).
  Lemma full_cell i : i < n * n -> cell full i = want i.
  Proof. intro H. unfold cell, full. rewrite nth_error_map, (nth_error_nth' _ 0) by now rewrite seq_length. now rewrite seq_nth. Qed.
  Lemma alias_sets1 i : i < n * n -> sets inv1 good1 [i] [CAlias i i].
  Proof.
    intros Hi m (I1 & I2 & I3 & I4). change (run_all [CAlias i i] m) with (run (CAlias i i) m). cbn [run_cmd]. rewrite I1, full_cell by exact Hi. split; [repeat split; try assumption; cbn; now rewrite set_at_length|].
    unfold good1. cbn [m_al]. fold (want1 i). split; [intros j [<-|[]]; rewrite set_at_nth, Nat.eqb_refl; destruct (nth_error (m_al m) i) eqn:E; [reflexivity|apply nth_error_None in E; lia]|].
    intros j Hj. rewrite set_at_nth. destruct (Nat.eqb_spec j i) as [->|]; [now rewrite Hj|exact Hj].
  Qed.
  Lemma alias_mirror1 i j : i < n * n -> j < n * n -> want1 i = option_map cj (want1 j) -> sets inv1 good1 [j; i] [CAlias j j; CAliasMirror i j].
  Proof.
    intros Hi Hj W m I. destruct (alias_sets1 j Hj m I) as (I1 & G1 & K1). change [CAlias j j; CAliasMirror i j] with ([CAlias j j] ++ [CAliasMirror i j] : list (cmd A)). rewrite run_all_app.
    set (m1 := run_all [CAlias j j] m) in *. specialize (G1 j (or_introl eq_refl)). unfold good1 in G1. destruct I1 as (I1 & I2 & I3 & I4).
    assert (C : cell (m_al m1) j = want1 j) by (unfold cell; now rewrite G1). change (run_all [CAliasMirror i j] m1) with (run (CAliasMirror i j) m1). cbn [run_cmd]. rewrite C, <- W.
    split; [repeat split; try assumption; cbn; now rewrite set_at_length|]. unfold good1. cbn [m_al].
    assert (K : forall k, nth_error (m_al m1) k = Some (want1 k) -> nth_error (set_at i (want1 i) (m_al m1)) k = Some (want1 k)).
    { intros k Hk. rewrite set_at_nth. destruct (Nat.eqb_spec k i) as [->|]; [now rewrite Hk|exact Hk]. }
    split; [|intros k Hk; now apply K, K1]. intros k [<-|[<-|[]]]; [now apply K|]. rewrite set_at_nth, Nat.eqb_refl. destruct (nth_error (m_al m1) i) eqn:E; [reflexivity|apply nth_error_None in E; lia].
  Qed.
  Lemma alias_sets nonh N w : w < N -> (nonh = false -> forall r c, r < n -> c < n -> option_map sm (elem f rows cols c r) = option_map cj (option_map sm (elem f rows cols r c))) ->
    sets inv1 good1 (cells_of N w) (alias cols nonh N w).
  Proof.
    intros Hw HH. unfold cells_of. destruct nonh; cbn [alias]; apply sets_flat; intros c Hc; apply strided_mod in Hc as [Hc _]; try exact Hw.
    - apply sets_cons; [apply alias_sets1; now apply idx_bound|]. apply sets_flat. intros r Hr. apply in_below in Hr.
      apply sets_cons; apply alias_sets1; apply idx_bound; lia.
    - apply sets_cons; [apply alias_sets1; now apply idx_bound|]. apply sets_flat. intros r Hr. apply in_below in Hr.
      apply alias_mirror1; [apply idx_bound; lia|apply idx_bound; lia|]. unfold want1. rewrite !want_cell by lia. apply HH; [reflexivity|lia|lia].
  Qed.

  (** * The result of a complete run *)
  Lemma run_skip l m : (forall x, In x l -> (exists e, x = CWait e) \/ exists e, x = CSignal e) -> run_all l m = m.
  Proof. revert m. induction l as [|x l IH]; intros m H; [reflexivity|]. cbn. destruct (H x (or_introl eq_refl)) as [[e ->]|[e ->]]; cbn; apply IH; intros; apply H; now right. Qed.
  Lemma waits_skip k N : forall x, In x (map (fun w => CWait (Promised w k)) (seq 0 N) : list (cmd A)) -> (exists e, x = CWait e) \/ exists e, x = CSignal e.
  Proof. intros x H. apply in_map_iff in H as (w & <- & _). eauto. Qed.
  Lemma joins_skip N : forall x, In x (joins N) -> (exists e, x = CWait e) \/ exists e, x = CSignal e.
  Proof. intros x H. apply in_map_iff in H as (w & <- & _). eauto. Qed.
  Lemma fresh_inv : inv0 (repeat None (n * n)) None None (fresh cols).
  Proof. unfold inv0, fresh. cbn. now rewrite repeat_length. Qed.
  Lemma phase0 nonh N (pre post : nat -> list (cmd A)) : 0 < N -> (nonh = false -> forall r c, r < n -> c < n -> elem f rows cols c r = option_map cj (elem f rows cols r c)) ->
    (forall w x, In x (pre w) \/ In x (post w) -> (exists e, x = CWait e) \/ exists e, x = CSignal e) ->
    run_all (flat_map (fun w => pre w ++ gen f rows cols nonh N w ++ post w) (seq 0 N)) (fresh cols) = mk_mem full (repeat None (n * n)) None None.
  Proof.
    intros HN HH Sk. assert (St : sets (inv0 (repeat None (n * n)) None None) good0 (flat_map (fun w => [] ++ cells_of N w ++ []) (seq 0 N)) (flat_map (fun w => pre w ++ gen f rows cols nonh N w ++ post w) (seq 0 N))).
    { apply sets_flat. intros w Hw. apply in_seq0 in Hw. apply sets_app; [apply skip_sets; intros; eapply Sk; eauto|]. apply sets_app; [now apply gen_sets|apply skip_sets; intros; eapply Sk; eauto]. }
    destruct (St _ fresh_inv) as ((I1 & I2 & I3 & I4) & G & _). set (m := run_all _ (fresh cols)) in *. assert (F : m_os m = full).
    { apply all_good; [exact I1|]. intros i Hi. apply G. destruct (cells_all N i HN Hi) as (w & Hw & Iw). apply in_flat_map. exists w. split; [now apply in_seq0|]. cbn [app]. apply in_or_app. now left. }
    destruct m as [a b c d]. cbn in *. congruence.
  Qed.
  Lemma elem_herm : length rows = n -> hermitian_by f cj rows cols -> forall r c, r < n -> c < n -> elem f rows cols c r = option_map cj (elem f rows cols r c).
  Proof.
    intros L H r c Hr Hc. unfold elem. destruct (nth_error rows r) as [xr|] eqn:E1; [|apply nth_error_None in E1; lia]. destruct (nth_error cols c) as [yc|] eqn:E2; [|apply nth_error_None in E2; unfold dim in Hc; lia].
    destruct (nth_error rows c) as [xc|] eqn:E3; [|apply nth_error_None in E3; lia]. destruct (nth_error cols r) as [yr|] eqn:E4; [|apply nth_error_None in E4; unfold dim in Hr; lia]. cbn. f_equal. eapply H; eauto.
  Qed.
  Lemma st_nth rs cs r c : r < length rs -> c < length cs -> nth_error (st_generate f rs cs) (c * length rs + r) = elem f rs cs r c.
  Proof.
    intros Hr. revert c. induction cs as [|y cs IH]; intros c Hc; [cbn in Hc; lia|]. unfold st_generate in *. cbn [flat_map]. destruct c as [|c].
    - cbn [Nat.mul Nat.add]. rewrite nth_error_app1 by now rewrite map_length. rewrite nth_error_map. unfold elem. cbn. now destruct (nth_error rs r).
    - rewrite nth_error_app2 by (rewrite map_length; cbn; lia). rewrite map_length. replace (S c * length rs + r - length rs) with (c * length rs + r) by (cbn; lia). rewrite IH by (cbn in Hc; lia). reflexivity.
  Qed.
  Lemma st_length rs cs : length (st_generate f rs cs) = length rs * length cs.
  Proof. unfold st_generate. induction cs as [|y cs IH]; [cbn; lia|]. cbn [flat_map]. rewrite app_length, map_length, IH. cbn. lia. Qed.
  Lemma full_st : length rows = n -> full = map Some (st_generate f rows cols).
  Proof.
    intro L. apply list_ext. intro i. destruct (Nat.lt_ge_cases i (n * n)) as [Hi|Hi].
    - unfold full. rewrite !nth_error_map, (nth_error_nth' _ 0) by now rewrite seq_length. rewrite seq_nth by exact Hi. cbn. unfold want. assert (P : 0 < n) by (destruct n; lia).
      assert (Ei : i = (i / n) * n + i mod n) by (pose proof (Nat.div_mod i n); lia). pose proof (st_nth rows cols (i mod n) (i / n)) as Q. rewrite L, <- Ei in Q.
      rewrite Q; [|apply Nat.mod_upper_bound; lia|change (i / n < n); apply Nat.div_lt_upper_bound; lia].
      assert (X : elem f rows cols (i mod n) (i / n) <> None).
      { unfold elem. destruct (nth_error rows (i mod n)) eqn:E1; [|apply nth_error_None in E1; pose proof (Nat.mod_upper_bound i n); lia]. destruct (nth_error cols (i / n)) eqn:E2; [discriminate|].
        apply nth_error_None in E2. assert (i / n < n) by (apply Nat.div_lt_upper_bound; lia). unfold dim in *. lia. }
      destruct (elem _ _ _ _ _); [reflexivity|congruence].
    - rewrite (proj2 (nth_error_None full i)), (proj2 (nth_error_None (map Some _) i)); [reflexivity|rewrite map_length, st_length, L; exact Hi|unfold full; rewrite map_length, seq_length; exact Hi].
  Qed.
  Lemma generated_st : generated f rows cols (st_generate f rows cols).
  Proof.
    split; [apply st_length|]. intros r c x y Hx Hy. rewrite st_nth; [|apply nth_error_Some; congruence|apply nth_error_Some; congruence]. unfold elem. now rewrite Hx, Hy.
  Qed.

  Theorem parallel_result nonh can_alias N l s : length rows = n -> 0 < N -> (nonh = false -> hermitian_by f cj rows cols) ->
    (nonh = false -> can_alias = true -> forall x, In x (st_generate f rows cols) -> sm (cj x) = cj (sm x)) ->
    exec (start (programs f cj sm rows cols nonh can_alias N nothing_throws) (fresh cols)) l s -> finished s ->
    m_ret (c_mem s) = Some (map Some (st_generate f rows cols)) /\
    m_ret_al (c_mem s) = if can_alias then Some (map Some (st_aliased sm (st_generate f rows cols))) else None.
  Proof.
    intros L HN HH HS X F. assert (HE : nonh = false -> forall r c, r < n -> c < n -> elem f rows cols c r = option_map cj (elem f rows cols r c)) by (intros E; apply elem_herm; auto).
    rewrite <- full_st by exact L. destruct can_alias.
    - destruct (complete_alias nonh N) as (l' & s' & X' & F' & M). rewrite (deterministic _ _ _ _ _ _ (conflicts_ordered f cj sm rows cols nonh true N nothing_throws) X F X' F'), M.
      replace (flat_map (fun w => CWait (Ready 0) :: gen f rows cols nonh N w ++ [CSignal (Promised w 0)]) (seq 0 N)) with (flat_map (fun w => [CWait (Ready 0)] ++ gen f rows cols nonh N w ++ [CSignal (Promised w 0)]) (seq 0 N)) by reflexivity.
      rewrite (phase0 nonh N (fun _ => [CWait (Ready 0)]) (fun w => [CSignal (Promised w 0)]) HN HE).
      2:{ intros w x [[<-|[]]|[<-|[]]]; eauto. }
      rewrite (run_all_app (waits0 N)), (run_skip (waits0 N)) by apply waits_skip.
      set (m1 := run_all [CTake; CSignal (Ready 1)] _). assert (I1 : inv1 m1) by (unfold m1, inv1; cbn; now rewrite repeat_length).
      assert (St : sets inv1 good1 (flat_map (fun w => [] ++ cells_of N w ++ []) (seq 0 N)) (flat_map (fun w => [CWait (Ready 1)] ++ alias cols nonh N w ++ [CSignal (Promised w 1); CSignal (Exited w)]) (seq 0 N))).
      { apply sets_flat. intros w Hw. apply in_seq0 in Hw. apply sets_app; [apply skip_sets; intros x [<-|[]]; eauto|]. apply sets_app; [apply alias_sets; [exact Hw|]|apply skip_sets; intros x [<-|[<-|[]]]; eauto].
        intros En r c Hr Hc. rewrite (HE En r c Hr Hc). destruct (elem f rows cols r c) as [x|] eqn:Ex; [|reflexivity]. cbn. f_equal. apply HS; [exact En|reflexivity|].
        apply nth_error_In with (n := c * length rows + r). rewrite st_nth; [exact Ex|lia|exact Hc]. }
      destruct (St m1 I1) as ((J1 & J2 & J3 & J4) & G & _). cbn [app] in J1, J2, J3, J4, G. set (m2 := run_all (flat_map _ (seq 0 N)) m1) in *.
      assert (E2 : m_al m2 = map want1 (seq 0 (n * n))).
      { apply list_ext. intro i. destruct (Nat.lt_ge_cases i (n * n)) as [Hi|Hi].
        - rewrite (G i); [symmetry; apply nth_map_seq; exact Hi|]. destruct (cells_all N i HN Hi) as (w & Hw & Iw). apply in_flat_map. exists w. split; [now apply in_seq0|].
          apply in_or_app. now left.
        - rewrite (proj2 (nth_error_None (m_al m2) i)), (proj2 (nth_error_None (map want1 _) i)); [reflexivity|rewrite map_length, seq_length; exact Hi|lia]. }
      rewrite run_all_app, (run_skip (waits1 N)) by apply waits_skip. rewrite run_all_app, (run_skip (joins N)) by apply joins_skip. cbn. rewrite J3, E2. split; [reflexivity|]. f_equal.
      unfold st_aliased. transitivity (map (option_map sm) full); [unfold full; now rewrite map_map|]. rewrite (full_st L), !map_map. reflexivity.
    - destruct (complete_plain nonh N nothing_throws) as (l' & s' & X' & F' & M). rewrite (deterministic _ _ _ _ _ _ (conflicts_ordered f cj sm rows cols nonh false N nothing_throws) X F X' F'), M.
      replace (flat_map (worker f rows cols nonh false N nothing_throws) (seq 0 N)) with (flat_map (fun w => [CWait (Ready 0)] ++ gen f rows cols nonh N w ++ [CSignal (Promised w 0); CSignal (Exited w)]) (seq 0 N)) by reflexivity.
      rewrite (phase0 nonh N (fun _ => [CWait (Ready 0)]) (fun w => [CSignal (Promised w 0); CSignal (Exited w)]) HN HE).
      2:{ intros w x [[<-|[]]|[<-|[<-|[]]]]; eauto. }
      unfold main_thread. rewrite find_none_throws. rewrite app_nil_r. change (CSignal (Ready 0) :: (map (fun w => CWait (Promised w 0)) (seq 0 N) ++ [CTake]) ++ map (fun w => CWait (Exited w)) (seq 0 N)) with ([CSignal (Ready 0)] ++ (waits0 N ++ [CTake]) ++ joins N).
      rewrite run_all_app, (run_skip [CSignal (Ready 0)]) by (intros x [<-|[]]; eauto). rewrite run_all_app, (run_skip (joins N)) by apply joins_skip. rewrite run_all_app, (run_skip (waits0 N)) by apply waits_skip. cbn. split; reflexivity.
  Qed.

  (** * Every schedule finishes *)
  Theorem never_stuck nonh can_alias N throws l s : can_alias = false \/ throws = nothing_throws ->
    exec (start (programs f cj sm rows cols nonh can_alias N throws) (fresh cols)) l s -> finished s \/ exists t s', step s t s'.
  Proof.
    intros H X. destruct can_alias.
    - destruct H as [H| ->]; [discriminate|]. destruct (complete_alias nonh N) as (l' & s' & X' & F' & _). eapply no_deadlock; eauto.
    - destruct (complete_plain nonh N throws) as (l' & s' & X' & F' & _). eapply no_deadlock; eauto.
  Qed.
  (** an exception leaves no matrix *)
  Theorem exception_no_matrix nonh can_alias N throws l s w k : w < N -> throws w = Some k ->
    exec (start (programs f cj sm rows cols nonh can_alias N throws) (fresh cols)) l s -> m_ret (c_mem s) = None /\ m_ret_al (c_mem s) = None.
  Proof.
    intros Hw T X. rewrite (proj1 (exec_mem _ _ _ _ X)). unfold acts. assert (G : forall tr m, m_ret m = None -> m_ret_al m = None -> let m' := fold_left (fun m p => match at_pos (programs f cj sm rows cols nonh can_alias N throws) p with Some i => act i m | None => m end) tr m in m_ret m' = None /\ m_ret_al m' = None).
    { induction tr as [|p tr IH]; intros m R1 R2; [split; assumption|]. cbn [fold_left]. rewrite at_pos_cmd. destruct (cmd_at _ p) as [x|] eqn:Ec; [|apply IH; assumption]. cbn [option_map act instr_of].
      assert (Nt : x <> CTake /\ x <> CTakeAlias).
      { destruct (thread_at f rows cols nonh can_alias N throws p x Ec) as [[_ I]|(v & _ & Hv & I)]; apply nth_error_In in I.
        - unfold main_thread in I. destruct (find _ _) as [w0|] eqn:Fd.
          + destruct I as [<-|I]; [split; discriminate|]. apply in_app_or in I as [I|I]; apply in_map_iff in I as (q & <- & _); split; discriminate.
          + exfalso. pose proof (find_none _ _ Fd w (proj2 (in_seq0 w N) Hw)) as Q. cbn in Q. now rewrite T in Q.
        - apply worker_cases in I; [|exact Hv]. destruct I as [[e ->]|[[e ->]|[O|O]]]; [split; discriminate|split; discriminate| |]; destruct x; try contradiction; split; discriminate. }
      destruct x; try (apply IH; assumption); now destruct Nt. }
    apply G; reflexivity.
  Qed.
End Run.
