(** Every interleaving of the factory's threads: what memory holds after any number of steps. *)
From Coq Require Import List NArith ZArith Arith Bool Lia.
From Verif Require Import CoreModel CoreSpec FieldModel FieldProofs SymModel SymSpec SymProofs SymFinalProofs PolyModel ParModel ParProofs MatModel MatProofs FacModel FacSpec FacProofs FacRunProofs FacMapProofs.
Import ListNotations.

Lemma needs_given {S E : Type} (ps : list (list (instr S E))) m l s : exec (start ps m) l s ->
  forall t i x e, i < count t l -> at_pos ps (t, i) = Some x -> In e (needs x) -> In e (c_evs s).
Proof.
  revert s. induction l as [|u l IH] using rev_ind; intros s X t i x e Hi P D; [cbn in Hi; lia|].
  apply exec_snoc in X as (s1 & X & St). rewrite count_snoc in Hi. destruct (step_count _ _ _ _ _ X St) as (p & Pp & y & Y & _ & Ny & Ev & _). rewrite Ev. apply in_or_app. right.
  destruct (Nat.eqb_spec u t) as [->|NE]; [|apply (IH s1 X t i x e); auto; lia].
  destruct (Nat.eq_dec i (count t l)) as [->|]; [|apply (IH s1 X t i x e); auto; lia].
  unfold at_pos in P. cbn [fst snd start c_progs] in P, Pp. rewrite Pp in P. rewrite Y in P. injection P as <-. now apply Ny.
Qed.

Section FPar.
  Variable c : sctx.
  Variable V : hseq -> Prop.
  Hypothesis LW : lawful c V.
  Variable R : rfield.
  Variable dim : nat.
  Variable m : list hseq.
  Variable p : cx R.
  Hypothesis EO : elements_ok V dim m.
  Variable hermitian : bool.
  Variable N : nat.
  Hypothesis NP : 0 < N.
  Variable t0 : table.
  Hypothesis T0 : reachable c V t0.
  Notation first := (first_merge_level N).
  Notation final := final_merge_level.
  Notation ident := (ident c dim m hermitian N).
  Notation at_level := (at_level c dim m hermitian N).
  Notation progs := (fprograms c dim m hermitian p N no_throw).
  Notation wprog := (fworker dim hermitian N no_throw).
  Notation mprog := (fmain N no_throw).
  Notation gen := (generate dim hermitian N).
  Notation allowed := (allowed R dim m p hermitian).
  Notation finstr := (finstr c dim m hermitian p).

  (** * The programs, position by position *)
  Definition depth (w : nat) : nat := first w - final w.
  Inductive wpos (w k : nat) : fcmd -> Prop :=
  | wp_ident : k = 0 -> wpos w k (FIdentify N w)
  | wp_merge : 1 <= k <= depth w -> wpos w k (FMerge w (first w - (k - 1)))
  | wp_prom0 : k = depth w + 1 -> wpos w k (FSignal (FPromised w 0))
  | wp_wait : k = depth w + 2 -> wpos w k (FWait (FReady 1))
  | wp_gen x : depth w + 3 <= k < depth w + 3 + length (gen w) -> In x (gen w) -> wpos w k x
  | wp_prom1 : k = depth w + 3 + length (gen w) -> wpos w k (FSignal (FPromised w 1))
  | wp_exit : k = depth w + 4 + length (gen w) -> wpos w k (FSignal (FExited w)).
  Lemma merges_length w : length (merges N w) = depth w.
  Proof. unfold merges. now rewrite map_length, seq_length. Qed.
  Lemma worker_eq w : wprog w = FIdentify N w :: merges N w ++ [FSignal (FPromised w 0); FWait (FReady 1)] ++ gen w ++ [FSignal (FPromised w 1); FSignal (FExited w)].
  Proof. reflexivity. Qed.
  Lemma worker_pos w k x : nth_error (wprog w) k = Some x -> wpos w k x.
  Proof.
    clear. rewrite worker_eq. destruct k as [|k]; [intro H; injection H as <-; now constructor|]. cbn [nth_error]. intro H.
    destruct (lt_dec k (depth w)) as [D|D].
    - rewrite nth_error_app1 in H by (rewrite merges_length; exact D). unfold merges in H. rewrite nth_error_map in H. destruct (nth_error (seq 0 (first w - final w)) k) as [i|] eqn:Q; [|discriminate].
      injection H as <-. assert (i = k) as ->. { pose proof (nth_error_nth _ _ 0 Q) as <-. rewrite seq_nth; [reflexivity|exact D]. }
      replace k with (S k - 1) at 2 by lia. constructor. lia.
    - rewrite nth_error_app2 in H by (rewrite merges_length; lia). rewrite merges_length in H. remember (k - depth w) as j eqn:J. destruct j as [|[|j]]; [injection H as <-; apply wp_prom0; lia|injection H as <-; apply wp_wait; lia|].
      cbn [app nth_error] in H. destruct (lt_dec j (length (gen w))) as [G|G].
      + rewrite nth_error_app1 in H by exact G. apply wp_gen; [lia|eapply nth_error_In; exact H].
      + rewrite nth_error_app2 in H by lia. remember (j - length (gen w)) as i eqn:I0. destruct i as [|[|i]]; [injection H as <-; apply wp_prom1; lia|injection H as <-; apply wp_exit; lia|destruct i; discriminate H].
  Qed.
  Lemma worker_merge w l : final w <= l -> l < first w -> nth_error (wprog w) (first w - l) = Some (FMerge w (S l)).
  Proof.
    clear. intros A B. rewrite worker_eq. replace (first w - l) with (S (first w - S l)) by lia. cbn [nth_error]. rewrite nth_error_app1 by (rewrite merges_length; unfold depth; lia).
    unfold merges. rewrite nth_error_map. rewrite (nth_error_nth' _ 0) by (rewrite seq_length; lia). rewrite seq_nth by lia. cbn [option_map]. do 2 f_equal. lia.
  Qed.
  Lemma worker_wait w : nth_error (wprog w) (depth w + 2) = Some (FWait (FReady 1)).
  Proof. clear. rewrite worker_eq. replace (depth w + 2) with (S (depth w + 1)) by lia. cbn [nth_error]. rewrite nth_error_app2 by (rewrite merges_length; lia). rewrite merges_length. now replace (depth w + 1 - depth w) with 1 by lia. Qed.
  Lemma worker_gen w x : In x (gen w) -> exists k, k < depth w + 3 + length (gen w) /\ nth_error (wprog w) k = Some x.
  Proof.
    clear. intro H. apply In_nth_error in H as (j & H). assert (J : j < length (gen w)) by (apply nth_error_Some; congruence). exists (depth w + 3 + j). split; [lia|].
    rewrite worker_eq. replace (depth w + 3 + j) with (S (depth w + (2 + j))) by lia. cbn [nth_error]. rewrite nth_error_app2 by (rewrite merges_length; lia). rewrite merges_length.
    replace (depth w + (2 + j) - depth w) with (S (S j)) by lia. cbn [app nth_error]. now rewrite nth_error_app1.
  Qed.
  Inductive mpos (k : nat) : fcmd -> Prop :=
  | mp_ready0 : k = 0 -> mpos k (FSignal (FReady 0))
  | mp_wait0 w : w < N -> k = w + 1 -> mpos k (FWait (FPromised w 0))
  | mp_register : k = N + 1 -> mpos k FRegister
  | mp_ready1 : k = N + 2 -> mpos k (FSignal (FReady 1))
  | mp_wait1 w : w < N -> k = N + 3 + w -> mpos k (FWait (FPromised w 1))
  | mp_take : k = 2 * N + 3 -> mpos k FTake
  | mp_join w : w < N -> k = 2 * N + 4 + w -> mpos k (FWait (FExited w)).
  Lemma nobody_throws : existsb no_throw (seq 0 N) = false.
  Proof. clear. induction (seq 0 N); [reflexivity|exact IHl]. Qed.
  Lemma main_eq : mprog = FSignal (FReady 0) :: map (fun w => FWait (FPromised w 0)) (seq 0 N) ++ [FRegister; FSignal (FReady 1)] ++ map (fun w => FWait (FPromised w 1)) (seq 0 N) ++ [FTake] ++ map (fun w => FWait (FExited w)) (seq 0 N).
  Proof. unfold fmain. rewrite nobody_throws. rewrite <- !app_assoc. reflexivity. Qed.
  Lemma nth_map_seq0 (f : nat -> fcmd) k : nth_error (map f (seq 0 N)) k = if Nat.ltb k N then Some (f k) else None.
  Proof.
    rewrite nth_error_map. destruct (Nat.ltb_spec k N) as [L|L]; [rewrite (nth_error_nth' _ 0) by (rewrite seq_length; lia); rewrite seq_nth by lia; reflexivity|].
    rewrite (proj2 (nth_error_None (seq 0 N) k)); [reflexivity|rewrite seq_length; lia].
  Qed.
  Lemma main_pos k x : nth_error mprog k = Some x -> mpos k x.
  Proof.
    rewrite main_eq. destruct k as [|k]; [intro H; injection H as <-; now constructor|]. cbn [nth_error]. intro H.
    destruct (lt_dec k N) as [D|D].
    - rewrite nth_error_app1 in H by (rewrite map_length, seq_length; exact D). rewrite nth_map_seq0 in H. destruct (Nat.ltb_spec k N) as [L|L]; [injection H as <-; constructor; lia|discriminate].
    - rewrite nth_error_app2 in H by (rewrite map_length, seq_length; lia). rewrite map_length, seq_length in H. remember (k - N) as j eqn:J. destruct j as [|[|j]]; [injection H as <-; apply mp_register; lia|injection H as <-; apply mp_ready1; lia|].
      cbn [app nth_error] in H. destruct (lt_dec j N) as [D'|D'].
      + rewrite nth_error_app1 in H by (rewrite map_length, seq_length; exact D'). rewrite nth_map_seq0 in H. destruct (Nat.ltb_spec j N) as [L|L]; [injection H as <-; apply mp_wait1; lia|discriminate].
      + rewrite nth_error_app2 in H by (rewrite map_length, seq_length; lia). rewrite map_length, seq_length in H. remember (j - N) as i eqn:I0. destruct i as [|i]; [injection H as <-; apply mp_take; lia|].
        cbn [app nth_error] in H. rewrite nth_map_seq0 in H. destruct (Nat.ltb_spec i N) as [L|L]; [injection H as <-; apply mp_join; lia|discriminate].
  Qed.
  Lemma main_wait0 w : w < N -> nth_error mprog (w + 1) = Some (FWait (FPromised w 0)).
  Proof.
    intro H. rewrite main_eq. rewrite Nat.add_1_r. cbn [nth_error]. rewrite nth_error_app1 by (now rewrite map_length, seq_length). rewrite nth_map_seq0.
    destruct (Nat.ltb_spec w N); [reflexivity|lia].
  Qed.
  Lemma main_wait1 w : w < N -> nth_error mprog (N + 3 + w) = Some (FWait (FPromised w 1)).
  Proof.
    intro H. rewrite main_eq. replace (N + 3 + w) with (S (N + (2 + w))) by lia. cbn [nth_error]. rewrite nth_error_app2 by (rewrite map_length, seq_length; lia). rewrite map_length, seq_length.
    replace (N + (2 + w) - N) with (S (S w)) by lia. cbn [app nth_error]. rewrite nth_error_app1 by (now rewrite map_length, seq_length). rewrite nth_map_seq0. destruct (Nat.ltb_spec w N); [reflexivity|lia].
  Qed.
  Lemma main_length : length mprog = 3 * N + 4.
  Proof. rewrite main_eq. repeat first [rewrite app_length | rewrite map_length | rewrite seq_length | progress cbn [length]]. lia. Qed.

  Lemma at_main k : at_pos progs (0, k) = option_map finstr (nth_error mprog k).
  Proof. unfold at_pos, fprograms, fthreads. cbn [map nth_error fst snd]. now rewrite nth_error_map. Qed.
  Lemma at_worker w k : at_pos progs (S w, k) = if Nat.ltb w N then option_map finstr (nth_error (wprog w) k) else None.
  Proof.
    unfold at_pos, fprograms, fthreads. cbn [map nth_error fst snd]. rewrite map_map, nth_error_map. destruct (Nat.ltb_spec w N) as [L|L].
    - rewrite (nth_error_nth' _ 0) by (rewrite seq_length; lia). rewrite seq_nth by lia. cbn [option_map Nat.add]. now rewrite nth_error_map.
    - rewrite (proj2 (nth_error_None (seq 0 N) w)); [reflexivity|rewrite seq_length; lia].
  Qed.
  Lemma step_cmd l s t s' : exec (start progs (ffresh dim N t0)) l s -> step s t s' ->
    exists x, ((t = 0 /\ mpos (count t l) x) \/ (exists w, t = S w /\ w < N /\ wpos w (count t l) x /\ nth_error (wprog w) (count t l) = Some x)) /\
      (forall e, In e (needs (finstr x)) -> In e (c_evs s)) /\ c_mem s' = run_fcmd c dim m hermitian p x (c_mem s).
  Proof.
    intros X St. destruct (step_count _ _ _ _ _ X St) as (q & Q & i & I0 & _ & Ni & _ & Mi).
    assert (P : at_pos progs (t, count t l) = Some i) by (unfold at_pos; cbn [fst snd]; cbn [start c_progs] in Q; rewrite Q; exact I0).
    destruct t as [|w].
    - rewrite at_main in P. destruct (nth_error mprog (count 0 l)) as [x|] eqn:Ex; [|discriminate]. injection P as <-. exists x. split; [left; split; [reflexivity|now apply main_pos]|].
      split; [exact Ni|]. rewrite Mi. now destruct x.
    - rewrite at_worker in P. destruct (Nat.ltb_spec w N) as [L|L]; [|discriminate]. destruct (nth_error (wprog w) (count (S w) l)) as [x|] eqn:Ex; [|discriminate]. injection P as <-. exists x. split; [right; exists w|].
      + split; [reflexivity|]. split; [exact L|]. split; [now apply worker_pos|exact Ex].
      + split; [exact Ni|]. rewrite Mi. now destruct x.
  Qed.

  (** * Signals *)
  Definition lev (w k : nat) : nat := first w - Nat.min (k - 1) (depth w).
  Lemma gen_cmd w x : w < N -> In x (gen w) -> exists row col, row < dim /\ col < dim /\
    (x = FDirect (col * dim + row) \/ (hermitian = true /\ x = FMirror (col * dim + row) (row * dim + col))).
  Proof.
    intros Hw H. unfold generate in H. apply in_flat_map in H as (col & Hc & H). apply (strided_mod N dim w col Hw) in Hc as [Hc _]. apply in_flat_map in H as (row & Hr & H). apply in_seq in Hr.
    exists row, col. split; [lia|]. split; [exact Hc|]. cbn zeta in H. destruct hermitian; cbn [In] in H.
    - destruct H as [H|H]; [left; now symmetry|]. destruct (Nat.eqb (col * dim + row) (row * dim + col)); cbn [In] in H; [contradiction|]. destruct H as [H|[]]. right. split; [reflexivity|now symmetry].
    - destruct H as [H|[]]. left. now symmetry.
  Qed.
  Lemma gen_direct row col : row < dim -> col < dim -> In (FDirect (col * dim + row)) (gen (col mod N)).
  Proof.
    intros Hr Hc. unfold generate. apply in_flat_map. exists col. split; [apply (strided_mod N dim (col mod N) col); [apply Nat.mod_upper_bound; lia|auto]|].
    apply in_flat_map. exists row. split; [apply in_seq; lia|]. cbn zeta. destruct hermitian; now left.
  Qed.
  Lemma emitted l s e : exec (start progs (ffresh dim N t0)) l s -> In e (c_evs s) ->
    exists k x, In e (emits (finstr x)) /\ ((k < count 0 l /\ mpos k x) \/ (exists w, w < N /\ k < count (S w) l /\ wpos w k x)).
  Proof.
    intros X H. apply (proj2 (exec_mem _ _ _ _ X)) in H as ([t k] & i & Tr & P & Em). apply in_trace in Tr. destruct t as [|w].
    - rewrite at_main in P. destruct (nth_error mprog k) as [x|] eqn:Ex; [|discriminate]. injection P as <-. exists k, x. split; [exact Em|]. left. split; [exact Tr|now apply main_pos].
    - rewrite at_worker in P. destruct (Nat.ltb_spec w N) as [L|L]; [|discriminate]. destruct (nth_error (wprog w) k) as [x|] eqn:Ex; [|discriminate]. injection P as <-. exists k, x. split; [exact Em|]. right. exists w.
      split; [exact L|]. split; [exact Tr|now apply worker_pos].
  Qed.
  Lemma gen_silent w x : w < N -> In x (gen w) -> emits (finstr x) = [].
  Proof. intros Hw H. destruct (gen_cmd w x Hw H) as (row & col & _ & _ & [->|[_ ->]]); reflexivity. Qed.
  Ltac emit_cases H := cbn in H; repeat (destruct H as [H|H]; [try discriminate H|]); try contradiction.
  Lemma main_emits k x e : mpos k x -> In e (emits (finstr x)) -> (e = FReady 0 /\ k = 0) \/ (e = FReady 1 /\ k = N + 2).
  Proof. intros P H. destruct P; cbn in H; try contradiction; destruct H as [<-|[]]; auto. Qed.
  Lemma worker_emits w k x e : w < N -> wpos w k x -> In e (emits (finstr x)) ->
    (exists l, e = FLevel w l /\ lev w (k + 1) <= l) \/ (e = FPromised w 0 /\ k = depth w + 1) \/ (e = FPromised w 1 /\ k = depth w + 3 + length (gen w)) \/ e = FExited w.
  Proof.
    intros Hw P H. destruct P.
    - left. cbn in H. apply in_map_iff in H as (l & <- & H). exists l. split; [reflexivity|]. unfold first_levels in H. apply in_seq in H. unfold lev. lia.
    - left. cbn in H. destruct H as [<-|[]]. eexists. split; [reflexivity|]. unfold lev. replace (k + 1 - 1) with k by lia. lia.
    - cbn in H. destruct H as [<-|[]]. auto.
    - destruct H.
    - rewrite (gen_silent w x Hw) in H by assumption. destruct H.
    - cbn in H. destruct H as [<-|[]]. auto.
    - cbn in H. destruct H as [<-|[]]. auto.
  Qed.
  Lemma ev_level l s w lv : exec (start progs (ffresh dim N t0)) l s -> In (FLevel w lv) (c_evs s) -> 1 <= count (S w) l /\ lev w (count (S w) l) <= lv.
  Proof.
    intros X H. destruct (emitted _ _ _ X H) as (k & x & Em & [[Hk P]|(w' & Hw' & Hk & P)]).
    - destruct (main_emits _ _ _ P Em) as [[E _]|[E _]]; discriminate.
    - destruct (worker_emits _ _ _ _ Hw' P Em) as [(l' & E & L)|[[E _]|[[E _]|E]]]; try discriminate. injection E as <- <-. split; [lia|]. unfold lev in *. lia.
  Qed.
  Lemma ev_promised l s w ph : exec (start progs (ffresh dim N t0)) l s -> In (FPromised w ph) (c_evs s) ->
    (ph = 0 /\ depth w + 2 <= count (S w) l) \/ (ph = 1 /\ depth w + 4 + length (gen w) <= count (S w) l).
  Proof.
    intros X H. destruct (emitted _ _ _ X H) as (k & x & Em & [[Hk P]|(w' & Hw' & Hk & P)]).
    - destruct (main_emits _ _ _ P Em) as [[E _]|[E _]]; discriminate.
    - destruct (worker_emits _ _ _ _ Hw' P Em) as [(l' & E & L)|[[E Q]|[[E Q]|E]]]; try discriminate; injection E as -> ->; [left|right]; (split; [reflexivity|lia]).
  Qed.
  Lemma ev_ready1 l s : exec (start progs (ffresh dim N t0)) l s -> In (FReady 1) (c_evs s) -> N + 3 <= count 0 l.
  Proof.
    intros X H. destruct (emitted _ _ _ X H) as (k & x & Em & [[Hk P]|(w' & Hw' & Hk & P)]).
    - destruct (main_emits _ _ _ P Em) as [[E _]|[E Q]]; [discriminate|lia].
    - destruct (worker_emits _ _ _ _ Hw' P Em) as [(l' & E & L)|[[E Q]|[[E Q]|E]]]; discriminate.
  Qed.
  (** a worker that has been merged into its parent has done all its own merging *)
  Lemma merged_done l s w lv : exec (start progs (ffresh dim N t0)) l s -> w < N -> final w <= lv -> lv < first w -> lev w (count (S w) l) <= lv -> 1 <= count (S w) l ->
    1 <= count (S (w + 2 ^ lv)) l /\ lev (w + 2 ^ lv) (count (S (w + 2 ^ lv)) l) <= S lv.
  Proof.
    intros X Hw A B L C. apply (ev_level l s); [exact X|]. eapply needs_given with (t := S w) (i := first w - lv); [exact X| | |].
    - unfold lev, depth in L. lia.
    - rewrite at_worker. destruct (Nat.ltb_spec w N); [|lia]. rewrite worker_merge by assumption. reflexivity.
    - cbn. rewrite Nat.sub_0_r. now left.
  Qed.

  (** * The table that is made *)
  Hypothesis HM : hermitian = true -> hermitian_matrix c dim m.
  Lemma final_table : exists t' ids, merge_symbols t0 (map snd (at_level 0 0)) = Done t' ids /\ registered c V t0 t' m /\ reachable c V t' /\ (forall q, In q m -> found c t' q).
  Proof. destruct (root_good c V LW dim m hermitian EO HM N NP) as [F C]. apply (merge_registers c V LW m (proj2 EO)); assumption. Qed.
  Variable t1 : table.
  Variable ids1 : list nat.
  Hypothesis T1 : merge_symbols t0 (map snd (at_level 0 0)) = Done t1 ids1.
  Hypothesis R1 : reachable c V t1.
  Hypothesis F1 : forall q, In q m -> found c t1 q.

  Definition unmerged (l : list nat) (w : nat) : Prop := w = 0 \/ count (S (parent w)) l = 0 \/ final w <= lev (parent w) (count (S (parent w)) l).
  Record inv (l : list nat) (s : @fmem R) : Prop := mk_inv {
    i_len : length (f_maps s) = N;
    i_cells : length (f_out s) = dim * dim;
    i_good : f_bad s = false;
    i_map : forall w, w < N -> 1 <= count (S w) l -> unmerged l w -> map_of s w = at_level w (lev w (count (S w) l));
    i_early : count 0 l <= N + 1 -> f_table s = t0 /\ (forall o x, nth_error (f_out s) o = Some x -> x = None);
    i_late : N + 1 < count 0 l -> f_table s = t1;
    i_out : forall o e, nth_error (f_out s) o = Some (Some e) -> allowed t1 o e;
    i_wrote : forall w k o, w < N -> k < count (S w) l -> nth_error (wprog w) k = Some (FDirect o) -> exists e, nth_error (f_out s) o = Some (Some e);
    i_ret : 2 * N + 3 < count 0 l -> exists out, f_ret s = Some out /\ length out = dim * dim /\ forall o, o < dim * dim -> exists e, nth_error out o = Some (Some e) /\ allowed t1 o e }.

  Lemma inv_start : inv [] (ffresh dim N t0).
  Proof.
    split; cbn [ffresh f_maps f_table f_out f_ret f_bad count]; try (cbn; lia).
    - apply repeat_length.
    - apply repeat_length.
    - intros _. split; [reflexivity|]. intros o x H. apply nth_error_In in H. now apply repeat_spec in H.
    - intros o e H. apply nth_error_In in H. apply repeat_spec in H. discriminate.
  Qed.
  Lemma map_set (s : @fmem R) l w u v : length l = N -> v < N -> map_of (fset_maps s (set_at v u l)) w = if Nat.eqb w v then u else nth w l [].
  Proof.
    intros L Hv. unfold map_of. cbn. destruct (nth_error (set_at v u l) w) as [x|] eqn:E.
    - rewrite (nth_error_nth _ _ _ E). rewrite set_at_nth in E. destruct (Nat.eqb_spec w v) as [->|].
      + destruct (nth_error l v) eqn:Q; [now injection E as <-|discriminate].
      + symmetry. now apply nth_error_nth.
    - pose proof E as E'. apply nth_error_None in E'. rewrite set_at_length in E'. rewrite nth_overflow by (rewrite set_at_length; exact E'). destruct (Nat.eqb_spec w v); [lia|]. now rewrite nth_overflow.
  Qed.
  Lemma count_same t l : count t (l ++ [t]) = S (count t l). Proof. rewrite count_snoc, Nat.eqb_refl. lia. Qed.
  Lemma count_other t u l : u <> t -> count t (l ++ [u]) = count t l.
  Proof. intro H. rewrite count_snoc. destruct (Nat.eqb_spec u t); [congruence|lia]. Qed.
  Lemma lev_end w k : depth w + 1 <= k -> lev w (k + 1) = lev w k. Proof. unfold lev. lia. Qed.
  Lemma lev_final w k : w < N -> depth w + 1 <= k -> lev w k = final w.
  Proof. intros Hw H. pose proof (final_first N NP w Hw). unfold lev, depth in *. lia. Qed.
  Lemma lev_ge w k : w < N -> final w <= lev w k.
  Proof. intros Hw. pose proof (final_first N NP w Hw). unfold lev, depth in *. lia. Qed.
  Lemma unmerged_mono l u w : unmerged (l ++ [u]) w -> unmerged l w.
  Proof.
    unfold unmerged. rewrite count_snoc. intros [H|[H|H]]; [auto|destruct (Nat.eqb u _); right; left; lia|]. right. right. destruct (Nat.eqb u _); unfold lev in *; lia.
  Qed.
  (** a worker's step that leaves memory alone, once it has merged *)
  Lemma inv_skip l s w x : inv l s -> w < N -> depth w + 1 <= count (S w) l -> nth_error (wprog w) (count (S w) l) = Some x -> (forall o, x <> FDirect o) -> inv (l ++ [S w]) s.
  Proof.
    intros [A B C D E F G H I0] Hw K Nx ND. assert (C0 : count 0 (l ++ [S w]) = count 0 l) by (apply count_other; discriminate). split; try assumption; rewrite ?C0; try assumption.
    - intros v Hv Cv U. destruct (Nat.eq_dec w v) as [->|NE].
      + rewrite count_same. rewrite <- Nat.add_1_r, lev_end by exact K. apply D; [exact Hv|lia|now apply unmerged_mono in U].
      + rewrite count_other in * by congruence. apply D; [exact Hv|exact Cv|now apply unmerged_mono in U].
    - intros v k o Hv Hk Q. destruct (Nat.eq_dec w v) as [->|NE].
      + rewrite count_same in Hk. destruct (Nat.eq_dec k (count (S v) l)) as [->|]; [rewrite Nx in Q; injection Q as ->; now destruct (ND o)|]. apply (H v k o Hv); [lia|exact Q].
      + rewrite count_other in Hk by congruence. now apply (H v k o Hv).
  Qed.
  (** a worker's write *)
  Lemma inv_write l s w x o e : inv l s -> w < N -> depth w + 1 <= count (S w) l -> N + 1 < count 0 l -> nth_error (wprog w) (count (S w) l) = Some x -> (forall o', x = FDirect o' -> o' = o) ->
    o < dim * dim -> allowed t1 o e -> inv (l ++ [S w]) (fset_out s (set_at o (Some e) (f_out s))).
  Proof.
    intros [A B C D E F G H I0] Hw K C0' Nx XO Ho Ae. assert (C0 : count 0 (l ++ [S w]) = count 0 l) by (apply count_other; discriminate).
    assert (W : nth_error (set_at o (Some e) (f_out s)) o = Some (Some e)).
    { rewrite set_at_nth, Nat.eqb_refl. destruct (nth_error (f_out s) o) eqn:Q; [reflexivity|]. apply nth_error_None in Q. lia. }
    split; cbn [f_maps f_table f_out f_ret f_bad fset_out]; rewrite ?set_at_length, ?C0; try assumption.
    - intros v Hv Cv U. destruct (Nat.eq_dec w v) as [->|NE].
      + rewrite count_same. rewrite <- Nat.add_1_r, lev_end by exact K. apply D; [exact Hv|lia|now apply unmerged_mono in U].
      + rewrite count_other in * by congruence. apply D; [exact Hv|exact Cv|now apply unmerged_mono in U].
    - lia.
    - intros o' e' Q. rewrite set_at_nth in Q. destruct (Nat.eqb_spec o' o) as [->|]; [|now apply G]. destruct (nth_error (f_out s) o); [injection Q as <-; exact Ae|discriminate].
    - intros v k o' Hv Hk Q. destruct (Nat.eq_dec o' o) as [->|NO]; [eauto|]. assert (Z : exists e', nth_error (f_out s) o' = Some (Some e')).
      { destruct (Nat.eq_dec w v) as [->|NE].
        - rewrite count_same in Hk. destruct (Nat.eq_dec k (count (S v) l)) as [->|]; [rewrite Nx in Q; injection Q as ->; now destruct (NO (XO o' eq_refl))|]. apply (H v k o' Hv); [lia|exact Q].
        - rewrite count_other in Hk by congruence. now apply (H v k o' Hv). }
      destruct Z as (e' & Z). exists e'. rewrite set_at_nth. destruct (Nat.eqb_spec o' o); [congruence|exact Z].
  Qed.
  (** a step of the main thread that leaves memory alone *)
  Lemma inv_main l s : inv l s -> count 0 l <> N + 1 -> count 0 l <> 2 * N + 3 -> inv (l ++ [0]) s.
  Proof.
    intros [A B C D E F G H I0] K1 K2. assert (CW : forall w, count (S w) (l ++ [0]) = count (S w) l) by (intro; apply count_other; discriminate). split; try assumption; rewrite ?count_same.
    - intros w Hw Cw U. rewrite CW in *. apply D; [exact Hw|exact Cw|now apply unmerged_mono in U].
    - intro L. apply E. lia.
    - intro L. apply F. lia.
    - intros w k o Hw Hk Q. rewrite CW in Hk. now apply (H w k o).
    - intro L. apply I0. lia.
  Qed.
  Lemma cell_writer o : o < dim * dim -> exists w k, w < N /\ k < depth w + 3 + length (gen w) /\ nth_error (wprog w) k = Some (FDirect o).
  Proof.
    intro Ho. destruct (cell_split dim o Ho) as (row & col & Hr & Hc & ->). destruct (worker_gen (col mod N) _ (gen_direct row col Hr Hc)) as (k & Hk & Q).
    exists (col mod N), k. split; [apply Nat.mod_upper_bound; lia|auto].
  Qed.
  Lemma direct_ok (s : @fmem R) o : f_table s = t1 -> o < dim * dim -> exists e, entry_of m (direct p (f_table s)) o = Some e /\ allowed t1 o e.
  Proof. intros -> Ho. destruct (direct_here c V LW R dim m p EO t1 o R1 F1 Ho) as (e & E). exists e. split; [exact E|now left]. Qed.

  Theorem invariant l : forall s, exec (start progs (ffresh dim N t0)) l s -> inv l (c_mem s).
  Proof.
    induction l as [|t l IH] using rev_ind; intros s X; [inversion X; subst; exact inv_start|].
    apply exec_snoc in X as (s1 & X & St). pose proof (IH s1 X) as I1. destruct (step_cmd l s1 t s X St) as (x & Pos & Nd & Mem). rewrite Mem.
    destruct Pos as [[-> P]|(w & -> & Hw & P & Nx)].
    - (* main thread *)
      inversion P as [K E|w Hw K E|K E|K E|w Hw K E|K E|w Hw K E]; subst x; cbn [run_fcmd]; try (apply inv_main; [exact I1|lia|lia]).
      + (* register *)
        pose proof I1 as I1'. destruct I1' as [A B C D E F G H I0]. destruct (E ltac:(lia)) as [Et Eo].
        assert (Z : depth 0 + 2 <= count 1 l).
        { assert (Q : In (FPromised 0 0) (c_evs s1)). { eapply needs_given with (t := 0) (i := 0 + 1); [exact X|lia|rewrite at_main, main_wait0 by exact NP; reflexivity|now left]. }
          destruct (ev_promised l s1 0 0 X Q) as [[_ Z]|[Z _]]; [exact Z|discriminate]. }
        assert (M0 : map_of (c_mem s1) 0 = at_level 0 0). { rewrite (D 0 NP); [|lia|now left]. f_equal. rewrite lev_final by lia. reflexivity. }
        rewrite M0, Et, T1.
        assert (CW : forall w, count (S w) (l ++ [0]) = count (S w) l) by (intro; apply count_other; discriminate).
        split; cbn [f_maps f_table f_out f_ret f_bad]; try assumption; rewrite ?count_same; try lia.
        * intros w Hw Cw U. rewrite CW in *. apply D; [exact Hw|exact Cw|now apply unmerged_mono in U].
        * intros _. reflexivity.
        * intros w k o Hw Hk Q. rewrite CW in Hk. now apply (H w k o).
      + (* take *)
        pose proof I1 as I1'. destruct I1' as [A B C D E F G H I0].
        assert (CW : forall w, count (S w) (l ++ [0]) = count (S w) l) by (intro; apply count_other; discriminate).
        split; cbn [f_maps f_table f_out f_ret f_bad]; try assumption; rewrite ?count_same.
        * intros w Hw Cw U. rewrite CW in *. apply D; [exact Hw|exact Cw|now apply unmerged_mono in U].
        * lia.
        * intros _. apply F. lia.
        * intros w k o Hw Hk Q. rewrite CW in Hk. now apply (H w k o).
        * intros _. exists (f_out (c_mem s1)). split; [reflexivity|]. split; [exact B|]. intros o Ho. destruct (cell_writer o Ho) as (w & k & Hw & Hk & Q).
          assert (Z : depth w + 4 + length (gen w) <= count (S w) l).
          { assert (Y : In (FPromised w 1) (c_evs s1)). { eapply needs_given with (t := 0) (i := N + 3 + w); [exact X|lia|rewrite at_main, main_wait1 by exact Hw; reflexivity|now left]. }
            destruct (ev_promised l s1 w 1 X Y) as [[Z _]|[_ Z]]; [discriminate|exact Z]. }
          destruct (H w k o Hw) as (e & W); [lia|exact Q|]. exists e. split; [exact W|now apply G].
    - (* worker *)
      inversion P as [K E|K E|K E|K E|y K Iy E|K E|K E]; subst x.
      + (* identify *)
        pose proof I1 as I1'. destruct I1' as [A B C D E F G H I0]. destruct (identified c V LW dim m hermitian EO HM N NP w Hw) as (Id & _ & _). cbn [run_fcmd]. rewrite Id.
        assert (C0 : count 0 (l ++ [S w]) = count 0 l) by (apply count_other; discriminate).
        split; try exact C; cbn [f_maps f_table f_out f_ret f_bad fset_maps]; rewrite ?set_at_length, ?C0; try assumption.
        * intros v Hv Cv U. rewrite map_set by assumption. destruct (Nat.eqb_spec v w) as [->|NE].
          -- rewrite count_same, K. symmetry. apply (at_first c dim m hermitian HM N NP). unfold lev. lia.
          -- rewrite count_other in * by congruence. apply D; [exact Hv|exact Cv|now apply unmerged_mono in U].
        * intros v k o Hv Hk Q. destruct (Nat.eq_dec w v) as [->|NE]; [rewrite count_same, K in Hk; assert (k = 0) as -> by lia; discriminate|]. rewrite count_other in Hk by congruence. now apply (H v k o Hv).
      + (* merge *)
        pose proof I1 as I1'. destruct I1' as [A B C D E F G H I0].
        remember (first w - count (S w) l) as lv eqn:Lv. assert (D1 : first w - (count (S w) l - 1) = S lv) by (unfold depth in K; lia).
        assert (D2 : final w <= lv) by (unfold depth in K; lia). assert (D3 : lv < first w) by (unfold depth in K; lia).
        destruct (partner N NP w lv Hw D2 D3) as (W & Wn & Fn). pose proof (parent_of N NP w lv W Fn) as Pn. rewrite D1 in *.
        assert (Lw : lev w (count (S w) l) = S lv) by (unfold lev, depth in *; lia).
        set (o := w + 2 ^ lv) in *. cbn [run_fcmd]. rewrite (Nat.sub_succ lv 0), Nat.sub_0_r. fold o.
        assert (Lo : 1 <= count (S o) l /\ lev o (count (S o) l) = S lv).
        { assert (Q : In (FLevel o (S lv)) (c_evs s1)). { apply Nd. cbn. rewrite Nat.sub_0_r. now left. }
          destruct (ev_level l s1 o (S lv) X Q) as [Q1 Q2]. split; [exact Q1|]. pose proof (lev_ge o (count (S o) l) Wn). lia. }
        destruct Lo as [Co Lo].
        assert (Mo : map_of (c_mem s1) o = at_level o (S lv)). { rewrite <- Lo. apply D; [exact Wn|exact Co|]. right. right. rewrite Pn, Lw, Fn. lia. }
        assert (Mw : map_of (c_mem s1) w = at_level w (S lv)).
        { rewrite <- Lw. apply D; [exact Hw|lia|]. destruct (Nat.eq_dec w 0) as [->|Z]; [now left|right].
          destruct (le_lt_dec (final w) (lev (parent w) (count (S (parent w)) l))) as [Y|Y]; [now right|left].
          destruct (Nat.eq_dec (count (S (parent w)) l) 0) as [Y0|Y0]; [exact Y0|exfalso].
          assert (Fw : final w = S (Nat.log2 w)) by (apply (final_pos N NP); lia). assert (Pw : parent w + 2 ^ Nat.log2 w = w /\ parent w < N /\ final (parent w) <= Nat.log2 w).
          { pose proof (Nat.log2_spec w ltac:(lia)) as L. unfold parent. rewrite Fw. rewrite (Nat.sub_succ _ 0), Nat.sub_0_r. split; [lia|]. split; [lia|].
            destruct (Nat.eq_dec (w - 2 ^ Nat.log2 w) 0) as [->|N0]; [rewrite final_0; lia|]. rewrite (final_pos N NP) by lia. cbn in L. apply (Nat.log2_lt_pow2 (w - 2 ^ Nat.log2 w)); lia. }
          destruct Pw as (Pw & PN & PF). assert (PL : Nat.log2 w < first (parent w)). { unfold lev in Y. rewrite Fw in Y. pose proof (lev_ge (parent w) (count (S (parent w)) l) PN) as G1. unfold lev in G1. destruct (le_lt_dec (first (parent w)) (Nat.log2 w)) as [Z1|Z1]; [|exact Z1].
            (* its level cannot be below its first one without a merge *) exfalso.
            assert (PP : parent w + 2 ^ Nat.log2 w < N) by lia. pose proof (alone N NP (parent w) w (Nat.log2 w) PN Hw Z1) as AL. assert (w mod 2 ^ Nat.log2 w = parent w).
            { rewrite <- Pw at 1. rewrite <- (Nat.mul_1_l (2 ^ Nat.log2 w)) at 1. rewrite Nat.mod_add by (pose proof (pow_pos (Nat.log2 w)); lia). apply Nat.mod_small. pose proof (final_lt N NP (parent w)). assert (2 ^ final (parent w) <= 2 ^ Nat.log2 w) by (apply Nat.pow_le_mono_r; lia). lia. }
            specialize (AL H0). pose proof (pow_pos (Nat.log2 w)). lia. }
          destruct (merged_done l s1 (parent w) (Nat.log2 w) X PN PF PL) as [_ Q]; [lia|lia|]. rewrite Pw, Lw in Q. lia. }
        assert (AM : at_level w lv = merge_maps (at_level w (S lv)) (at_level o (S lv))) by exact (at_merge c dim m hermitian HM N NP w lv D3). rewrite Mw, Mo, <- AM.
        assert (C0 : count 0 (l ++ [S w]) = count 0 l) by (apply count_other; discriminate).
        assert (Lw' : lev w (count (S w) (l ++ [S w])) = lv) by (rewrite count_same; unfold lev, depth in *; lia).
        assert (NO : o <> w) by (unfold o; pose proof (pow_pos lv); lia).
        split; try exact C; cbn [f_maps f_table f_out f_ret f_bad fset_maps]; rewrite ?set_at_length, ?C0; try assumption.
        * intros v Hv Cv U. rewrite map_set by (rewrite ?set_at_length; assumption). destruct (Nat.eqb_spec v o) as [->|NE].
          -- exfalso. destruct U as [U|U]; [lia|]. rewrite Pn, Lw', Fn in U. rewrite count_same in U. lia.
          -- change (nth v (set_at w (at_level w lv) (f_maps (c_mem s1))) []) with (map_of (fset_maps (c_mem s1) (set_at w (at_level w lv) (f_maps (c_mem s1)))) v). rewrite map_set by assumption.
             destruct (Nat.eqb_spec v w) as [->|NE']; [now rewrite Lw'|]. rewrite count_other in * by congruence. apply D; [exact Hv|exact Cv|now apply unmerged_mono in U].
        * intros v k o' Hv Hk Q. destruct (Nat.eq_dec w v) as [->|NE].
          -- rewrite count_same in Hk. apply (H v k o' Hv); [|exact Q]. destruct (Nat.eq_dec k (count (S v) l)) as [->|]; [rewrite Nx in Q; discriminate|lia].
          -- rewrite count_other in Hk by congruence. now apply (H v k o' Hv).
      + cbn [run_fcmd]. eapply inv_skip; [exact I1|exact Hw|lia|exact Nx|discriminate].
      + cbn [run_fcmd]. eapply inv_skip; [exact I1|exact Hw|lia|exact Nx|discriminate].
      + (* generation *)
        assert (Rd : N + 3 <= count 0 l).
        { apply (ev_ready1 l s1 X). eapply needs_given with (t := S w) (i := depth w + 2); [exact X|lia|rewrite at_worker; destruct (Nat.ltb_spec w N); [rewrite worker_wait; reflexivity|lia]|now left]. }
        assert (Ft : f_table (c_mem s1) = t1) by (apply (i_late l _ I1); lia).
        destruct (gen_cmd w y Hw Iy) as (row & col & Hr & Hc & [->|[Hh ->]]); cbn [run_fcmd].
        * pose proof (cell_lt dim row col Hr Hc) as Ho. destruct (direct_ok (c_mem s1) _ Ft Ho) as (e & E1 & A1). unfold put_cell. rewrite E1.
          eapply inv_write; [exact I1|exact Hw|lia|lia|exact Nx|intros o' E'; now injection E'|exact Ho|exact A1].
        * pose proof (cell_lt dim row col Hr Hc) as Ho. pose proof (cell_lt dim col row Hc Hr) as Ho'. destruct (mirror_here c V LW R dim m p EO t1 _ R1 F1 Ho) as (e & E1). unfold put_cell. rewrite Ft, E1.
          eapply inv_write; [exact I1|exact Hw|lia|lia|exact Nx|intros o' E'; discriminate|exact Ho'|]. right. split; [exact Hh|]. exists row, col. auto.
      + cbn [run_fcmd]. eapply inv_skip; [exact I1|exact Hw|lia|exact Nx|discriminate].
      + cbn [run_fcmd]. eapply inv_skip; [exact I1|exact Hw|lia|exact Nx|discriminate].
  Qed.

  Theorem result l s : exec (start progs (ffresh dim N t0)) l s -> finished s ->
    f_table (c_mem s) = t1 /\ f_bad (c_mem s) = false /\ exists out, f_ret (c_mem s) = Some out /\ length out = dim * dim /\ forall o, o < dim * dim -> exists e, nth_error out o = Some (Some e) /\ allowed t1 o e.
  Proof.
    intros X Fin. destruct (invariant l s X) as [A B C D E F G H I0].
    assert (K : 2 * N + 3 < count 0 l).
    { apply in_trace. apply (finished_trace _ _ _ _ X Fin). rewrite at_main. destruct (nth_error mprog (2 * N + 3)) eqn:Q; [discriminate|]. apply nth_error_None in Q. rewrite main_length in Q. lia. }
    split; [apply F; lia|]. split; [exact C|now apply I0].
  Qed.
End FPar.
