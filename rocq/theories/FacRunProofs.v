(** Single-threaded construction of the symbol matrix. *)
From Coq Require Import List NArith ZArith Arith Bool Lia.
From Verif Require Import CoreModel CoreSpec FieldModel FieldProofs SymModel SymSpec SymProofs SymFinalProofs PolyModel ParModel ParProofs MatModel MatProofs FacModel FacSpec FacProofs.
Import ListNotations.

Lemma cell_split dim o : o < dim * dim -> exists row col, row < dim /\ col < dim /\ o = col * dim + row.
Proof.
  intro H. assert (dim <> 0) by (intros ->; lia). exists (o mod dim), (o / dim). split; [now apply Nat.mod_upper_bound|]. split; [apply Nat.div_lt_upper_bound; lia|].
  pose proof (Nat.div_mod o dim). lia.
Qed.
Lemma cell_lt dim row col : row < dim -> col < dim -> col * dim + row < dim * dim.
Proof. intros. nia. Qed.

Section Run.
  Variable c : sctx.
  Variable V : hseq -> Prop.
  Hypothesis LW : lawful c V.
  Variable R : rfield.
  Variables (dim : nat) (m : list hseq) (p : cx R).
  Hypothesis EO : elements_ok V dim m.

  Lemma elem_at o : o < dim * dim -> exists q, nth_error m o = Some q /\ In q m /\ V q.
  Proof.
    intro H. destruct EO as [L F]. rewrite <- L in H. destruct (nth_error m o) as [q|] eqn:E; [|apply nth_error_None in E; lia]. exists q. split; [reflexivity|].
    assert (I : In q m) by (eapply nth_error_In; exact E). split; [exact I|]. rewrite Forall_forall in F. auto.
  Qed.

  Definition puts (l : list (nat * option (mono R))) (out : option (cells (R:=R))) := fold_left (fun out ox => put (fst ox) (snd ox) out) l out.
  Lemma puts_ok l : forall out, (forall o x, In (o, x) l -> o < length out /\ x <> None) ->
    exists out', puts l (Some out) = Some out' /\ length out' = length out /\ (forall o, ~ In o (map fst l) -> nth_error out' o = nth_error out o) /\
      (forall o, In o (map fst l) -> exists e, In (o, Some e) l /\ nth_error out' o = Some (Some e)).
  Proof.
    induction l as [|[o [e|]] l IH]; intros out B.
    - exists out. split; [reflexivity|]. split; [reflexivity|]. split; [auto|intros o []].
    - destruct (IH (set_at o (Some e) out)) as (out' & E & Ln & K & W).
      { intros o' x H. rewrite set_at_length. apply B. now right. }
      rewrite set_at_length in Ln. exists out'. split; [exact E|]. split; [exact Ln|]. split.
      + intros o' H. cbn in H. rewrite K by tauto. rewrite set_at_nth. destruct (Nat.eqb_spec o' o) as [->|]; [now elim H; left|reflexivity].
      + intros o' H. destruct (in_dec Nat.eq_dec o' (map fst l)) as [I|N].
        * destruct (W o' I) as (e' & A & C). exists e'. split; [now right|exact C].
        * destruct H as [<-|H]; [|contradiction]. cbn [fst] in *. exists e. split; [now left|]. rewrite (K o N), set_at_nth, Nat.eqb_refl. destruct (B o (Some e) (or_introl eq_refl)) as [L _].
          apply nth_error_Some in L. now destruct (nth_error out o).
    - exfalso. destruct (B o None (or_introl eq_refl)) as [_ X]. now apply X.
  Qed.
  Lemma puts_app l l' out : puts (l ++ l') out = puts l' (puts l out).
  Proof. unfold puts. now rewrite fold_left_app. Qed.

  Definition generic_puts t : list (nat * option (mono R)) := map (fun o => (o, entry_of m (direct p t) o)) (seq 0 (dim * dim)).
  Definition hermitian_put t (rc : nat * nat) : list (nat * option (mono R)) :=
    let '(row, col) := rc in (col * dim + row, entry_of m (direct p t) (col * dim + row)) :: (if Nat.eqb row col then [] else [(row * dim + col, entry_of m (mirror p t) (col * dim + row))]).
  Lemma build_generic t : st_build dim m false p t = puts (generic_puts t) (Some (repeat None (dim * dim))).
  Proof.
    unfold st_build, puts, generic_puts. generalize (Some (repeat (@None (mono R)) (dim * dim))). induction (seq 0 (dim * dim)) as [|o l IH]; intro out; [reflexivity|]. cbn. apply IH.
  Qed.
  Lemma build_hermitian t : st_build dim m true p t = puts (flat_map (hermitian_put t) (upper dim)) (Some (repeat None (dim * dim))).
  Proof.
    unfold st_build. generalize (Some (repeat (@None (mono R)) (dim * dim))). induction (upper dim) as [|[row col] l IH]; intro out; [reflexivity|]. cbn [fold_left flat_map]. rewrite IH, puts_app. f_equal.
    unfold hermitian_put. destruct (Nat.eqb row col); reflexivity.
  Qed.
  Lemma in_upper row col : In (row, col) (upper dim) <-> row <= col /\ col < dim.
  Proof.
    unfold upper. rewrite in_flat_map. split.
    - intros (x & Hx & H). apply in_map_iff in H as (r & E & Hr). injection E as -> ->. apply in_seq in Hx, Hr. lia.
    - intros [A B]. exists col. split; [apply in_seq; lia|]. apply in_map_iff. exists row. split; [reflexivity|apply in_seq; lia].
  Qed.
  Lemma in_lower o : In o (lower dim) <-> exists row col, col <= row /\ row < dim /\ o = col * dim + row.
  Proof.
    unfold lower. rewrite in_flat_map. split.
    - intros (x & Hx & H). apply in_map_iff in H as (r & E & Hr). apply in_seq in Hx, Hr. exists r, x. lia.
    - intros (row & col & A & B & ->). exists col. split; [apply in_seq; lia|]. apply in_map_iff. exists row. split; [reflexivity|apply in_seq; lia].
  Qed.

  Variable hermitian : bool.
  Hypothesis HM : hermitian = true -> hermitian_matrix c dim m.
  Lemma transposed row col q : hermitian = true -> row < dim -> col < dim -> nth_error m (col * dim + row) = Some q -> nth_error m (row * dim + col) = Some (cx_conj c q).
  Proof.
    intros H Hr Hc Q. destruct (elem_at (row * dim + col) (cell_lt dim col row Hc Hr)) as (q' & Q' & _). rewrite Q'. f_equal. now apply (HM H row col q q').
  Qed.

  (** the allowed contents of a cell *)
  Definition allowed t (o : nat) (e : mono R) : Prop :=
    entry_of m (direct p t) o = Some e \/
    (hermitian = true /\ exists row col, row < dim /\ col < dim /\ o = row * dim + col /\ entry_of m (mirror p t) (col * dim + row) = Some e).
  Lemma allowed_stands (E : hseq -> cx R) t o q e : expectation c V R E -> unsigned_conj c V -> (hermitian = true -> real_symbols E t) -> reachable c V t -> (forall q, In q m -> found c t q) ->
    nth_error m o = Some q -> allowed t o e -> stands_for E t p q e.
  Proof.
    intros EX UC RS Rt Fm Q [D|(H & row & col & Hr & Hc & -> & D)].
    - unfold entry_of in D. rewrite Q in D. assert (Iq : In q m) by (eapply nth_error_In; exact Q). assert (Vq : V q) by (destruct EO as [_ F]; rewrite Forall_forall in F; auto).
      destruct (direct_stands c V LW R E p EX UC t q Rt Vq (Fm q Iq)) as (e' & E1 & S). congruence.
    - unfold entry_of in D. destruct (elem_at (col * dim + row) (cell_lt dim row col Hr Hc)) as (q0 & Q0 & I0 & V0). rewrite Q0 in D.
      pose proof (transposed row col q0 H Hr Hc Q0) as T. assert (q = cx_conj c q0) as -> by congruence.
      destruct (mirror_stands c V LW R E p EX UC t q0 Rt V0 (Fm q0 I0) (RS H)) as (e' & E1 & S). congruence.
  Qed.
  Lemma direct_here t o : reachable c V t -> (forall q, In q m -> found c t q) -> o < dim * dim -> exists e, entry_of m (direct p t) o = Some e.
  Proof. intros Rt Fm H. destruct (elem_at o H) as (q & Q & Iq & Vq). unfold entry_of. rewrite Q. apply (direct_some c V LW p t q Rt Vq (Fm q Iq)). Qed.
  Lemma mirror_here t o : reachable c V t -> (forall q, In q m -> found c t q) -> o < dim * dim -> exists e, entry_of m (mirror p t) o = Some e.
  Proof. intros Rt Fm H. destruct (elem_at o H) as (q & Q & Iq & Vq). unfold entry_of. rewrite Q. apply (mirror_some c V LW p t q Rt Vq (Fm q Iq)). Qed.

  Lemma build_ok t : reachable c V t -> (forall q, In q m -> found c t q) -> exists out, st_build dim m hermitian p t = Some out /\ length out = dim * dim /\
    forall o, o < dim * dim -> exists e, nth_error out o = Some (Some e) /\ allowed t o e.
  Proof.
    intros Rt Fm. destruct hermitian eqn:H.
    - rewrite build_hermitian. destruct (puts_ok (flat_map (hermitian_put t) (upper dim)) (repeat None (dim * dim))) as (out & E & L & _ & W).
      + rewrite repeat_length. intros o x I. apply in_flat_map in I as ([row col] & U & I). apply in_upper in U as [U1 U2]. cbn in I. destruct I as [I|I].
        * injection I as <- <-. assert (B : col * dim + row < dim * dim) by (apply cell_lt; lia). split; [exact B|]. destruct (direct_here t _ Rt Fm B) as (e & X). congruence.
        * destruct (Nat.eqb row col); [destruct I|]. destruct I as [I|[]]. injection I as <- <-. split; [apply cell_lt; lia|].
          destruct (mirror_here t (col * dim + row) Rt Fm) as (e & X); [apply cell_lt; lia|congruence].
      + rewrite repeat_length in L. exists out. split; [exact E|]. split; [exact L|]. intros o Ho. destruct (cell_split dim o Ho) as (row & col & Hr & Hc & ->).
        destruct (W (col * dim + row)) as (e & I & N).
        * rewrite in_map_iff. destruct (le_lt_dec row col) as [D|D].
          -- exists (col * dim + row, entry_of m (direct p t) (col * dim + row)). split; [reflexivity|]. apply in_flat_map. exists (row, col). split; [apply in_upper; lia|now left].
          -- exists (col * dim + row, entry_of m (mirror p t) (row * dim + col)). split; [reflexivity|]. apply in_flat_map. exists (col, row). split; [apply in_upper; lia|]. cbn.
             destruct (Nat.eqb_spec col row); [lia|]. right. now left.
        * exists e. split; [exact N|]. apply in_flat_map in I as ([r k] & U & I). apply in_upper in U as [U1 U2]. cbn in I. destruct I as [I|I].
          -- injection I as E1 E2. left. congruence.
          -- destruct (Nat.eqb r k); [destruct I|]. destruct I as [I|[]]. injection I as E1 E2. right. split; [exact H|]. exists r, k. split; [lia|]. split; [lia|]. split; [now symmetry|exact E2].
    - rewrite build_generic. destruct (puts_ok (generic_puts t) (repeat None (dim * dim))) as (out & E & L & _ & W).
      + rewrite repeat_length. intros o x I. apply in_map_iff in I as (o' & I & S). injection I as <- <-. apply in_seq in S. split; [lia|]. destruct (direct_here t o' Rt Fm) as (e & X); [lia|congruence].
      + rewrite repeat_length in L. exists out. split; [exact E|]. split; [exact L|]. intros o Ho. destruct (W o) as (e & I & N).
        * unfold generic_puts. rewrite map_map. cbn. rewrite map_id. apply in_seq. lia.
        * exists e. split; [exact N|]. apply in_map_iff in I as (o' & I & _). injection I as -> I. now left.
  Qed.
  Lemma allowed_symbolic E t out : expectation c V R E -> unsigned_conj c V -> (hermitian = true -> real_symbols E t) -> reachable c V t -> (forall q, In q m -> found c t q) ->
    length out = dim * dim -> (forall o, o < dim * dim -> exists e, nth_error out o = Some (Some e) /\ allowed t o e) -> symbolic_of E t p m out.
  Proof.
    intros EX UC RS Rt Fm L A. destruct EO as [Lm _]. split; [congruence|]. intros o q Q. assert (B : o < dim * dim) by (rewrite <- Lm; apply nth_error_Some; congruence).
    destruct (A o B) as (e & N & K). exists e. split; [exact N|]. now apply (allowed_stands E t o).
  Qed.

  (** * Identification *)
  Lemma st_identified only : (only = true -> Forall (fun q => same_word (cx_conj c q) q) m) ->
    exists l, st_identify c dim m hermitian only = Some l /\ Forall (from c V m) l /\ (forall q, In q m -> covers c V l (hs_hash q)).
  Proof.
    intro ON. pose proof EO as [Lm Vm]. set (offs := if hermitian then lower dim else seq 0 (dim * dim)).
    assert (B : forall o, In o offs -> o < length m).
    { intros o. unfold offs. rewrite Lm. destruct hermitian; [rewrite in_lower; intros (row & col & A & B & ->); apply cell_lt; lia|rewrite in_seq; lia]. }
    destruct (pick_some m offs B) as (r & E & D). unfold st_identify. fold offs. rewrite E.
    assert (IR : forall q, In q r -> In q m) by (intros q Hq; apply D in Hq as (o & _ & Q); eapply nth_error_In; exact Q).
    assert (MR : Forall (mine c V m) r) by (apply Forall_forall; intros q Hq; apply (mine_in c V m Vm); auto).
    (* every element of the matrix is looked at, or its conjugate is *)
    assert (All : forall q, In q m -> In q r \/ (In (cx_conj c q) r /\ hermitian = true)).
    { pose proof transposed as TR. intros q Hq. apply In_nth_error in Hq as (o & Q). assert (Bo : o < dim * dim) by (rewrite <- Lm; apply nth_error_Some; congruence). destruct hermitian eqn:H.
      - destruct (cell_split dim o Bo) as (row & col & Hr & Hc & ->). destruct (le_lt_dec col row) as [L|L].
        + left. apply D. exists (col * dim + row). split; [apply in_lower; exists row, col; lia|exact Q].
        + right. split; [|reflexivity]. apply D. exists (row * dim + col). split; [apply in_lower; exists col, row; lia|]. now apply TR.
      - left. apply D. exists o. split; [apply in_seq; lia|exact Q]. }
    eexists. split; [reflexivity|].
    destruct only.
    - specialize (ON eq_refl). destruct (notes_inv c V m note_positive (fun q => mine c V m q /\ same_word (cx_conj c q) q)) with (l := r) (st := st_start) as (I & C & _).
      + intros st q Is [M S]. now apply (note_positive_inv c V LW m).
      + apply start_inv, LW.
      + rewrite Forall_forall in *. intros q Hq. split; [now apply MR|]. apply ON. now apply IR.
      + split; [apply I|]. intros q Hq. destruct (All q Hq) as [A|[A _]]; [now apply C|]. apply (covers_conj c V LW); [rewrite Forall_forall in Vm; auto|]. exact (C _ A).
    - destruct hermitian eqn:H.
      + destruct (notes_inv c V m (fun st q => note st (cx_conj c q) q) (mine c V m)) with (l := r) (st := st_start) as (I & C & _).
        * intros st q Is M. pose proof (mine_conj c V LW m Vm q M) as Mc. destruct (note_inv c V LW m Vm st _ Is Mc) as (A & B' & D'). rewrite (lw_invol c V LW q (proj1 M)) in A, B', D'.
          split; [exact A|]. split; [apply (covers_conj c V LW); [apply M|exact B']|exact D'].
        * apply start_inv, LW.
        * exact MR.
        * split; [apply I|]. intros q Hq. destruct (All q Hq) as [A|[A _]]; [now apply C|]. apply (covers_conj c V LW); [rewrite Forall_forall in Vm; auto|]. exact (C _ A).
      + destruct (notes_inv c V m (fun st q => note st q (cx_conj c q)) (mine c V m)) with (l := r) (st := st_start) as (I & C & _).
        * intros st q Is M. now apply (note_inv c V LW m Vm).
        * apply start_inv, LW.
        * exact MR.
        * split; [apply I|]. intros q Hq. destruct (All q Hq) as [A|[_ A]]; [now apply C|discriminate].
  Qed.

  (** * The single-threaded factory *)
  Lemma st_correct only t : reachable c V t -> (only = true -> Forall (fun q => same_word (cx_conj c q) q) m) ->
    exists t' out, st_run c dim m hermitian p only t = Done t' out /\ registered c V t t' m /\
      (plain_self_conjugates c m -> flagged c t -> flagged c t') /\
      forall E, expectation c V R E -> unsigned_conj c V -> (hermitian = true -> real_symbols E t') -> symbolic_of E t' p m out.
  Proof.
    intros Rt ON. destruct (st_identified only ON) as (l & El & Fl & Cl). destruct (merge_registers c V LW m (proj2 EO) l t Rt Fl Cl) as (t' & ids & Em & Rg & Rt' & Fm).
    destruct (build_ok t' Rt' Fm) as (out & Eo & Lo & A). exists t', out. unfold st_run. rewrite El, Em, Eo. split; [reflexivity|]. split; [exact Rg|]. split.
    - intros PS Ft. now apply (merge_flags c V LW m (proj2 EO) l t t' ids).
    - intros E EX UC RS. now apply allowed_symbolic.
  Qed.
End Run.
