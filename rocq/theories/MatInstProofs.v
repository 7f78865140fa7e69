(** Moment and localizing matrices: proofs. *)
From Coq Require Import List NArith Arith Bool Lia.
From Verif Require Import CoreModel CoreSpec CoreProofs AlgModel AlgSpec AlgProofs AlgConfluenceProofs AlgFinalProofs
  PauliModel PauliSpec PauliProofs PauliFinalProofs LocModel LocSpec LocProofs SymModel SymSpec SymInstModel SymInstProofs
  ParModel MatModel MatSpec MatRunProofs MatInstModel MatInstSpec.
Import ListNotations.

(* ------------------------------------------------------------------ abstract words *)
Section Star.
  Variables (mul : hseq -> hseq -> res hseq) (cj : hseq -> res hseq) (D : nat -> hseq -> Prop) (L : nat).
  Hypothesis SW : star_words mul cj D L.

  Lemma star_flip l k a b : D l a -> D k b -> l + k <= L ->
    rconj cj (rmul mul (cj a) (Ret b)) = rmul mul (cj b) (Ret a).
  Proof.
    intros Ha Hb Hl. destruct (sw_conj _ _ _ _ SW l a Ha ltac:(lia)) as (ca & Ea & Dca & Ia).
    destruct (sw_conj _ _ _ _ SW k b Hb ltac:(lia)) as (cb & Eb & Dcb & Ib).
    destruct (sw_mul _ _ _ _ SW l k ca b Dca Hb Hl) as (p & Ep & Dp). unfold rmul, rconj. rewrite Ea, Eb. cbn [bind]. rewrite Ep. cbn [bind].
    exact (sw_anti _ _ _ _ SW l k ca b p a cb Dca Hb Hl Ep Ia Eb).
  Qed.
  Lemma star_flip_word l k a b w kw : D l a -> D k b -> D kw w -> l + kw + k <= L -> cj w = Ret w ->
    rconj cj (rmul mul (cj a) (rmul mul (Ret w) (Ret b))) = rmul mul (cj b) (rmul mul (Ret w) (Ret a)).
  Proof.
    intros Ha Hb Hw Hl Cw. destruct (sw_conj _ _ _ _ SW l a Ha ltac:(lia)) as (ca & Ea & Dca & Ia).
    destruct (sw_conj _ _ _ _ SW k b Hb ltac:(lia)) as (cb & Eb & Dcb & Ib).
    destruct (sw_mul _ _ _ _ SW kw k w b Hw Hb ltac:(lia)) as (wb & Ewb & Dwb).
    destruct (sw_mul _ _ _ _ SW kw l w a Hw Ha ltac:(lia)) as (wa & Ewa & Dwa).
    destruct (sw_mul _ _ _ _ SW k kw cb w Dcb Hw ltac:(lia)) as (bw & Ebw & Dbw).
    destruct (sw_mul _ _ _ _ SW l (kw + k) ca wb Dca Dwb ltac:(lia)) as (p & Ep & Dp).
    unfold rmul, rconj. rewrite Ea, Eb. cbn [bind]. rewrite Ewb, Ewa. cbn [bind]. rewrite Ep. cbn [bind].
    assert (Cwb : cj wb = Ret bw) by (rewrite (sw_anti _ _ _ _ SW kw k w b wb w cb Hw Hb ltac:(lia) Ewb Cw Eb); exact Ebw).
    rewrite (sw_anti _ _ _ _ SW l (kw + k) ca wb p a bw Dca Dwb ltac:(lia) Ep Ia Cwb).
    exact (sw_assoc _ _ _ _ SW k kw l cb w a bw wa Dcb Hw Ha ltac:(lia) Ebw Ewa).
  Qed.

  Lemma nth_row d r x : nth_error (row_gen cj d) r = Some x -> exists q, nth_error d r = Some q /\ x = cj q.
  Proof. unfold row_gen. rewrite nth_error_map. destruct (nth_error d r) as [q|]; [|discriminate]. intro E. injection E as <-. eauto. Qed.
  Lemma nth_col d r x : nth_error (col_gen d) r = Some x -> exists q, nth_error d r = Some q /\ x = Ret q.
  Proof. unfold col_gen. rewrite nth_error_map. destruct (nth_error d r) as [q|]; [|discriminate]. intro E. injection E as <-. eauto. Qed.

  Lemma moment_hermitian_by l d : Forall (D l) d -> l + l <= L -> hermitian_by (moment_functor mul) (rconj cj) (row_gen cj d) (col_gen d).
  Proof.
    intros Hd Hl r c xr yr xc yc R1 C1 R2 C2. rewrite Forall_forall in Hd.
    destruct (nth_row _ _ _ R1) as (a & Ea & ->). destruct (nth_col _ _ _ C1) as (a' & Ea' & ->). rewrite Ea in Ea'. injection Ea' as <-.
    destruct (nth_row _ _ _ R2) as (b & Eb & ->). destruct (nth_col _ _ _ C2) as (b' & Eb' & ->). rewrite Eb in Eb'. injection Eb' as <-.
    symmetry. apply (star_flip l l); try assumption; apply Hd; eapply nth_error_In; eassumption.
  Qed.
  Lemma localizing_hermitian_by l k w d : Forall (D l) d -> D k w -> l + k + l <= L -> cj w = Ret w ->
    hermitian_by (localizing_functor mul w) (rconj cj) (row_gen cj d) (col_gen d).
  Proof.
    intros Hd Hw Hl Cw r c xr yr xc yc R1 C1 R2 C2. rewrite Forall_forall in Hd.
    destruct (nth_row _ _ _ R1) as (a & Ea & ->). destruct (nth_col _ _ _ C1) as (a' & Ea' & ->). rewrite Ea in Ea'. injection Ea' as <-.
    destruct (nth_row _ _ _ R2) as (b & Eb & ->). destruct (nth_col _ _ _ C2) as (b' & Eb' & ->). rewrite Eb in Eb'. injection Eb' as <-.
    symmetry. apply (star_flip_word l l a b w k); try assumption; apply Hd; eapply nth_error_In; eassumption.
  Qed.
  Lemma moment_entries_return l d r c x : Forall (D l) d -> l + l <= L -> r < length d -> c < length d ->
    nth_error (moment_matrix mul cj d) (c * length d + r) = Some x -> exists q, x = Ret q.
  Proof.
    intros Hd Hl Hr Hc E. rewrite Forall_forall in Hd.
    destruct (nth_error d r) as [a|] eqn:Ea; [|apply nth_error_None in Ea; lia]. destruct (nth_error d c) as [b|] eqn:Eb; [|apply nth_error_None in Eb; lia].
    destruct (generated_st (moment_functor mul) (row_gen cj d) (col_gen d)) as [_ G].
    unfold moment_matrix in E. assert (RL : length (row_gen cj d) = length d) by apply map_length. rewrite RL in G.
    rewrite (G r c (cj a) (Ret b)) in E; [|unfold row_gen; rewrite nth_error_map, Ea; reflexivity|unfold col_gen; rewrite nth_error_map, Eb; reflexivity].
    injection E as <-. destruct (sw_conj _ _ _ _ SW l a (Hd a (nth_error_In _ _ Ea)) ltac:(lia)) as (ca & Eca & Dca & _).
    unfold moment_functor, rmul. rewrite Eca. cbn [bind]. destruct (sw_mul _ _ _ _ SW l l ca b Dca (Hd b (nth_error_In _ _ Eb)) Hl) as (p & Ep & _). eauto.
  Qed.
End Star.

Lemma hermitian_by_matrix {A} (f : A -> A -> A) cj rows cols : length rows = length cols -> hermitian_by f cj rows cols ->
  hermitian_matrix cj (length cols) (st_generate f rows cols).
Proof.
  intros Hl H. destruct (generated_st f rows cols) as [G1 G2]. split; [rewrite G1; now rewrite Hl|].
  intros r c x y Hr Hc Ex Ey.
  destruct (nth_error rows r) as [xr|] eqn:Er; [|apply nth_error_None in Er; lia]. destruct (nth_error rows c) as [xc|] eqn:Ec; [|apply nth_error_None in Ec; lia].
  destruct (nth_error cols r) as [yr|] eqn:Fr; [|apply nth_error_None in Fr; lia]. destruct (nth_error cols c) as [yc|] eqn:Fc; [|apply nth_error_None in Fc; lia].
  rewrite <- Hl in Ex, Ey. rewrite (G2 r c xr yc Er Fc) in Ex. rewrite (G2 c r xc yr Ec Fr) in Ey. injection Ex as <-. injection Ey as <-.
  apply (H c r xc yc xr yr); assumption.
Qed.

(* ------------------------------------------------------------------ the Hermiticity check *)
Section Find.
  Variables (A : Type) (eqb : A -> A -> bool) (cj : A -> A) (dflt : A) (P : A -> Prop).
  Hypothesis eqb_spec : forall x y, P x -> P y -> eqb x (cj y) = true <-> x = cj y.
  Variables (n : nat) (m : list A).
  Hypothesis Hm : Forall P m.
  Hypothesis Hlen : length m = n * n.
  Lemma place r c : r < n -> c < n -> c * n + r < n * n.
  Proof. intros. assert (c * n + n <= n * n) by (replace (c * n + n) with (S c * n) by lia; apply Nat.mul_le_mono_r; lia). lia. Qed.
  Lemma nth_dflt r c : r < n -> c < n -> nth_error m (c * n + r) = Some (nth (c * n + r) m dflt).
  Proof. intros. apply nth_error_nth'. rewrite Hlen. now apply place. Qed.
  Lemma nth_P r c : r < n -> c < n -> P (nth (c * n + r) m dflt).
  Proof. intros. rewrite Forall_forall in Hm. apply Hm. apply nth_In. rewrite Hlen. now apply place. Qed.
  Definition fails := hermitian_failure cj n m.
  Lemma fails_iff r c : c <= r -> r < n -> fails (r, c) <-> eqb (nth (c * n + r) m dflt) (cj (nth (r * n + c) m dflt)) = false.
  Proof.
    intros H1 H2. assert (Hc : c < n) by lia. unfold fails, hermitian_failure. rewrite (nth_dflt r c), (nth_dflt c r) by assumption.
    pose proof (eqb_spec _ _ (nth_P r c H2 Hc) (nth_P c r Hc H2)) as S. split.
    - intros (_ & x & y & E1 & E2 & F). injection E1 as <-. injection E2 as <-. destruct (eqb _ _); [|reflexivity]. now destruct F; apply S.
    - intro E. split; [lia|]. do 2 eexists. split; [reflexivity|]. split; [reflexivity|]. intro F. apply S in F. congruence.
  Qed.
  Lemma row_spec col : forall rows, (forall r, In r rows -> col < r < n) ->
    match first_bad_row eqb cj dflt n m col rows with
    | None => forall r, In r rows -> ~ fails (r, col)
    | Some p => exists l1 l2 r, rows = l1 ++ r :: l2 /\ p = (r, col) /\ fails (r, col) /\ forall r', In r' l1 -> ~ fails (r', col)
    end.
  Proof.
    induction rows as [|r rows IH]; intros HR; cbn [first_bad_row]; [intros r []|].
    pose proof (HR r (or_introl eq_refl)) as Hr. assert (IH' := IH (fun x Hx => HR x (or_intror Hx))).
    pose proof (fails_iff r col ltac:(lia) ltac:(lia)) as FI. cbv zeta. destruct (eqb _ _).
    - assert (NF : ~ fails (r, col)) by (intro F; apply FI in F; discriminate).
      destruct (first_bad_row _ _ _ _ _ _ rows) as [p|].
      + destruct IH' as (l1 & l2 & r0 & -> & E & F & G). exists (r :: l1), l2, r0. split; [reflexivity|]. split; [exact E|]. split; [exact F|].
        intros r' [<-|H]; [exact NF|now apply G].
      + intros r' [<-|H]; [exact NF|now apply IH'].
    - exists [], rows, r. split; [reflexivity|]. split; [reflexivity|]. split; [now apply FI|intros r' []].
  Qed.
  Lemma col_spec : forall k a, a + k = n ->
    match first_bad_col eqb cj dflt n m (seq a k) with
    | None => forall r c, a <= c -> ~ fails (r, c)
    | Some p => fails p /\ a <= snd p /\ forall q, a <= snd q -> earlier q p -> ~ fails q
    end.
  Proof.
    induction k as [|k IH]; intros a Ha; cbn [seq first_bad_col].
    - intros r c Hc (H & _). lia.
    - pose proof (IH (S a) ltac:(lia)) as IHa. clear IH. cbv zeta.
      pose proof (fails_iff a a ltac:(lia) ltac:(lia)) as FD. destruct (eqb (nth (a * n + a) m dflt) _).
      2:{ split; [now apply FD|]. split; [cbn; lia|]. intros [r c] H1 H2 (H3 & _). unfold earlier in H2. cbn [fst snd] in *. lia. }
      assert (ND : ~ fails (a, a)) by (intro F; apply FD in F; discriminate).
      pose proof (row_spec a (seq (S a) (n - S a)) ltac:(intros r Hr; apply in_seq in Hr; lia)) as RS.
      destruct (first_bad_row _ _ _ _ _ _ _) as [p|].
      + destruct RS as (l1 & l2 & r & E & -> & F & G). split; [exact F|]. cbn [fst snd]. split; [lia|]. intros [r' c'] H1 H2 F'. unfold earlier in H2. cbn [fst snd] in *.
        pose proof F' as (F1 & _). assert (c' = a) by lia. subst c'. destruct (Nat.eq_dec r' a) as [->|Dr]; [now apply ND|].
        apply (G r'); [|exact F'].
        assert (I : In r' (l1 ++ r :: l2)) by (rewrite <- E; apply in_seq; lia). apply in_app_iff in I. destruct I as [I|I]; [exact I|exfalso].
        assert (nth_error (seq (S a) (n - S a)) (length l1) = Some r) by (rewrite E, nth_error_app2, Nat.sub_diag by lia; reflexivity).
        destruct I as [->|I]; [lia|]. apply In_nth_error in I as [j Hj].
        assert (nth_error (seq (S a) (n - S a)) (length l1 + S j) = Some r') by (rewrite E, nth_error_app2 by lia; replace (length l1 + S j - length l1) with (S j) by lia; exact Hj).
        assert (Q1 : r = S a + length l1) by (assert (length l1 < n - S a) by (rewrite <- (seq_length (n - S a) (S a)); apply nth_error_Some; congruence);
          rewrite (nth_error_nth' _ 0) in H by (rewrite seq_length; lia); rewrite seq_nth in H by lia; congruence).
        assert (Q2 : r' = S a + (length l1 + S j)) by (assert (length l1 + S j < n - S a) by (rewrite <- (seq_length (n - S a) (S a)); apply nth_error_Some; congruence);
          rewrite (nth_error_nth' _ 0) in H0 by (rewrite seq_length; lia); rewrite seq_nth in H0 by lia; congruence). lia.
      + assert (NC : forall r, ~ fails (r, a)).
        { intros r F. pose proof F as (F1 & _). destruct (Nat.eq_dec r a) as [->|Dr]; [now apply ND|]. apply (RS r); [apply in_seq; lia|exact F]. }
        destruct (first_bad_col _ _ _ _ _ _) as [p|].
        * destruct IHa as (F & G & K). split; [exact F|]. split; [lia|]. intros [r c] H1 H2. cbn [snd] in H1. destruct (Nat.eq_dec c a) as [->|Dc]; [apply NC|apply K; [cbn; lia|exact H2]].
        * intros r c H. destruct (Nat.eq_dec c a) as [->|Dc]; [apply NC|apply IHa; lia].
  Qed.
  Lemma find_first_spec :
    match find_first_index eqb cj dflt n m with
    | Some p => fails p /\ forall q, earlier q p -> ~ fails q
    | None => forall q, ~ fails q
    end.
  Proof.
    pose proof (col_spec n 0 eq_refl) as H. unfold find_first_index. destruct (first_bad_col _ _ _ _ _ _) as [p|].
    - destruct H as (H1 & _ & H2). split; [exact H1|]. intros q E. apply H2; [lia|exact E].
    - intros [r c]. apply H. lia.
  Qed.
  (** with an involution, no failure on or below the diagonal means none at all *)
  Lemma no_failure_hermitian : (forall x, P x -> cj (cj x) = x) -> (forall q, ~ fails q) <-> hermitian_matrix cj n m.
  Proof.
    intro Inv. split.
    - intro H. split; [exact Hlen|].
      assert (K : forall r c x y, c <= r -> r < n -> nth_error m (c * n + r) = Some x -> nth_error m (r * n + c) = Some y -> x = cj y).
      { intros r c x y H1 H2 Ex Ey. assert (Hc : c < n) by lia. pose proof (fails_iff r c H1 H2) as FI. pose proof (H (r, c)) as NF.
        rewrite (nth_dflt r c) in Ex by lia. rewrite (nth_dflt c r) in Ey by lia. injection Ex as <-. injection Ey as <-.
        apply (eqb_spec _ _ (nth_P r c H2 Hc) (nth_P c r Hc H2)). destruct (eqb _ _); [reflexivity|]. now destruct NF; apply FI. }
      intros r c x y Hr Hc Ex Ey. destruct (Nat.le_gt_cases c r) as [Q|Q]; [now apply (K r c)|].
      rewrite (K c r y x ltac:(lia) Hc Ey Ex). symmetry. apply Inv. rewrite Forall_forall in Hm. apply Hm. eapply nth_error_In. exact Ex.
    - intros [_ H] [r c] (H1 & x & y & Ex & Ey & F). apply F. apply (H r c); try assumption; lia.
  Qed.
End Find.
