(** Proofs about the commands that simplify and conjugate words. *)
From Coq Require Import List NArith ZArith Arith Bool Lia.
From Verif Require Import CoreModel CoreSpec AlgModel AlgSpec TextModel AlgContextProofs AlgFinalProofs AlgWitnessProofs LocModel LocSpec LocNumberProofs LocProofs PauliModel PauliSpec PauliProofs PauliFinalProofs WopModel WopSpec.
Import ListNotations.
Local Open Scope list_scope.
Local Open Scope nat_scope.

Lemma weach_ok {A B} (f : A -> wout B) l bs : Forall2 (fun a b => f a = WOk b) l bs -> weach f l = WOk bs.
Proof. induction 1 as [|a b l bs E F IH]; [reflexivity|]. cbn. rewrite E. cbn. rewrite IH. reflexivity. Qed.
Lemma weach_err {A B} (f : A -> wout B) l : Exists (fun a => f a = WErr) l -> (forall a, In a l -> f a <> WDie) -> weach f l = WErr.
Proof.
  induction 1 as [a l E|a l X IH]; intro D; cbn; [now rewrite E|]. destruct (f a) eqn:E; [|reflexivity|destruct (D a (or_introl eq_refl) E)]. cbn. rewrite IH; [reflexivity|]. intros b B'. apply D. now right.
Qed.
Lemma cast16_small z : (-32768 <= z <= 32767)%Z -> cast16 z = z.
Proof. intro H. unfold cast16. change (2 ^ 15)%Z with 32768%Z. change (2 ^ 16)%Z with 65536%Z. rewrite Z.mod_small; lia. Qed.
Lemma from_names n z o : names_op n z o -> from_matlab z = WOk o.
Proof. intros (-> & H & B). unfold from_matlab. rewrite cast16_small by lia. destruct (Z.ltb_spec (Z.of_nat (S o)) 1); [lia|]. f_equal. lia. Qed.
Lemma read_word n l w : names_word n l w -> weach from_matlab l = WOk w /\ over n w.
Proof.
  intro H. split.
  - apply weach_ok. induction H as [|z o l w N F IH]; constructor; [exact (from_names n z o N)|exact IH].
  - intros o O. induction H as [|z x l w (_ & N & _) F IH]; [destruct O|]. destruct O as [<-|O]; [exact N|now apply IH].
Qed.
Lemma in_range_ok n w : in_range n w = true <-> over n w.
Proof. unfold in_range. rewrite forallb_forall. split; intros H o O; specialize (H o O); now apply Nat.ltb_lt. Qed.
Lemma read_words n ls ws : Forall2 (names_word n) ls ws -> weach (weach from_matlab) ls = WOk ws /\ Forall (over n) ws.
Proof.
  intro H. split.
  - apply weach_ok. induction H as [|z o l w N F IH]; constructor; [exact (proj1 (read_word n z o N))|exact IH].
  - induction H as [|z o l w N F IH]; constructor; [exact (proj2 (read_word n z o N))|exact IH].
Qed.
Lemma scalar_shape_ok s : scalar_shape s = true <-> s = [1; 1].
Proof.
  destruct s as [|a [|b [|c s]]]; cbn; try (split; discriminate). rewrite andb_true_iff, !Nat.eqb_eq. split; [intros [-> ->]; reflexivity|intro H; injection H as -> ->; now split].
Qed.
Lemma answered_ok shape rs : length rs = fold_right Nat.mul 1 shape -> exists a, answered shape rs = WOk a /\ answers_in shape rs a.
Proof.
  intro L. unfold answered, answers_in. destruct (scalar_shape shape) eqn:E.
  - apply scalar_shape_ok in E. subst shape. cbn in L. destruct rs as [|r [|? ?]]; try discriminate. exists (XOne r). split; [reflexivity|]. split; [intros _; now exists r|intro N; now destruct N].
  - exists (XMany shape rs). split; [reflexivity|]. split; [intros ->; discriminate|reflexivity].
Qed.
Lemma F2_length {A B} (P : A -> B -> Prop) l m : Forall2 P l m -> length l = length m. Proof. induction 1; cbn; congruence. Qed.
Lemma shown_den A v q : shown_value A v (show q) = den A v q.
Proof. unfold shown_value, den, den_signed. cbn [show x_hash x_sign x_ops]. rewrite map_map. cbn [pred]. now rewrite map_id. Qed.
Lemma show_inj p q : show p = show q -> p = q.
Proof.
  destruct p as [h o s], q as [h' o' s']. unfold show. cbn. intro H. injection H as E -> ->. f_equal. revert o' E. induction o as [|x o IH]; intros [|y o'] E; try discriminate; [reflexivity|]. cbn in E. injection E as -> E. f_equal. now apply IH.
Qed.

Section Generic.
  Variables (n : nat) (make : word -> res hseq) (conj : hseq -> res hseq) (named : option names) (scan : text -> option Z).
  Variable good : word -> Prop.
  Hypothesis good_over : forall w, good w -> over n w.
  (** the commands are maps *)
  Lemma simplify_map (P : word -> shown -> Prop) : (forall w, good w -> exists q, make w = Ret q /\ P w (show q)) ->
    (forall l w, names_word n l w -> good w -> exists r, simplify_words n make named (WNumbers l) = WOk (XOne r) /\ P w r) /\
    forall shape ls ws, length ls = fold_right Nat.mul 1 shape -> Forall2 (names_word n) ls ws -> Forall good ws -> exists rs a, simplify_words n make named (WCells shape ls) = WOk a /\ answers_in shape rs a /\ Forall2 P ws rs.
  Proof.
    intro H. split.
    - intros l w N G. destruct (H w G) as (q & Q & X). exists (show q). split; [|exact X]. cbn [simplify_words]. destruct (read_word n l w N) as [-> O]. cbn [wbind]. apply in_range_ok in O. rewrite O. unfold simplified. now rewrite Q.
    - intros shape ls ws L N G. assert (M : exists rs, Forall2 (fun w r => simplified make w = WOk r /\ P w r) ws rs).
      { clear N L. induction G as [|w ws G _ [rs IH]]; [exists []; constructor|]. destruct (H w G) as (q & Q & X). exists (show q :: rs). constructor; [|exact IH]. split; [|exact X]. unfold simplified. now rewrite Q. }
      destruct M as [rs M]. destruct (answered_ok shape rs) as (a & A & AI). { rewrite <- (F2_length _ _ _ M), <- (F2_length _ _ _ N). exact L. }
      exists rs, a. split; [|split; [exact AI|]]. 2:{ clear - M. induction M as [|? ? ? ? [_ ?]]; constructor; auto. }
      cbn [simplify_words]. destruct (read_words n ls ws N) as [-> O]. cbn [wbind]. assert (F : forallb (in_range n) ws = true). { rewrite forallb_forall. rewrite Forall_forall in O. intros w W. apply in_range_ok. now apply O. }
      rewrite F. rewrite (weach_ok (simplified make) ws rs); [exact A|]. clear - M. induction M as [|? ? ? ? [? _]]; constructor; auto.
  Qed.
  Lemma conjugate_map (P : word -> shown -> Prop) : (forall w, good w -> exists q c, make w = Ret q /\ conj q = Ret c /\ P w (show c)) ->
    (forall l w, names_word n l w -> good w -> exists r, conjugate_words n make conj scan (WNumbers l) = WOk (XOne r) /\ P w r) /\
    forall shape ls ws, length ls = fold_right Nat.mul 1 shape -> Forall2 (names_word n) ls ws -> Forall good ws -> exists rs a, conjugate_words n make conj scan (WCells shape ls) = WOk a /\ answers_in shape rs a /\ Forall2 P ws rs.
  Proof.
    intro H. assert (K : forall w, good w -> exists r, conjugated n make conj w = WOk r /\ P w r).
    { intros w G. destruct (H w G) as (q & c & Q & C & X). exists (show c). split; [|exact X]. unfold conjugated. pose proof (good_over w G) as O. apply in_range_ok in O. rewrite O, Q. cbn. now rewrite C. }
    split.
    - intros l w N G. destruct (K w G) as (r & E & X). exists r. split; [|exact X]. cbn [conjugate_words]. destruct (read_word n l w N) as [-> O]. cbn [wbind]. now rewrite E.
    - intros shape ls ws L N G. assert (M : exists rs, Forall2 (fun w r => conjugated n make conj w = WOk r /\ P w r) ws rs).
      { clear N L. induction G as [|w ws G _ [rs IH]]; [exists []; constructor|]. destruct (K w G) as (r & E & X). exists (r :: rs). constructor; [now split|exact IH]. }
      destruct M as [rs M]. destruct (answered_ok shape rs) as (a & A & AI). { rewrite <- (F2_length _ _ _ M), <- (F2_length _ _ _ N). exact L. }
      exists rs, a. split; [|split; [exact AI|]]. 2:{ clear - M. induction M as [|? ? ? ? [_ ?]]; constructor; auto. }
      cbn [conjugate_words]. destruct (read_words n ls ws N) as [-> O]. cbn [wbind]. rewrite (weach_ok (conjugated n make conj) ws rs); [exact A|]. clear - M. induction M as [|? ? ? ? [? _]]; constructor; auto.
  Qed.
End Generic.
Section Range.
  Variables (n : nat) (make : word -> res hseq) (conj : hseq -> res hseq) (named : option names) (scan : text -> option Z).
  (** numbers out of range are refused *)
  Notation out_of_range := (out_of_range n).
  Lemma from_no_die z : from_matlab z <> WDie. Proof. unfold from_matlab. now destruct (_ <? _)%Z. Qed.
  Lemma refuse_word (l : list Z) : (exists z, In z l /\ out_of_range z) -> weach from_matlab l = WErr \/ exists w, weach from_matlab l = WOk w /\ in_range n w = false.
  Proof.
    intros (z & I & [Z|Z]).
    - left. apply weach_err; [|intros; apply from_no_die]. apply Exists_exists. exists z. split; [exact I|]. unfold from_matlab. rewrite cast16_small by lia. destruct (Z.ltb_spec z 1); [reflexivity|lia].
    - induction l as [|y l IH]; [destruct I|]. cbn [weach]. destruct (from_matlab y) as [o| |] eqn:Y; [|now left|destruct (from_no_die y Y)]. cbn [wbind]. destruct I as [->|I].
      + assert (E : o = Z.to_nat (z - 1)). { unfold from_matlab in Y. rewrite cast16_small in Y by lia. destruct (z <? 1)%Z; [discriminate|congruence]. }
        destruct (weach from_matlab l) as [w| |] eqn:W; [|now left|]. 2:{ exfalso. clear - W. induction l as [|x l IH]; [discriminate|]. cbn in W. destruct (from_matlab x) eqn:X; cbn in W; [|discriminate|destruct (from_no_die x X)]. destruct (weach from_matlab l); [discriminate|discriminate|now apply IH]. }
        right. eexists. split; [reflexivity|]. unfold in_range. cbn [forallb]. destruct (Nat.ltb_spec o n); [lia|reflexivity].
      + destruct (IH I) as [->|(w & -> & R)]; [now left|]. right. eexists. split; [reflexivity|]. unfold in_range in *. cbn [forallb]. rewrite R. apply andb_false_r.
  Qed.
  Lemma refused_numbers l : (exists z, In z l /\ out_of_range z) -> simplify_words n make named (WNumbers l) = WErr /\ conjugate_words n make conj scan (WNumbers l) = WErr.
  Proof. intro H. cbn [simplify_words conjugate_words]. destruct (refuse_word l H) as [->|(w & -> & R)]; cbn [wbind]; [now split|]. unfold conjugated. rewrite R. now split. Qed.
  Lemma names_numbers t l w : named = Some t -> Forall2 (fun x o => find_operator t x = Some o) l w -> over n w -> n <= Z.to_nat 32767 -> simplify_words n make named (WNames l) = simplify_words n make named (WNumbers (map (fun o => Z.of_nat (S o)) w)).
  Proof.
    intros -> F O B. cbn [simplify_words]. rewrite (weach_ok _ l w). 2:{ clear - F. induction F as [|x o l w E F IH]; constructor; auto. now rewrite E. }
    destruct (read_word n (map (fun o => Z.of_nat (S o)) w) w) as [-> _]. { clear F. induction w as [|o w IH]; constructor; [|apply IH; intros x X; apply O; now right]. assert (o < n) by (apply O; now left). repeat split; auto. lia. }
    cbn [wbind]. apply in_range_ok in O. now rewrite O.
  Qed.
End Range.

(** locality scenarios *)
Lemma loc_simplified sc L w : loc_safe sc L -> fits sc L w -> exists q, loc_make sc w = Ret q /\ loc_wf sc L q /\ forall (A : algebra) (v : nat -> A), loc_model sc A v -> aeq A (shown_value A v (show q)) (den_word A v w).
Proof.
  intros S [O L']. unfold loc_make. pose proof (loc_sequence_nf sc w SPos O) as E. eexists. split; [exact E|]. split; [exact (loc_sequence_wf sc L w SPos _ L' E)|]. intros A v M. rewrite shown_den. eapply aeq_trans; [exact (loc_sequence_sound sc L A v w SPos _ S L' M E)|]. apply aph_pos.
Qed.
Lemma loc_conjugated sc L w : loc_safe sc L -> fits sc L w -> exists q c, loc_make sc w = Ret q /\ loc_conjugate sc q = Ret c /\
  forall (A : star_algebra) (v : nat -> A), loc_model sc A v -> (forall x, valid_oper sc x -> aeq A (v (op_number sc x)) (astar A (v (op_number sc x)))) -> aeq A (shown_value A v (show c)) (astar A (den_word A v w)).
Proof.
  intros S F. destruct (loc_simplified sc L w S F) as (q & Q & W & V). assert (T : exists c, loc_conjugate sc q = Ret c).
  { destruct (loc_conjugate sc q) as [c| |] eqn:C; [now exists c| |]; pose proof (loc_conjugate_involutive sc L q S W) as I; rewrite C in I; discriminate I. }
  destruct T as [c C]. exists q, c. split; [exact Q|]. split; [exact C|]. intros A v M SA. rewrite shown_den. eapply aeq_trans; [exact (loc_conjugate_sound sc L A v q c S W M SA C)|]. apply astar_cong. rewrite <- (shown_den A v q). now apply V.
Qed.
Section Loc.
  Variables (sc : scenario) (L : nat) (named : option names) (scan : text -> option Z).
  Hypothesis S : loc_safe sc L.
  Notation n := (total_opers sc).
  Lemma loc_simplify_cmd : let P := fun w r => forall (A : algebra) (v : nat -> A), loc_model sc A v -> aeq A (shown_value A v r) (den_word A v w) in
    (forall l w, names_word n l w -> fits sc L w -> exists r, simplify_words n (loc_make sc) named (WNumbers l) = WOk (XOne r) /\ P w r) /\
    forall shape ls ws, length ls = fold_right Nat.mul 1 shape -> Forall2 (names_word n) ls ws -> Forall (fits sc L) ws -> exists rs a, simplify_words n (loc_make sc) named (WCells shape ls) = WOk a /\ answers_in shape rs a /\ Forall2 P ws rs.
  Proof. intro P. apply simplify_map. intros w F. destruct (loc_simplified sc L w S F) as (q & Q & _ & V). now exists q. Qed.
  Lemma loc_conjugate_cmd : let P := fun w r => forall (A : star_algebra) (v : nat -> A), loc_model sc A v -> (forall x, valid_oper sc x -> aeq A (v (op_number sc x)) (astar A (v (op_number sc x)))) -> aeq A (shown_value A v r) (astar A (den_word A v w)) in
    (forall l w, names_word n l w -> fits sc L w -> exists r, conjugate_words n (loc_make sc) (loc_conjugate sc) scan (WNumbers l) = WOk (XOne r) /\ P w r) /\
    forall shape ls ws, length ls = fold_right Nat.mul 1 shape -> Forall2 (names_word n) ls ws -> Forall (fits sc L) ws -> exists rs a, conjugate_words n (loc_make sc) (loc_conjugate sc) scan (WCells shape ls) = WOk a /\ answers_in shape rs a /\ Forall2 P ws rs.
  Proof. intro P. apply conjugate_map; [now intros w [O _]|]. intros w F. exact (loc_conjugated sc L w S F). Qed.
  Lemma loc_same l u k w : names_word n l u -> names_word n k w -> fits sc L u -> fits sc L w ->
    (simplify_words n (loc_make sc) named (WNumbers l) = simplify_words n (loc_make sc) named (WNumbers k) <-> forall (A : algebra) (v : nat -> A), loc_model sc A v -> aeq A (den_word A v u) (den_word A v w)).
  Proof.
    intros NU NW FU FW. destruct loc_simplify_cmd as [C _]. split.
    - intros E A v M. destruct (C l u NU FU) as (r & R & V). destruct (C k w NW FW) as (r' & R' & V'). rewrite R, R' in E. injection E as <-. eapply aeq_trans; [apply aeq_sym; exact (V A v M)|exact (V' A v M)].
    - intro H. cbn [simplify_words]. destruct (read_word n l u NU) as [-> OU]. destruct (read_word n k w NW) as [-> OW]. cbn [wbind]. pose proof (loc_complete sc u w OU OW H) as E. apply in_range_ok in OU, OW. rewrite OU, OW. unfold simplified, loc_make, loc_sequence. now rewrite E.
  Qed.
End Loc.
(** Pauli scenarios *)
Lemma shown_seq q : shown_apply (show q) = apply_seq q.
Proof. destruct q as [h o s]. unfold shown_apply, show. cbn [x_hash x_ops x_sign hs_hash hs_ops hs_sign]. rewrite map_map. cbn [pred]. now rewrite map_id. Qed.
Section Pauli.
  Variables (n L : nat) (named : option names) (scan : text -> option Z).
  Hypothesis S : pauli_safe n L.
  Lemma pauli_simplify_cmd : let P := fun w r => forall psi b, shown_apply r psi b = apply_signed SPos w psi b in
    (forall l w, names_word (3 * n) l w -> pauli_fits n L w -> exists r, simplify_words (3 * n) (pauli_make n) named (WNumbers l) = WOk (XOne r) /\ P w r) /\
    forall shape ls ws, length ls = fold_right Nat.mul 1 shape -> Forall2 (names_word (3 * n)) ls ws -> Forall (pauli_fits n L) ws -> exists rs a, simplify_words (3 * n) (pauli_make n) named (WCells shape ls) = WOk a /\ answers_in shape rs a /\ Forall2 P ws rs.
  Proof. intro P. apply simplify_map. intros w [O F]. eexists. split; [reflexivity|]. intros psi b. rewrite shown_seq. now apply (sequence_sound n L). Qed.
  Lemma pauli_same l u k w : names_word (3 * n) l u -> names_word (3 * n) k w -> pauli_fits n L u -> pauli_fits n L w ->
    (simplify_words (3 * n) (pauli_make n) named (WNumbers l) = simplify_words (3 * n) (pauli_make n) named (WNumbers k) <-> forall psi b, apply_signed SPos u psi b = apply_signed SPos w psi b).
  Proof.
    intros NU NW [OU FU] [OW FW]. rewrite (proj1 (sequence_unique n L u SPos w SPos S OU OW FU FW)). cbn [simplify_words]. destruct (read_word (3 * n) l u NU) as [-> _]. destruct (read_word (3 * n) k w NW) as [-> _]. cbn [wbind].
    apply in_range_ok in OU, OW. rewrite OU, OW. unfold simplified, pauli_make. cbn [of_res wbind]. split; [intro E; injection E; intros; now apply show_inj; unfold show; f_equal|now intros ->].
  Qed.
  Lemma pauli_conjugate_cmd : let P := fun w r => forall i j, entry (shown_apply r) i j = gconj (entry (apply_signed SPos w) j i) in
    (forall l w, names_word (3 * n) l w -> pauli_fits n L w -> exists r, conjugate_words (3 * n) (pauli_make n) pauli_conj_op scan (WNumbers l) = WOk (XOne r) /\ P w r) /\
    forall shape ls ws, length ls = fold_right Nat.mul 1 shape -> Forall2 (names_word (3 * n)) ls ws -> Forall (pauli_fits n L) ws -> exists rs a, conjugate_words (3 * n) (pauli_make n) pauli_conj_op scan (WCells shape ls) = WOk a /\ answers_in shape rs a /\ Forall2 P ws rs.
  Proof.
    intro P. apply (conjugate_map (3 * n)); [now intros w [O _]|]. intros w [O F]. do 2 eexists. split; [reflexivity|]. split; [reflexivity|]. intros i j. rewrite shown_seq.
    rewrite (conjugate_adjoint n L _ i j (sequence_wf n L w SPos O F)). unfold entry. f_equal. now apply (sequence_sound n L).
  Qed.
End Pauli.
(** algebraic scenarios *)
Section Alg.
  Variables (L : nat) (ctx : acontext) (named : option names) (scan : text -> option Z).
  Hypothesis C : context_ok L ctx.
  Notation n := (pc_num (rb_pc (ac_rules ctx))).
  Notation afits := (alg_fits L ctx).
  Lemma alg_simplified w : afits w -> exists N q, (forall fuel, N <= fuel -> alg_make fuel ctx w = Ret q) /\ wf_seq n L q /\ forall (A : algebra) (v : nat -> A), context_model A v ctx -> aeq A (shown_value A v (show q)) (den_word A v w).
  Proof.
    intros [O B]. destruct (canonical_form_terminates L ctx w SPos C O B) as (N & q & T). exists N, q. split; [exact T|]. split; [exact (proj1 (canonical_form_post L ctx N w SPos q C O B (T N (le_n _))))|].
    intros A v M. rewrite shown_den. eapply aeq_trans; [exact (canonical_form_sound L ctx N w SPos q C O B (T N (le_n _)) A v M)|]. apply aph_pos.
  Qed.
  Lemma gather {B} (Q : nat -> word -> B -> Prop) ws : (forall w, In w ws -> exists N r, forall fuel, N <= fuel -> Q fuel w r) -> exists N, forall fuel, N <= fuel -> forall w, In w ws -> exists r, Q fuel w r.
  Proof.
    induction ws as [|w ws IH]; intro H; [exists 0; intros ? ? ? []|]. destruct (H w (or_introl eq_refl)) as (N & r & F). destruct IH as [M G]; [intros x X; apply H; now right|]. exists (N + M). intros fuel LE x [<-|X]; [exists r; apply F; lia|apply G; [lia|exact X]].
  Qed.
  Lemma alg_simplify_cmd : let P := fun w r => forall (A : algebra) (v : nat -> A), context_model A v ctx -> aeq A (shown_value A v r) (den_word A v w) in
    forall shape ls ws, length ls = fold_right Nat.mul 1 shape -> Forall2 (names_word n) ls ws -> Forall afits ws -> exists N, forall fuel, N <= fuel ->
    exists rs a, simplify_words n (alg_make fuel ctx) named (WCells shape ls) = WOk a /\ answers_in shape rs a /\ Forall2 P ws rs.
  Proof.
    intros P shape ls ws LL N F. rewrite Forall_forall in F. destruct (gather (fun fuel w q => alg_make fuel ctx w = Ret q /\ P w (show q)) ws) as [M G].
    { intros w W. destruct (alg_simplified w (F w W)) as (K & q & Q & _ & V). exists K, q. intros fuel LE. split; [now apply Q|exact V]. }
    exists M. intros fuel LE. apply (proj2 (simplify_map n (alg_make fuel ctx) named (fun w => In w ws) P (G fuel LE))); [exact LL|exact N|]. apply Forall_forall. auto.
  Qed.
  Lemma alg_conjugate_cmd : pc_mode (rb_pc (ac_rules ctx)) = SelfAdjoint ->
    let P := fun w r => forall (A : star_algebra) (v : nat -> A), star_model A (rb_pc (ac_rules ctx)) v -> context_model A v ctx -> aeq A (shown_value A v r) (astar A (den_word A v w)) in
    forall shape ls ws, length ls = fold_right Nat.mul 1 shape -> Forall2 (names_word n) ls ws -> Forall afits ws -> exists N, forall fuel, N <= fuel ->
    exists rs a, conjugate_words n (alg_make fuel ctx) (conjugate fuel ctx) scan (WCells shape ls) = WOk a /\ answers_in shape rs a /\ Forall2 P ws rs.
  Proof.
    intros SA P shape ls ws LL N F. rewrite Forall_forall in F. destruct (gather (fun fuel w q => exists c, alg_make fuel ctx w = Ret q /\ conjugate fuel ctx q = Ret c /\ P w (show c)) ws) as [M G].
    { intros w W. destruct (alg_simplified w (F w W)) as (K & q & Q & WF & V). assert (T : exists K' c, forall fuel, K' <= fuel -> conjugate fuel ctx q = Ret c).
      { unfold conjugate. rewrite SA. destruct (hs_zero q) eqn:Z; [exists 0; eexists; reflexivity|]. destruct WF as [[H _]|(_ & O & B)]; [unfold hs_zero in Z; rewrite H in Z; discriminate|].
        destruct (canonical_form_terminates L ctx (rev (hs_ops q)) (sconj (hs_sign q)) C) as (K' & c & T); [intros o I; apply O; now apply in_rev|now rewrite rev_length|]. now exists K', c. }
      destruct T as (K' & c & T). exists (K + K'), q. intros fuel LE. exists c. assert (E : conjugate fuel ctx q = Ret c) by (apply T; lia). split; [apply Q; lia|]. split; [exact E|]. intros A v SM CM. rewrite shown_den.
      eapply aeq_trans; [exact (conjugate_sound L ctx fuel q c C WF (or_introl SA) E A v SM CM)|]. apply astar_cong. rewrite <- (shown_den A v q). now apply V. }
    exists M. intros fuel LE. apply (proj2 (conjugate_map n (alg_make fuel ctx) (conjugate fuel ctx) scan (fun w => In w ws) (fun w W => proj1 (F w W)) P (G fuel LE))); [exact LL|exact N|]. apply Forall_forall. auto.
  Qed.
End Alg.
(** witnesses *)
Definition wop_trits : scenario := [[3; 2]].
Lemma zero_refuted named : exists r s, simplify_words (total_opers wop_trits) (loc_make wop_trits) named (WNumbers [1; 2]%Z) = WOk (XOne r) /\ simplify_words (total_opers wop_trits) (loc_make wop_trits) named (WNumbers []) = WOk (XOne s) /\
  x_ops r = x_ops s /\ x_sign r = x_sign s /\ exists (A : algebra) (v : nat -> A), loc_model wop_trits A v /\ aeq A (den_word A v [0; 1]) (azero A) /\ ~ aeq A (den_word A v []) (azero A).
Proof.
  do 2 eexists. split; [vm_compute; reflexivity|]. split; [vm_compute; reflexivity|]. split; [reflexivity|]. split; [reflexivity|].
  exists (loc_algebra wop_trits), (loc_val wop_trits). split; [exact (loc_algebra_model wop_trits)|]. rewrite !loc_val_word. split; vm_compute; [reflexivity|discriminate].
Qed.
Lemma wide_refuted named scan : let n := total_opers wop_trits in out_of_range n 32767 /\
  simplify_words n (loc_make wop_trits) named (WNumbers [65537]%Z) = simplify_words n (loc_make wop_trits) named (WNumbers [1]%Z) /\ conjugate_words n (loc_make wop_trits) (loc_conjugate wop_trits) scan (WNumbers [65537]%Z) = conjugate_words n (loc_make wop_trits) (loc_conjugate wop_trits) scan (WNumbers [1]%Z) /\
  exists a, simplify_words n (loc_make wop_trits) named (WNumbers [65537]%Z) = WOk a.
Proof. cbv zeta. split; [right; vm_compute; split; congruence|]. split; [vm_compute; reflexivity|]. split; [vm_compute; reflexivity|]. eexists. vm_compute. reflexivity. Qed.
Lemma trits_example : loc_safe wop_trits 4 /\ Forall2 (names_word (total_opers wop_trits)) [[3; 1; 1]; [1; 2]; []; [3]]%Z [[2; 0; 0]; [0; 1]; []; [2]] /\ Forall (fits wop_trits 4) [[2; 0; 0]; [0; 1]; []; [2]] /\
  simplify_words (total_opers wop_trits) (loc_make wop_trits) None (WNumbers [3; 1; 1]%Z) = WOk (XOne (mk_shown [3; 1] SPos (x_hash (show (hseq_make 3 [2; 0] SPos))))).
Proof.
  split; [vm_compute; reflexivity|]. split; [|split].
  - repeat (apply Forall2_cons; [repeat (apply Forall2_cons; [repeat split; vm_compute; first [reflexivity|lia|congruence]|]); apply Forall2_nil|]). apply Forall2_nil.
  - repeat (apply Forall_cons; [split; [intros o O; vm_compute in O; vm_compute; intuition lia|cbn; lia]|]). apply Forall_nil.
  - vm_compute. reflexivity.
Qed.
Lemma pauli_word_example : pauli_safe 2 4 /\ Forall2 (names_word (3 * 2)) [[1; 2; 4]; [6; 6]]%Z [[0; 1; 3]; [5; 5]] /\ Forall (pauli_fits 2 4) [[0; 1; 3]; [5; 5]] /\
  simplify_words (3 * 2) (pauli_make 2) None (WNumbers [1; 2]%Z) = WOk (XOne (show (hseq_make 6 [2] SIm))).
Proof.
  split; [vm_compute; reflexivity|]. split; [|split].
  - repeat (apply Forall2_cons; [repeat (apply Forall2_cons; [repeat split; vm_compute; first [reflexivity|lia|congruence]|]); apply Forall2_nil|]). apply Forall2_nil.
  - repeat (apply Forall_cons; [split; [intros o O; vm_compute in O; vm_compute; intuition lia|cbn; lia]|]). apply Forall_nil.
  - vm_compute. reflexivity.
Qed.
Lemma range_example : out_of_range 3 4 /\ out_of_range 3 0 /\ ~ out_of_range 3 3.
Proof. unfold out_of_range. cbn. lia. Qed.
Lemma single_cells n make conj named scan l : simplify_words n make named (WCells [1; 1] [l]) = simplify_words n make named (WNumbers l) /\ conjugate_words n make conj scan (WCells [1; 1] [l]) = conjugate_words n make conj scan (WNumbers l).
Proof.
  cbn [simplify_words conjugate_words weach]. destruct (weach from_matlab l) as [w| |]; cbn [wbind weach forallb]; [|now split|now split]. rewrite andb_true_r. split.
  - destruct (in_range n w); [|reflexivity]. destruct (simplified make w); reflexivity.
  - destruct (conjugated n make conj w); reflexivity.
Qed.
Lemma algebraic_example : let ctx := mk_actx false anticommuting in context_ok 8 ctx /\ pc_mode (rb_pc (ac_rules ctx)) = SelfAdjoint /\
  Forall2 (names_word (pc_num (rb_pc (ac_rules ctx)))) [[2; 1]; [2; 2; 1]]%Z [[1; 0]; [1; 1; 0]] /\ Forall (alg_fits 8 ctx) [[1; 0]; [1; 1; 0]] /\
  simplify_words 2 (alg_make 20 ctx) None (WNumbers [2; 1]%Z) = WOk (XOne (show (hseq_make 2 [0; 1] SNeg))).
Proof.
  cbv zeta. split; [exact (proj1 (decidable_ok _ _ _ _ anticommuting_decidable))|]. split; [reflexivity|]. split; [|split].
  - repeat (apply Forall2_cons; [repeat (apply Forall2_cons; [repeat split; vm_compute; first [reflexivity|lia|congruence]|]); apply Forall2_nil|]). apply Forall2_nil.
  - repeat (apply Forall_cons; [split; [intros o O; vm_compute in O; vm_compute; intuition lia|cbn; lia]|]). apply Forall_nil.
  - vm_compute. reflexivity.
Qed.
