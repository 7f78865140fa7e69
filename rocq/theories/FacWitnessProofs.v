(** Concrete matrices for the factory: what it does to them, and what depends on the schedule. *)
From Coq Require Import List NArith ZArith Arith Bool Lia.
From Verif Require Import CoreModel CoreSpec CoreProofs AlgModel AlgSpec AlgProofs AlgTheoryProofs AlgCompleteProofs AlgConfluenceProofs AlgNormalProofs
  AlgContextProofs AlgFinalProofs AlgWitnessProofs FieldModel FieldProofs SymModel SymSpec SymProofs SymFinalProofs SymInstModel SymInstProofs ChshProofs SymWitnessProofs PolyModel ParModel ParProofs MatModel MatProofs MatWitnessProofs FacModel FacSpec FacProofs FacRunProofs FacThmProofs.
Import ListNotations.

Definition fsig_eqb (a b : fsignal) : bool :=
  match a, b with FReady i, FReady j => Nat.eqb i j | FLevel i p, FLevel j q => Nat.eqb i j && Nat.eqb p q | FPromised i p, FPromised j q => Nat.eqb i j && Nat.eqb p q | FExited i, FExited j => Nat.eqb i j | _, _ => false end.
Lemma fsig_eqb_ok a b : fsig_eqb a b = true <-> a = b.
Proof.
  destruct a, b; cbn; try (split; discriminate); rewrite ?andb_true_iff, ?Nat.eqb_eq; split; intro H; try (now injection H); try (now (f_equal; try apply H)); try (now destruct H; f_equal).
Qed.

(** the CHSH operators A0, A1 of Alice: the matrix of A0, A1 and their products *)
Definition two_matrix : list hseq := map (fun w => hseq_make 4 w SPos) [[0]; [1;0]; [0;1]; [1]].
Lemma two_ok : elements_ok chsh_words 2 two_matrix.
Proof. split; [reflexivity|]. repeat (constructor; [apply chsh_word; [vm_compute; reflexivity|cbn; lia]|]). constructor. Qed.
Lemma herm_2 c m : map (cx_conj c) [nth 0 m (hseq_const true); nth 2 m (hseq_const true); nth 1 m (hseq_const true); nth 3 m (hseq_const true)] = m -> hermitian_matrix c 2 m.
Proof.
  intros H row col q q' Hr Hc A B. destruct m as [|a [|b [|d [|e [|]]]]]; try discriminate H. cbn in H. injection H as Ha Hb Hd He.
  destruct row as [|[|row]]; [| |lia]; (destruct col as [|[|col]]; [| |lia]); cbn in A, B; injection A as <-; injection B as <-; congruence.
Qed.
Lemma two_hermitian : hermitian_matrix chsh_sctx 2 two_matrix.
Proof. apply herm_2. vm_compute. reflexivity. Qed.
Lemma flat_real t : real_symbols (flat_E) t.
Proof.
  intros id s w _ _ _. unfold flat_E. apply cx_ext; cbn; try reflexivity; destruct (hs_zero _); cbn; try reflexivity.
Qed.
Definition sched_a : list nat := [0;2;1;1;1;2;0;0;0;0] ++ [1;1;1;1] ++ [2;2;2;2] ++ [1;1;2;2] ++ [0;0;0;0;0].
Definition sched_b : list nat := [0;2;1;1;1;2;0;0;0;0] ++ [2;2;2;2] ++ [1;1;1;1] ++ [1;1;2;2] ++ [0;0;0;0;0].
Definition show (s : cstate (@fmem Q') fsignal) : option (list (option (nat * bool))) := option_map (map (option_map (fun e => (m_id e, m_cj e)))) (f_ret (c_mem s)).
Lemma two_run : exists l s, exec (start (fprograms (R := Q') chsh_sctx 2 two_matrix true c1 2 no_throw) (ffresh 2 2 chsh_table)) l s /\ finished s /\
  show s = Some [Some (4, false); Some (2, true); Some (2, false); Some (5, false)].
Proof. exists sched_a. apply (find_run fsig_eqb fsig_eqb_ok). vm_compute. reflexivity. Qed.
Lemma two_st : exists t' out, st_run (R := Q') chsh_sctx 2 two_matrix true c1 false chsh_table = Done t' out /\
  map (option_map (fun e => (m_id e, m_cj e))) out = [Some (4, false); Some (2, true); Some (2, false); Some (5, false)].
Proof.
  assert (K : match st_run (R := Q') chsh_sctx 2 two_matrix true c1 false chsh_table with Done t' out => Some (map (option_map (fun e => (m_id e, m_cj e))) out) | _ => None end =
    Some [Some (4, false); Some (2, true); Some (2, false); Some (5, false)]) by (vm_compute; reflexivity).
  destruct (st_run _ _ _ _ _ _ _) as [t' out| |]; try discriminate. exists t', out. split; [reflexivity|]. now injection K.
Qed.
Lemma two_plain : plain_self_conjugates chsh_sctx two_matrix.
Proof. intros q H S. unfold two_matrix in H. cbn [map In] in H. destruct H as [<-|[<-|[<-|[<-|[]]]]]; vm_compute in S |- *; try reflexivity; discriminate S. Qed.

(** * X, Y with Y X -> - X Y *)
Definition anti2 : acontext := mk_actx false (recalculate (mk_rb (mk_pc 2 SelfAdjoint) [mk3 2 [1;0] (Some (SNeg, [0;1]))] 0)).
Lemma anti2_decidable : decidable_context 4 2 false anti2.
Proof. apply (decidable_by_test 4 2 false 20). vm_compute. reflexivity. Qed.
Lemma anti2_complete : is_complete 20 (ac_rules anti2) true = Ret true.
Proof. vm_compute. reflexivity. Qed.
Definition anti2_sctx : sctx := alg_sctx 20 anti2 (fun _ => []).
Definition anti2_words : hseq -> Prop := alg_words 4 false anti2.
Lemma anti2_lawful : lawful anti2_sctx anti2_words.
Proof.
  apply (alg_lawful_at 4 2 false anti2 20 (fun _ => []) anti2_decidable anti2_complete (or_introl eq_refl) 20).
  assert (K : forallb (fun q => match conjugate 20 anti2 q with Ret _ => true | _ => false end) (all_seqs 2 4) = true) by (vm_compute; reflexivity).
  intros q C. rewrite forallb_forall in K. specialize (K q (in_seqs 4 anti2 q C)). destruct (conjugate 20 anti2 q); [eauto|discriminate..].
Qed.
Lemma anti2_in q : wf_seqb 2 4 q = true -> canonicalb anti2 q = true -> anti2_words q.
Proof.
  intros W C. split; [|left; reflexivity]. unfold canonicalb in C. apply orb_true_iff in C as [C|C].
  - unfold hs_eqb in C. cbn in C. destruct (N.eqb_spec (hs_hash q) 0) as [Z|]; [|discriminate]. apply wf_seqb_ok in W. split; [exact W|].
    destruct W as [[_ E]|(W1 & W2 & W3)]; [|exfalso; apply (hash_nonzero 2 4 (hs_ops q)); [vm_compute; reflexivity|assumption|assumption|congruence]].
    split; [rewrite E; apply irreducible_nil|]. intros _. destruct q as [h o s]. cbn in *. subst. destruct s; try discriminate. reflexivity.
  - apply andb_true_iff in C as [Z C]. apply wf_seqb_ok in W. split; [exact W|]. split.
    + intros k rl Hin _ Oc. rewrite forallb_forall in C. specialize (C _ Hin). cbn [snd] in C. rewrite (occurs_true _ _ Oc) in C. discriminate.
    + intro H. rewrite H in Z. discriminate.
Qed.
Lemma anti2_canonical q : anti2_words q -> In q (all_seqs 2 4) /\ canonicalb anti2 q = true.
Proof.
  intros [C _]. split; [exact (in_seqs 4 anti2 q C)|]. unfold canonicalb. destruct C as (W & I & Z). destruct (N.eqb_spec (hs_hash q) 0) as [H|H]; [rewrite (Z H); reflexivity|].
  apply orb_true_iff. right. cbn [negb andb]. apply forallb_forall. intros [k rl] Hin. cbn [snd]. destruct (occursb (hs_ops (rl_lhs rl)) (hs_ops q)) eqn:Oc; [|reflexivity]. exfalso.
  destruct Hin as [Hin|[]]. apply (I k rl); [left; exact Hin| |].
  - injection Hin as <- <-. discriminate.
  - unfold occursb in Oc. apply existsb_exists in Oc as (i & _ & P). clear - P. exists (firstn i (hs_ops q)).
    assert (G : forall u w, is_prefix u w = true -> exists v, w = u ++ v).
    { induction u as [|x u IH]; intros w H; [now exists w|]. destruct w as [|y w]; [discriminate|]. cbn in H. apply andb_true_iff in H as [H1 H2]. apply Nat.eqb_eq in H1 as ->.
      destruct (IH w H2) as [v ->]. now exists v. }
    destruct (G _ _ P) as [v E]. exists v. rewrite <- E. symmetry. apply firstn_skipn.
Qed.
Section Zero.
  Variable R : rfield.
  Add Field Rfz : (r_field R).
  Lemma cmul_zero (x : cx R) : cmul x c0 = c0.
  Proof. apply cx_ext; cbn; ring. Qed.
End Zero.
(** E(X Y) = i, so E(i X Y) = -1 *)
Definition anti2_value (w : word) : cx Qc_rfield := if list_eq_dec Nat.eq_dec w [] then c1 else if list_eq_dec Nat.eq_dec w [0;1] then ci else c0.
Definition anti2_E (q : hseq) : cx Qc_rfield := if hs_zero q then c0 else cmul (sphase Qc_rfield (hs_sign q)) (anti2_value (hs_ops q)).
Lemma anti2_expectation : expectation anti2_sctx anti2_words Qc_rfield anti2_E.
Proof.
  split.
  - assert (K : forallb (fun q => implb (canonicalb anti2 q) (ceqb (anti2_E (cx_conj anti2_sctx q)) (cconj (anti2_E q)))) (all_seqs 2 4) = true) by (vm_compute; reflexivity).
    intros q W. destruct (anti2_canonical q W) as [I0 X]. rewrite forallb_forall in K. specialize (K q I0). rewrite X in K. cbn [implb] in K. now apply ceqb_spec in K.
  - intros q _. unfold anti2_E. change (hs_zero (pos q)) with (hs_zero q). pose proof (cx_ring Qc_rfield) as CR. destruct (hs_zero q).
    + symmetry. apply cmul_zero.
    + cbn [pos SymModel.set_sign hs_sign hs_ops sphase]. rewrite (Rmul_1_l CR). reflexivity.
  - vm_compute. reflexivity.
  - discriminate.
Qed.
Definition hseq_dec (a b : hseq) : {a = b} + {a <> b}.
Proof. decide equality; [decide equality|apply (list_eq_dec Nat.eq_dec)|apply N.eq_dec]. Defined.
Lemma anti2_unsigned : unsigned_conj anti2_sctx anti2_words.
Proof.
  assert (K : forallb (fun q => implb (canonicalb anti2 q) (if hseq_dec (pos (cx_conj anti2_sctx q)) (pos q) then true else false)) (all_seqs 2 4) = true) by (vm_compute; reflexivity).
  intros q W. right. destruct (anti2_canonical q W) as [I0 X]. rewrite forallb_forall in K. specialize (K q I0). rewrite X in K. cbn [implb] in K. now destruct (hseq_dec _ _).
Qed.
Lemma fresh_reachable c V : reachable c V table_start.
Proof. exists []. split; [constructor|reflexivity]. Qed.

(** Hermitian matrices: I, X Y; - X Y, I *)
Definition anti_matrix : list hseq := [hseq_const false; hseq_make 2 [0;1] SPos; hseq_make 2 [0;1] SNeg; hseq_const false].
Lemma schedule_refuted : exists c V (R : rfield) dim m p N t l s l' s', lawful c V /\ unsigned_conj c V /\ elements_ok V dim m /\ hermitian_matrix c dim m /\ 0 < N /\ reachable c V t /\
  exec (start (fprograms (R := R) c dim m true p N no_throw) (ffresh dim N t)) l s /\ finished s /\
  exec (start (fprograms (R := R) c dim m true p N no_throw) (ffresh dim N t)) l' s' /\ finished s' /\ f_ret (c_mem s) <> f_ret (c_mem s').
Proof.
  assert (A : exists s, exec (start (fprograms (R := Q') anti2_sctx 2 anti_matrix true c1 2 no_throw) (ffresh 2 2 table_start)) sched_a s /\ finished s /\
    show s = Some [Some (1, false); Some (2, true); Some (2, false); Some (1, false)]) by (apply (find_run fsig_eqb fsig_eqb_ok); vm_compute; reflexivity).
  assert (B : exists s, exec (start (fprograms (R := Q') anti2_sctx 2 anti_matrix true c1 2 no_throw) (ffresh 2 2 table_start)) sched_b s /\ finished s /\
    show s = Some [Some (1, false); Some (2, false); Some (2, true); Some (1, false)]) by (apply (find_run fsig_eqb fsig_eqb_ok); vm_compute; reflexivity).
  destruct A as (s & A1 & A2 & A3). destruct B as (s' & B1 & B2 & B3).
  exists anti2_sctx, anti2_words, Q', 2, anti_matrix, c1, 2, table_start, sched_a, s, sched_b, s'. split; [exact anti2_lawful|]. split; [exact anti2_unsigned|]. split; [|split; [|split; [lia|split; [apply fresh_reachable|]]]].
  - split; [reflexivity|]. repeat (constructor; [apply anti2_in; vm_compute; reflexivity|]). constructor.
  - apply herm_2. vm_compute. reflexivity.
  - split; [exact A1|]. split; [exact A2|]. split; [exact B1|]. split; [exact B2|]. intro H. unfold show in A3, B3. rewrite H in A3. rewrite A3 in B3. discriminate.
Qed.
Lemma race_refuted : exists c V (R : rfield) dim m p N, lawful c V /\ elements_ok V dim m /\ hermitian_matrix c dim m /\ 0 < N /\
  ~ ordered_conflicts (fprograms (R := R) c dim m true p N no_throw).
Proof.
  destruct schedule_refuted as (c & V & R & dim & m & p & N & t & l & s & l' & s' & A & _ & B & C & D & _ & X & F & X' & F' & NE).
  exists c, V, R, dim, m, p, N. repeat (split; [assumption|]). intro O. apply NE. now rewrite (deterministic _ _ _ _ _ _ O X F X' F').
Qed.

(** i X Y is its own conjugate, so its symbol, the word X Y, is marked Hermitian; but E(X Y) is imaginary *)
Definition imag_matrix : list hseq := [hseq_const false; hseq_make 2 [0;1] SIm; hseq_make 2 [0;1] SIm; hseq_const false].
Lemma mirrored_refuted : exists c V (R : rfield) dim m p t E t' out, lawful c V /\ unsigned_conj c V /\ elements_ok V dim m /\ hermitian_matrix c dim m /\ reachable c V t /\ expectation c V R E /\
  st_run c dim m true p false t = Done t' out /\ ~ symbolic_of E t' p m out.
Proof.
  assert (K : match st_run (R := Q') anti2_sctx 2 imag_matrix true c1 false table_start with
    | Done t' [_; Some e; Some e'; _] => andb (ceqb (cmul (m_f e) (match symbol_value anti2_E t' (m_id e) (m_cj e) with Some v => v | None => c0 end)) (cmul c1 (anti2_E (hseq_make 2 [0;1] SIm))))
       (ceqb (cmul (m_f e') (match symbol_value anti2_E t' (m_id e') (m_cj e') with Some v => v | None => c0 end)) (cmul c1 (anti2_E (hseq_make 2 [0;1] SIm))))
    | _ => true end = false) by (vm_compute; reflexivity).
  destruct (st_run (R := Q') anti2_sctx 2 imag_matrix true c1 false table_start) as [t' out| |] eqn:Run; try discriminate.
  exists anti2_sctx, anti2_words, Q', 2, imag_matrix, c1, table_start, anti2_E, t', out. split; [exact anti2_lawful|]. split; [exact anti2_unsigned|]. split; [|split; [|split; [apply fresh_reachable|split; [exact anti2_expectation|split; [exact Run|]]]]].
  - split; [reflexivity|]. repeat (constructor; [apply anti2_in; vm_compute; reflexivity|]). constructor.
  - apply herm_2. vm_compute. reflexivity.
  - intros [_ S]. destruct (S 1 (hseq_make 2 [0;1] SIm) eq_refl) as (e & Ee & v & Ev & V1). destruct (S 2 (hseq_make 2 [0;1] SIm) eq_refl) as (e' & Ee' & v' & Ev' & V2).
    destruct out as [|x0 [|x1 [|x2 [|x3 [|]]]]]; try discriminate. cbn in Ee, Ee'. injection Ee as ->. injection Ee' as ->. rewrite Ev, Ev', V1, V2, !ceqb_refl in K. discriminate.
Qed.
Lemma hang_refuted : exists c V (R : rfield) dim m p N throws t, lawful c V /\ elements_ok V dim m /\ hermitian_matrix c dim m /\ 0 < N /\ reachable c V t /\
  (exists w, w < N /\ throws w = true) /\
  forall l s, exec (start (fprograms (R := R) c dim m true p N throws) (ffresh dim N t)) l s -> ~ finished s.
Proof.
  exists chsh_sctx, chsh_words, Q', 2, two_matrix, c1, 2, (fun w => Nat.eqb w 1), chsh_table. split; [exact chsh_lawful|]. split; [exact two_ok|]. split; [exact two_hermitian|]. split; [lia|].
  split; [exact chsh_reach|]. split; [exists 1; split; [lia|reflexivity]|]. intros l s X. apply (throwing_hangs _ _ _ _ _ _ 2 _ _ 1 0 l s) in X; auto.
Qed.
