(** Wrappers, witnesses and refutations for symmetrised polynomials. *)
From Coq Require Import NArith ZArith QArith Qcanon Arith Bool List Lia Permutation Sorted.
From Verif Require Import CoreModel FieldModel FieldProofs SiteModel SiteSpec SiteWordProofs SiteThmProofs SiteOpenProofs SiteWitnessProofs PolyWitnessProofs CopModel CopSpec CopProofs CopFinalProofs.
Import ListNotations.
Local Open Scope list_scope.
Local Open Scope nat_scope.

Section Wrap.
  Context {R : rfield} (wide : bool -> N -> N -> sout N).
  Notation poly := (list (word * cx R)).
  Lemma split_scalar (p : poly) : (forall x, In x p -> fst x = []) \/ (exists x, In x p /\ fst x <> []).
  Proof. destruct (is_scalar p) eqn:S; [|right; now apply scalar_spec]. left. intros x X. unfold is_scalar in S. rewrite forallb_forall in S. specialize (S x X). destruct x as [w f]. cbn in S |- *. destruct w; [reflexivity|discriminate]. Qed.
  Lemma chain_fixed k (p p' p'' : poly) j : closed_chain k -> over_qubits (k_qubits k) p -> (exists x, In x p /\ fst x <> []) -> symmetrical_copy wide k p = SOk p' -> moved (chain_moved (k_qubits k) j) p' p'' -> Permutation p' p''.
  Proof. intros C O N E M. destruct (closed_chain_copy wide k p C O N) as (q & E' & AV). rewrite E in E'. injection E' as <-. exact (closed_chain_fixed k p p' p'' j C AV M). Qed.
  Lemma lattice_fixed k (p p' p'' : poly) j : closed_lattice wide k -> over_qubits (k_col k * k_row k) p -> (exists x, In x p /\ fst x <> []) -> symmetrical_copy wide k p = SOk p' -> moved (torus_moved (k_col k) (k_row k) j) p' p'' -> Permutation p' p''.
  Proof. intros C O N E M. destruct (closed_lattice_copy wide k p C O N) as (q & E' & AV). rewrite E in E'. injection E' as <-. exact (closed_lattice_fixed wide k p p' p'' j C AV M). Qed.
  Lemma chain_value k (p p' : poly) E : counting (R:=R) -> over_qubits (k_qubits k) p -> (closed_chain k /\ invariant (chain_moved (k_qubits k)) E \/ open_chain k /\ invariant (inside_chain (k_qubits k)) E) ->
    symmetrical_copy wide k p = SOk p' -> word_value E p' = word_value E p.
  Proof.
    intros CN OV H C. destruct (split_scalar p) as [S|N]; [rewrite (plain_copy wide k p (or_intror S)) in C; now injection C as <-|]. destruct H as [[H I]|[H I]].
    - destruct (closed_chain_copy wide k p H OV N) as (q & C' & AV). rewrite C in C'. injection C' as <-. apply (averaged_value (chain_moved (k_qubits k)) (seq 0 (k_qubits k)) p p' E); auto. destruct H as (_ & _ & _ & HO & QU & _). pose proof (proj1 HO) as NP. rewrite QU in NP. rewrite (seq_head _ NP). discriminate.
    - destruct (open_chain_copy wide k p H OV N) as (q & C' & AV & MP). rewrite C in C'. injection C' as <-. apply (averaged_value (inside_chain (k_qubits k)) (seq 0 (max_chain k p)) p p' E); auto. rewrite (seq_head _ MP). discriminate.
  Qed.
  Lemma lattice_value k (p p' : poly) E : counting (R:=R) -> over_qubits (k_col k * k_row k) p -> (closed_lattice wide k /\ invariant (torus_moved (k_col k) (k_row k)) E \/ open_lattice k /\ invariant (inside_lattice (k_col k) (k_row k)) E) ->
    symmetrical_copy wide k p = SOk p' -> word_value E p' = word_value E p.
  Proof.
    intros CN OV H C. destruct (split_scalar p) as [S|N]; [rewrite (plain_copy wide k p (or_intror S)) in C; now injection C as <-|]. destruct H as [[H I]|[H I]].
    - destruct (closed_lattice_copy wide k p H OV N) as (q & C' & AV). rewrite C in C'. injection C' as <-. apply (averaged_value (torus_moved (k_col k) (k_row k)) (grid (k_col k) (k_row k)) p p' E); auto. destruct H as (_ & _ & CP & HO & _ & HC & HR & _). assert (RP : 0 < k_row k). { pose proof (proj1 HO) as NP. unfold h_qubits in NP. rewrite HC, HR in NP. destruct (k_row k); [lia|lia]. }
      rewrite (grid_tl _ _ CP RP). discriminate.
    - destruct (open_lattice_copy wide k p H OV N) as (q & C' & AV & MP). rewrite C in C'. injection C' as <-. apply (averaged_value (inside_lattice (k_col k) (k_row k)) (grid (fst (max_lattice k p)) (snd (max_lattice k p))) p p' E); auto.
  Qed.
  Lemma chain_room k (p : poly) : open_chain k -> over_qubits (k_qubits k) p -> (exists x, In x p /\ fst x <> []) -> exists p' m, symmetrical_copy wide k p = SOk p' /\ averaged (inside_chain (k_qubits k)) (seq 0 m) p p' /\
    forall d, d < m <-> forall x o, In x p -> In o (fst x) -> o / 3 + d < k_qubits k.
  Proof. intros H OV N. destruct (open_chain_copy wide k p H OV N) as (q & C & AV & _). exists q, (max_chain k p). split; [exact C|]. split; [exact AV|]. now apply open_chain_room. Qed.
  Lemma lattice_room k (p : poly) : open_lattice k -> over_qubits (k_col k * k_row k) p -> (exists x, In x p /\ fst x <> []) -> exists p' rows cols, symmetrical_copy wide k p = SOk p' /\ averaged (inside_lattice (k_col k) (k_row k)) (grid rows cols) p p' /\
    forall r c, r < rows /\ c < cols <-> forall x o, In x p -> In o (fst x) -> (o / 3) mod k_col k + r < k_col k /\ o / 3 / k_col k + c < k_row k.
  Proof. intros H OV N. destruct (open_lattice_copy wide k p H OV N) as (q & C & AV & _). exists q, (fst (max_lattice k p)), (snd (max_lattice k p)). split; [exact C|]. split; [exact AV|]. now apply open_lattice_room. Qed.
End Wrap.

(** contexts: a ring of three qubits, a torus of 6 rows and 12 columns, an open chain of four, an open lattice of 3 rows and 2 columns *)
Definition ring3 := mk_pctx true true 0 0 3 h3.
Definition torus72 := mk_pctx true true 6 12 72 h6C.
Definition line4 := mk_pctx true false 0 0 4 h3.
Definition open32 := mk_pctx true false 3 2 6 h3.
Definition torus64 := mk_pctx true true 8 8 64 h88.
Definition tall72 := mk_pctx true true 9 8 72 h98.
Definition two : cx Q' := cadd c1 c1.
(** 2 X_1 + (1 + 2) + i Z_1 Y_2 *)
Definition pw : list (word * cx Q') := [([0], two); ([], cadd two c1); ([2; 4], ci)].
Definition count (w : word) : cx Q' := cnat (length w).
Lemma pw_over n : 2 <= n -> over_qubits n pw.
Proof. intro H. unfold over_qubits, pw. constructor; [|constructor; [|constructor; [|constructor]]]; cbn [fst]; (split; [|intros o O; cbn in O; lia]); repeat (constructor; [|]); try constructor; cbn; repeat constructor; lia. Qed.
Lemma pw_nonscalar : exists x, In x pw /\ fst x <> []. Proof. exists ([0], two). split; [now left|]. discriminate. Qed.
Lemma ring3_closed : closed_chain ring3.
Proof. unfold closed_chain, ring3. cbn [k_sym k_wrap k_col k_hasher k_qubits]. split; [reflexivity|]. split; [reflexivity|]. split; [reflexivity|]. split; [exact h3_ok|]. split; [reflexivity|lia]. Qed.
Lemma torus72_closed : closed_lattice wide_cpp torus72.
Proof. unfold closed_lattice, torus72. cbn [k_sym k_wrap k_col k_row k_hasher]. split; [reflexivity|]. split; [reflexivity|]. split; [lia|]. split; [exact h6C_ok|]. split; [apply h6C_rows|]. split; [reflexivity|]. split; [reflexivity|lia]. Qed.
Lemma line4_open : open_chain line4. Proof. split; [reflexivity|]. split; reflexivity. Qed.
Lemma open32_open : open_lattice open32. Proof. unfold open_lattice, open32. cbn [k_sym k_wrap k_col k_row]. split; [reflexivity|]. split; [reflexivity|]. lia. Qed.
Lemma count_chain n : invariant (inside_chain n) count.
Proof. intros k w w' [M _]. unfold count. f_equal. unfold open_chain_moved in M. induction M; cbn; congruence. Qed.
Lemma count_lattice ch rw : invariant (inside_lattice ch rw) count.
Proof. intros k w w' [M _]. unfold count. f_equal. unfold open_moved in M. induction M; cbn; congruence. Qed.
Lemma line4_some : exists p', symmetrical_copy wide_cpp line4 pw = SOk p'.
Proof. destruct (open_chain_copy wide_cpp line4 pw line4_open (pw_over 4 ltac:(lia)) pw_nonscalar) as (p' & E & _). now exists p'. Qed.
Lemma open32_some : exists p', symmetrical_copy wide_cpp open32 pw = SOk p'.
Proof. destruct (open_lattice_copy wide_cpp open32 pw open32_open (pw_over 6 ltac:(lia)) pw_nonscalar) as (p' & E & _). now exists p'. Qed.
Lemma averaged_words {K} (mv : K -> word -> word -> Prop) (P : word -> Prop) all (p p' : list (word * cx Q')) : (forall k w w', mv k w w' -> P w') -> averaged mv all p p' -> Forall (fun x => P (fst x)) p'.
Proof.
  intros H (bs & -> & F). induction F as [|x b p bs (ws & -> & G) F IH]; [constructor|]. cbn [concat]. apply Forall_app. split; [|exact IH]. clear - G H. generalize (cdiv (snd x) (cnat (length all))). intro v. induction G as [|k w all ws M G IH]; constructor; [exact (H k _ w M)|exact IH].
Qed.
Lemma moves {K} (mv : K -> word -> word -> Prop) (P : word -> Prop) j (p : list (word * cx Q')) : (forall w, P w -> exists w', mv j w w') -> Forall (fun x => P (fst x)) p -> exists p'', moved (mv j) p p''.
Proof.
  intros H F. induction F as [|[w f] p Pw F (q & Q)]; [exists []; constructor|]. destruct (H w Pw) as (w' & M). exists ((w', f) :: q). constructor; [split; [exact M|reflexivity]|exact Q].
Qed.
Lemma ring3_moved : exists p' p'', symmetrical_copy wide_cpp ring3 pw = SOk p' /\ moved (chain_moved 3 1) p' p''.
Proof.
  destruct (closed_chain_copy wide_cpp ring3 pw ring3_closed (pw_over 3 ltac:(lia)) pw_nonscalar) as (p' & E & AV). destruct (moves (chain_moved 3) (pauli_word 3) 1 p') as (p'' & M).
  - intros w W. destruct (chain_offset_ok wide_cpp h3 w 1 h3_ok W) as (w' & _ & M); [lia|left; lia|]. exists w'. exact M.
  - refine (averaged_words (chain_moved 3) _ (seq 0 3) pw p' _ AV). intros k w w' [X _]. exact X.
  - exists p', p''. split; [exact E|exact M].
Qed.
Lemma torus72_moved : exists p' p'', symmetrical_copy wide_cpp torus72 pw = SOk p' /\ moved (torus_moved 6 12 (5, 7)) p' p''.
Proof.
  destruct (closed_lattice_copy wide_cpp torus72 pw torus72_closed (pw_over 72 ltac:(lia)) pw_nonscalar) as (p' & E & AV). destruct (moves (torus_moved 6 12) (pauli_word 72) (5, 7) p') as (p'' & M).
  - intros w W. destruct (lattice_offset_ok wide_cpp h6C w 5 7 h6C_ok (h6C_rows _) W) as (w' & _ & M); [lia|lia|left; lia|right; right; cbn; lia|]. exists w'. exact M.
  - refine (averaged_words (torus_moved 6 12) _ (grid 6 12) pw p' _ AV). intros k w w' [X _]. exact X.
  - exists p', p''. split; [exact E|exact M].
Qed.
(** refutations *)
Definition single (w : word) : list (word * cx Q') := [(w, c1)].
Definition line2 := mk_pctx true false 0 0 2 h3.
Lemma open_refuted : exists (k : pctx) (p q p' q' : list (word * cx Q')), open_chain k /\ over_qubits (k_qubits k) p /\ over_qubits (k_qubits k) q /\ moved (inside_chain (k_qubits k) 1) p q /\
  symmetrical_copy wide_cpp k p = SOk p' /\ symmetrical_copy wide_cpp k q = SOk q' /\ ~ Permutation p' q'.
Proof.
  exists line2, (single [0]), (single [3]). eexists. eexists. assert (W0 : pauli_word 2 [0]) by (apply pauli_wordb_ok; vm_compute; reflexivity). assert (W3 : pauli_word 2 [3]) by (apply pauli_wordb_ok; vm_compute; reflexivity).
  split; [split; [reflexivity|split; reflexivity]|]. split; [constructor; [exact W0|constructor]|]. split; [constructor; [exact W3|constructor]|]. split.
  - constructor; [|constructor]. split; [|reflexivity]. split; [|exact W3]. unfold open_chain_moved. constructor; [|constructor]. split; [reflexivity|]. cbn. lia.
  - split; [reflexivity|]. split; [reflexivity|]. intro P. apply Permutation_length in P. cbn in P. discriminate P.
Qed.
Definition words_of (r : sout (list (word * cx Q'))) : option (list word) := match r with SOk p => Some (map fst p) | _ => None end.
Lemma tall_copy_refuted : exists (k : pctx) (p p' : list (word * cx Q')) w w', k_sym k = true /\ k_wrap k = true /\ hasher_ok (k_hasher k) /\ h_col (k_hasher k) = k_col k /\ h_row (k_hasher k) = k_row k /\ k_col k * k_row k <= 256 /\
  p = [(w, c1)] /\ over_qubits (k_col k * k_row k) p /\ torus_moved (k_col k) (k_row k) (8, 0) w w' /\ symmetrical_copy wide_cpp k p = SOk p' /\ ~ In w' (map fst p').
Proof.
  assert (X : exists l, words_of (symmetrical_copy wide_cpp tall72 (single [0])) = Some l /\ existsb (fun w => if list_eq_dec Nat.eq_dec w [24] then true else false) l = false).
  { eexists. split; vm_compute; reflexivity. }
  destruct X as (l & X & NI). destruct (symmetrical_copy wide_cpp tall72 (single [0])) as [p'| |] eqn:E; try discriminate X. cbn in X. injection X as <-.
  exists tall72, (single [0]), p', [0], [24]. unfold tall72 in *. cbn [k_sym k_wrap k_hasher k_col k_row] in *. split; [reflexivity|]. split; [reflexivity|]. split; [exact h98_ok|]. split; [reflexivity|]. split; [reflexivity|]. split; [lia|]. split; [reflexivity|].
  split; [constructor; [apply pauli_wordb_ok; vm_compute; reflexivity|constructor]|]. split.
  - split; [apply pauli_wordb_ok; vm_compute; reflexivity|]. cbn [fst snd]. intros row col Hr Hc.
    assert (K : forallb (fun col => forallb (fun row => N.eqb (letter [24] ((col + 0) mod 8 * 9 + (row + 8) mod 9)) (letter [0] (col * 9 + row))) (seq 0 9)) (seq 0 8) = true) by (vm_compute; reflexivity).
    rewrite forallb_forall in K. specialize (K col). rewrite forallb_forall in K. apply N.eqb_eq, K; apply in_seq; lia.
  - split; [exact E|]. intro I. apply not_true_iff_false in NI. apply NI. apply existsb_exists. exists [24]. split; [exact I|]. destruct (list_eq_dec Nat.eq_dec [24] [24]) as [_|N]; [reflexivity|now destruct N].
Qed.
Lemma eight_copy_refuted : exists (k : pctx) (p : list (word * cx Q')), k_sym k = true /\ k_wrap k = true /\ hasher_ok (k_hasher k) /\ h_col (k_hasher k) = k_col k /\ h_row (k_hasher k) = k_row k /\ k_col k * k_row k <= 256 /\ over_qubits (k_col k * k_row k) p /\
  symmetrical_copy wide_cpp k p = SUndef.
Proof.
  exists torus64, (single [3]). unfold torus64. cbn [k_sym k_wrap k_hasher k_col k_row]. split; [reflexivity|]. split; [reflexivity|]. split; [exact h88_ok|]. split; [reflexivity|]. split; [reflexivity|]. split; [lia|].
  split; [constructor; [apply pauli_wordb_ok; vm_compute; reflexivity|constructor]|]. vm_compute. reflexivity.
Qed.
Lemma pw_over72 : over_qubits (k_col torus72 * k_row torus72) pw. Proof. apply pw_over. cbn. lia. Qed.
Lemma pw_over6 : over_qubits (k_col open32 * k_row open32) pw. Proof. apply pw_over. cbn. lia. Qed.
