(** Concrete hashers and words for the examples and the counterexamples. *)
From Coq Require Import List NArith ZArith Arith Bool Lia Sorted.
From Verif Require Import CoreModel CoreSpec SiteModel SiteSpec SiteBitProofs SiteWordProofs SiteThmProofs SiteFinalProofs.
Import ListNotations.

Fixpoint sortedb (w : word) : bool :=
  match w with [] => true | a :: w' => forallb (fun b => a / 3 <? b / 3) w' && sortedb w' end.
Lemma sortedb_ok w : sortedb w = true -> StronglySorted (fun a b => a / 3 < b / 3) w.
Proof.
  induction w as [|a w IH]; cbn [sortedb]; [constructor|]. intros H. apply andb_prop in H. destruct H as [H1 H2]. constructor; [auto|].
  rewrite forallb_forall in H1. apply Forall_forall. intros b Hb. now apply Nat.ltb_lt, H1.
Qed.
Lemma pauli_wordb_ok n w : sortedb w && forallb (fun o => o <? 3 * n) w = true -> pauli_word n w.
Proof.
  intros H. apply andb_prop in H. destruct H as [H1 H2]. split; [now apply sortedb_ok|]. rewrite forallb_forall in H2. intros o Ho. now apply Nat.ltb_lt, H2.
Qed.

Definition h3 := {| h_slides := 1; h_col := 3; h_row := 1; h_final := 63; h_mask := 63 |}.
Definition h88 := {| h_slides := 2; h_col := 8; h_row := 8; h_final := 18446744073709551615; h_mask := 65535 |}.
Definition h98 := {| h_slides := 3; h_col := 9; h_row := 8; h_final := 65535; h_mask := 262143 |}.
Definition h43 := {| h_slides := 1; h_col := 4; h_row := 3; h_final := 16777215; h_mask := 255 |}.
Definition h58 := {| h_slides := 2; h_col := 5; h_row := 8; h_final := 65535; h_mask := 1023 |}.
Definition h6C := {| h_slides := 3; h_col := 6; h_row := 12; h_final := 65535; h_mask := 4095 |}.
Lemma made h c r : make_hasher wide_cpp (slides_for (c * r)) c r = SOk h -> 0 < c * r -> c <= 32 -> hasher_ok h.
Proof. intros E Hn Hc. destruct (construct_ok wide_cpp c r Hn (or_introl Hc)) as (h' & E' & Ok & _). congruence. Qed.
Lemma h3_ok : hasher_ok h3. Proof. apply (made h3 3 1); [vm_compute; reflexivity|lia|lia]. Qed.
Lemma h88_ok : hasher_ok h88. Proof. apply (made h88 8 8); [vm_compute; reflexivity|lia|lia]. Qed.
Lemma h98_ok : hasher_ok h98. Proof. apply (made h98 9 8); [vm_compute; reflexivity|lia|lia]. Qed.
Lemma h43_ok : hasher_ok h43. Proof. apply (made h43 4 3); [vm_compute; reflexivity|lia|lia]. Qed.
Lemma h58_ok : hasher_ok h58. Proof. apply (made h58 5 8); [vm_compute; reflexivity|lia|lia]. Qed.
Lemma h6C_ok : hasher_ok h6C. Proof. apply (made h6C 6 12); [vm_compute; reflexivity|lia|lia]. Qed.
Lemma h58_rows wide : rows_ok wide h58.
Proof. unfold rows_ok. cbn [h58 h_slides h_col]. split; [lia|left; vm_compute; discriminate]. Qed.
Lemma h6C_rows wide : rows_ok wide h6C.
Proof. unfold rows_ok. cbn [h6C h_slides h_col h_row]. lia. Qed.

(** more qubits than 32 in a chain: the mask of a column is a shift by 64 or more *)
Lemma construct_refuted : exists n, n <= 256 /\ 0 < n /\ make_wrapping wide_cpp false n 1 = Some SUndef.
Proof. exists 33. split; [lia|]. split; [lia|]. vm_compute. reflexivity. Qed.
(** one slide, a shift by more than the number of qubits *)
Lemma cyclic_refuted : exists h d k, hasher_ok h /\ packed h d /\ h_slides h = 1 /\ cyclic_shift wide_cpp h d k = SUndef.
Proof.
  exists h3, [1%N], 4. split; [exact h3_ok|]. split; [|split; [reflexivity|vm_compute; reflexivity]].
  split; [reflexivity|]. split.
  - intros x [<-|[]]. reflexivity.
  - change (h_qubits h3) with 3. intros q Hq. unfold site. destruct (q / 32) as [|i] eqn:Ei.
    + cbn [nth]. rewrite N.div_small; [reflexivity|]. change 1%N with (4 ^ 0)%N at 1. apply N.pow_lt_mono_r; [reflexivity|].
      pose proof (Nat.div_mod q 32 ltac:(lia)). lia.
    + cbn [nth]. destruct i; rewrite N.div_0_l by (apply N.pow_nonzero; discriminate); reflexivity.
Qed.
(** two slides, column height dividing 32 *)
Lemma row_refuted : exists h w, hasher_ok h /\ h_slides h = 2 /\ pauli_word (h_qubits h) w /\ wrap_canonical wide_cpp h w = SUndef.
Proof.
  exists h88, [3]. split; [exact h88_ok|]. split; [reflexivity|]. split; [apply pauli_wordb_ok|]; vm_compute; reflexivity.
Qed.
(** three slides, more rows than columns: two translates with different representatives *)
Lemma tall_refuted : exists h w w' w0 w0', hasher_ok h /\ 2 < h_slides h /\ pauli_word (h_qubits h) w /\
  lattice_moved (h_col h) (h_row h) 1 0 w w' /\ wrap_canonical wide_cpp h w = SOk w0 /\ wrap_canonical wide_cpp h w' = SOk w0' /\ w0 <> w0'.
Proof.
  exists h98, [3], [6], [3], [0]. split; [exact h98_ok|]. split; [cbn; lia|].
  split; [apply pauli_wordb_ok; vm_compute; reflexivity|]. split.
  - split; [apply pauli_wordb_ok; vm_compute; reflexivity|]. change (h_col h98) with 9. change (h_row h98) with 8.
    intros row col Hr Hc.
    assert (K : forallb (fun col => forallb (fun row => N.eqb (letter [6] ((col + 0) mod 8 * 9 + (row + 1) mod 9)) (letter [3] (col * 9 + row))) (seq 0 9)) (seq 0 8) = true)
      by (vm_compute; reflexivity).
    rewrite forallb_forall in K. specialize (K col). rewrite forallb_forall in K. apply N.eqb_eq, K; apply in_seq; lia.
  - split; [vm_compute; reflexivity|]. split; [vm_compute; reflexivity|]. discriminate.
Qed.
(** negative offsets *)
Lemma negative_refuted : exists h w w', hasher_ok h /\ pauli_word (h_qubits h) w /\ wrap_chain_offset wide_cpp h w (-1) = SOk w' /\
  ~ chain_moved (h_qubits h) (Z.to_nat ((-1) mod Z.of_nat (h_qubits h))) w w'.
Proof.
  exists h3, [3], [3]. split; [exact h3_ok|]. split; [apply pauli_wordb_ok; vm_compute; reflexivity|]. split; [vm_compute; reflexivity|].
  intros [_ M]. specialize (M 1 ltac:(cbn; lia)). vm_compute in M. discriminate M.
Qed.
(** hashes of long words *)
Definition long1 := [0;3;6;9;12;15;18;21;24;27;30;33;36;39;42;45;48].
Definition long2 := [0;3;6;9;12;15;18;21;24;27;30;33;36;39;42;45;49].
Lemma presorted_refuted : exists r w w' s, pauli_word 17 w /\ pauli_word 17 w' /\ w <> w' /\
  hs_hash (presorted r w s) = hs_hash (presorted r w' s) /\ hs_hash (presorted r w s) <> hash r w.
Proof.
  exists 52%N, long1, long2, SPos. split; [apply pauli_wordb_ok; vm_compute; reflexivity|]. split; [apply pauli_wordb_ok; vm_compute; reflexivity|].
  split; [discriminate|]. split; [reflexivity|]. vm_compute. discriminate.
Qed.

Lemma w58_ok : pauli_word (h_qubits h58) [22; 60; 95]. Proof. apply pauli_wordb_ok; vm_compute; reflexivity. Qed.
Lemma w6C_ok : pauli_word (h_qubits h6C) [22; 60; 215]. Proof. apply pauli_wordb_ok; vm_compute; reflexivity. Qed.
Lemma d6C_ok : exists d, site_hash h6C [22; 60; 215] = SOk d /\ packed h6C d.
Proof. destruct (site_hash_correct h6C _ h6C_ok w6C_ok) as (d & E & P & _). eauto. Qed.
Lemma witness_roundtrip : exists d, site_hash h58 [22; 60; 95] = SOk d /\ packed h58 d /\ sbind (unhash d) (site_hash h58) = SOk d.
Proof. destruct (site_hash_correct h58 _ h58_ok w58_ok) as (d & E & P & _). exists d. split; [exact E|]. split; [exact P|]. apply hash_unhash; [exact h58_ok|exact P]. Qed.
Lemma witness_cyclic : hasher_ok h6C /\ (exists d, site_hash h6C [22; 60; 215] = SOk d /\ packed h6C d) /\ h_slides h6C <> 1.
Proof. split; [exact h6C_ok|]. split; [exact d6C_ok|]. discriminate. Qed.
Lemma witness_row : hasher_ok h6C /\ rows_ok wide_cpp h6C /\ (exists d, site_hash h6C [22; 60; 215] = SOk d /\ packed h6C d) /\ 5 <= h_col h6C.
Proof. split; [exact h6C_ok|]. split; [apply h6C_rows|]. split; [exact d6C_ok|]. cbn. lia. Qed.
Lemma witness_column : hasher_ok h6C /\ h_col h6C <= 32 /\ h_slides h6C <> 2 /\ 10 < h_row h6C /\
  (exists d, site_hash h6C [22; 60; 215] = SOk d /\ packed h6C d).
Proof. split; [exact h6C_ok|]. split; [cbn; lia|]. split; [discriminate|]. split; [cbn; lia|]. exact d6C_ok. Qed.
Lemma witness_lattice : hasher_ok h6C /\ h_row h6C <> 1 /\ rows_ok wide_cpp h6C /\ pauli_word (h_qubits h6C) [22; 60; 215] /\
  wrap_canonical wide_cpp h6C [22; 60; 215] = SOk [2; 43; 81].
Proof. split; [exact h6C_ok|]. split; [discriminate|]. split; [apply h6C_rows|]. split; [exact w6C_ok|]. vm_compute. reflexivity. Qed.
Lemma witness_supremum : chain_supremum_poly [[22; 60; 95]; []; [0; 215]] = 72 /\ chain_supremum [22; 60; 95] = 32 /\
  forall w, In w [[22; 60; 95]; []; [0; 215]] -> StronglySorted (fun a b => a / 3 < b / 3) w.
Proof. split; [vm_compute; reflexivity|]. split; [vm_compute; reflexivity|]. intros w [<-|[<-|[<-|[]]]]; apply sortedb_ok; vm_compute; reflexivity. Qed.
