(** Instances for the examples: one qubit, and the rationals. *)
From Coq Require Import NArith ZArith QArith Qcanon Qround Arith Bool Ascii String List Lia.
From Verif Require Import CoreModel CoreSpec CoreProofs TextModel FieldModel FieldProofs PauliModel PauliSpec PauliFinalProofs SymModel SymSpec SymProofs SymFinalProofs SymInstModel SymInstProofs SymWitnessProofs.
From Verif Require Import PolyModel PolySpec PolyProofs PolyOrderProofs PolyFinalProofs PolyWitnessProofs PolyTableProofs ChshProofs ChshWitnessProofs.
From Verif Require Import MonModel MonSpec PioModel PioSpec PioWitnessProofs StgModel StgSpec StgProofs StgTableProofs.
Import ListNotations.
Local Open Scope list_scope.
Local Open Scope nat_scope.
Notation Q' := Qc_rfield.

(** operators X, Y, Z of one qubit in the state up: Z has value 1, X and Y have value 0 *)
Definition up_ctx : sctx := pauli_sctx (fun _ => []).
Notation up_words := (pauli_wf 1 2).
Definition up_resolve (w : list nat) : hseq := pauli_sequence 1 w SPos.
Definition up_E (q : hseq) : cx Q' := if hs_zero q then c0 else match hs_ops q with [] => sphase Q' (hs_sign q) | [2] => sphase Q' (hs_sign q) | _ => c0 end.
Lemma up_safe : pauli_safe 1 2. Proof. vm_compute. reflexivity. Qed.
Lemma up_lawful : lawful up_ctx up_words. Proof. apply pauli_lawful, up_safe. Qed.
Lemma up_unsigned : unsigned_conj up_ctx up_words. Proof. apply pauli_unsigned. Qed.
Add Field RfSt : (r_field Q').
Add Field CfSt : (cx_field Q').
Lemma up_expectation : expectation up_ctx up_words Q' up_E.
Proof.
  split.
  - intros [h o s] _. unfold up_E. cbn [up_ctx pauli_sctx cx_conj pauli_conjugate]. change (hs_zero (pauli_conjugate (mk_hseq h o s))) with (hs_zero (mk_hseq h o s)).
    destruct (hs_zero (mk_hseq h o s)); [symmetry; apply cconj_0|]. cbn [hs_ops pauli_conjugate hs_sign].
    destruct o as [|[|[|[|]]] [|]]; try (symmetry; apply cconj_0); destruct s; apply cx_ext; cbn; ring.
  - intros [h o s] _. unfold up_E. change (hs_zero (pos (mk_hseq h o s))) with (hs_zero (mk_hseq h o s)). cbn [pos SymModel.set_sign hs_sign sphase hs_ops]. destruct (hs_zero (mk_hseq h o s)); [ring|].
    destruct o as [|[|[|[|]]] [|]]; ring.
  - reflexivity.
  - discriminate.
Qed.
Definition up_xy : hseq := up_resolve [0; 1].
Lemma up_word w : over 3 w -> length w <= 2 -> up_words (up_resolve w).
Proof. intros O Len. apply sequence_wf; [exact O|now left]. Qed.
Lemma up_over w : forallb (fun o => o <? 3) w = true -> over 3 w.
Proof. intros H o Ho. rewrite forallb_forall in H. apply Nat.ltb_lt. now apply H. Qed.
Lemma up_start : reachable up_ctx up_words table_start.
Proof. apply clean_reachable. exists []. split; [constructor|reflexivity]. Qed.
(** symbols 0, 1 and Z (2) *)
Definition up_table : table := table_after up_ctx [ORegister up_xy].
Definition up_v (id : nat) : cx Q' := match id with 0 => c0 | _ => c1 end.
Lemma up_assignment : assignment up_table up_v. Proof. apply assignment_by; [reflexivity|reflexivity|vm_compute; reflexivity]. Qed.
Lemma up_agrees : agrees up_E up_table up_v.
Proof. intros id w E. do 3 (destruct id as [|id]; [vm_compute in E; injection E as <-; apply cx_ext; reflexivity|]). vm_compute in E. destruct id; discriminate E. Qed.
Lemma up_later : later up_ctx up_words table_start up_table.
Proof. exists [ORegister up_xy]. split; [|vm_compute; reflexivity]. constructor; [|constructor]. apply up_word; [apply up_over; reflexivity|cbn; lia]. Qed.
(** i Z, given as the product X Y *)
Definition up_raw : list (hseq * cx Q') := [(up_xy, c1)].
Lemma up_raw_ok : raw_ok up_words up_raw.
Proof. constructor; [|constructor]. apply up_word; [apply up_over; reflexivity|cbn; lia]. Qed.
Lemma phase_dropped : exists ts t' ys p v, supply_context 3 up_resolve [([0; 1], c1 (R:=Q'))] = SOk ts /\ ts = staged up_raw /\ find_or_register up_ctx table_start ts false = Done t' ys /\
  to_polynomial t' (isort id_less) ys = Some p /\ assignment t' v /\ agrees up_E t' v /\ value v p = c1 /\ op_value up_E up_raw = ci.
Proof.
  destruct (register_poly up_ctx up_words up_lawful Q' up_E up_expectation up_unsigned id_less (isort id_less) table_start up_raw up_start up_raw_ok) as (t' & ys & M & L & H).
  assert (T : t' = up_table).
  { assert (K : match find_or_register up_ctx table_start (staged up_raw) false with Done u _ => Some u | _ => None end = Some up_table) by (vm_compute; reflexivity). rewrite M in K. congruence. }
  destruct (H t' (later_refl up_ctx up_words t') (isort_sorts Q' t' id_less (id_less_order Q' t'))) as (p & P & _ & G). rewrite T in M, P, G. clear H L T. exists (staged up_raw), up_table, ys, p, up_v.
  split; [reflexivity|]. split; [reflexivity|]. split; [exact M|]. split; [exact P|]. split; [exact up_assignment|]. split; [exact up_agrees|].
  destruct (G up_v up_assignment up_agrees) as [-> _]. assert (E1 : up_E (pos up_xy) = c1) by (apply cx_ext; reflexivity). assert (E2 : up_E up_xy = ci) by (apply cx_ext; reflexivity).
  unfold raw_value, op_value, up_raw. cbn [fold_right fst snd]. rewrite E1, E2. split; ring.
Qed.
(** terms without phases: 2 X - Z + 5 X, in the empty table and with Z known *)
Definition up_sum : list (hseq * cx Q') := [(up_resolve [0], cq 2 0); (up_resolve [2], cq (-1) 0); (up_resolve [0], cq 5 0)].
Lemma up_sum_ok : raw_ok up_words up_sum /\ unphased up_sum.
Proof.
  split; (constructor; [|constructor; [|constructor; [|constructor]]]); try reflexivity; (apply up_word; [apply up_over; reflexivity|cbn; lia]).
Qed.
Lemma up_known : has_symbol up_ctx up_table (up_resolve [2]) /\ ~ has_symbol up_ctx up_table (up_resolve [0]).
Proof. split; [exists 2; vm_compute; reflexivity|]. intros (id & H). vm_compute in H. discriminate H. Qed.
Lemma up_reach : reachable up_ctx up_words up_table.
Proof. exact (reachable_later up_ctx up_words _ _ up_start up_later). Qed.
Lemma up_quiet : snd (find_quietly up_ctx up_table (staged up_sum)) = false. Proof. vm_compute. reflexivity. Qed.
Lemma up_found : exists ts, find_symbols up_ctx up_table (staged up_raw) = SOk ts.
Proof. eexists. apply find_ok. split; [|reflexivity]. constructor; [|constructor]. exists 2. vm_compute. reflexivity. Qed.
Lemma up_unfound : find_symbols up_ctx up_table (staged (up_raw ++ up_sum)) = SErr (SNoSymbol 2).
Proof.
  apply find_err. exists 1, (up_resolve [0]), (cq 2 0). split; [reflexivity|]. split; [reflexivity|]. split; [exact (proj2 up_known)|].
  intros i z Hi Hz. assert (i = 0) by lia. subst i. injection Hz as <-. exists 2. vm_compute. reflexivity.
Qed.

(** numbers *)
Definition tr16 (x : Q') : option Z := let z := Qfloor (this (x : Qc)) in if ((- 2 ^ 15 <=? z) && (z <? 2 ^ 15))%Z then Some z else None.
Definition scan16 (t : text) : option Z := match t with [] => None | _ => Some (digits_value t) end.
Lemma casts_16 : casts16 tr16 of8.
Proof. intros z [H1 H2]. unfold tr16. cbn zeta. rewrite floor8. now rewrite (proj2 (Z.leb_le _ _) H1), (proj2 (Z.ltb_lt _ _) H2). Qed.
Definition read16 := read_staging scan16 tr16 of8.
(** {[1 2]}, {[3.0], 2}, {"1", 1+i} *)
Definition cell16 : marray Q' := MCell [MCell [MInts [1; 2]%Z]; MCell [MReals [of8 3]; MInts [2%Z]]; MCell [MText [Some (tx "1")]; MCplx [cq 1 1]]].
Definition list16 : list (list nat * cx Q') := [([0; 1], c1); ([2], mk_cx (of8 2) (r0 Q')); ([0], cq 1 1)].
Lemma cell16_plain : plain_cell of8 cell16.
Proof.
  intros l [= <-]. constructor; [|constructor; [|constructor; [|constructor]]]; intros v r [= <- <-]; split; intros l H; try discriminate H.
  - injection H as <-. repeat (constructor; [unfold in16; lia|]). constructor.
  - injection H as <-. constructor; [|constructor]. exists 3%Z. split; [unfold in16; lia|reflexivity].
Qed.
Lemma cell16_denotes : seq_denotes scan16 of8 cell16 list16.
Proof.
  eexists. split; [reflexivity|]. constructor; [|constructor; [|constructor; [|constructor]]].
  - apply seq_term_1. apply (letters_int scan16 of8 [0; 1]). repeat (constructor; [unfold in16; lia|]). constructor.
  - apply seq_term_2; [|apply weighs_int]. apply (letters_real scan16 of8 [2]). constructor; [unfold in16; lia|constructor].
  - apply seq_term_2; [|apply weighs_cplx]. apply letters_text. constructor; [|constructor]. exists (tx "1"). split; reflexivity.
Qed.
(** operator 65537 is read as operator 1 *)
Definition wrap_cell : marray Q' := MCell [MCell [MInts [65537%Z]]].
Lemma wrap_read : read16 wrap_cell = SOk [([0], c1)].
Proof. reflexivity. Qed.
Lemma wrap_not : ~ exists l, seq_denotes scan16 of8 wrap_cell l /\ forall w x, In (w, x) l -> Forall (fun o => o < 3) w.
Proof.
  intros (l & (els & [= <-] & F) & _). inversion F as [|? ? ? ? H F']; subst. inversion H as [v w L|]; subst. inversion L as [w' P E| | |]; subst.
  destruct w as [|i w]; [discriminate|]. inversion P as [|? ? Q _]; subst. cbn [map] in E. assert (E2 : (Z.of_nat i + 1 = 65537)%Z) by congruence. rewrite E2 in Q. unfold in16 in Q. lia.
Qed.
(** {[1]}, {[0]} *)
Definition zero_cell : list (marray Q') := [MCell [MInts [1%Z]]; MCell [MInts [0%Z]]].
Lemma zero_plain : plain_cell of8 (MCell zero_cell).
Proof.
  intros l [= <-]. constructor; [|constructor; [|constructor]]; intros v r [= <- <-]; split; intros l H; try discriminate H; injection H as <-; (constructor; [unfold in16; lia|constructor]).
Qed.
Lemma zero_read : read16 (MCell zero_cell) = SErr (SBadTerm 2). Proof. reflexivity. Qed.
Lemma wrap_finding : exists a l, read_staging scan16 tr16 of8 a = SOk l /\ (forall w x, In (w, x) l -> Forall (fun o => o < 3) w) /\ ~ seq_denotes scan16 of8 a l.
Proof.
  exists wrap_cell, [([0], c1)]. split; [exact wrap_read|]. assert (K : forall w x, In (w, x) [([0], c1 (R:=Q'))] -> Forall (fun o => o < 3) w).
  { intros w x [H|[]]. injection H as <- _. constructor; [lia|constructor]. }
  split; [exact K|]. intro D. apply wrap_not. exists [([0], c1)]. split; [exact D|exact K].
Qed.
Lemma find_only c (R : rfield) t (raw : list (hseq * cx R)) ts : find_symbols c t (staged raw) = SOk ts -> Forall (fun z => has_symbol c t (fst z)) raw.
Proof. intro H. now apply find_ok in H. Qed.
Lemma find_all c (R : rfield) t (raw : list (hseq * cx R)) : Forall (fun z => has_symbol c t (fst z)) raw -> exists ts, find_symbols c t (staged raw) = SOk ts.
Proof. intro H. eexists. apply find_ok. split; [exact H|reflexivity]. Qed.
Lemma value_case : lawful up_ctx (pauli_wf 1 2) /\ expectation up_ctx (pauli_wf 1 2) Qc_rfield up_E /\ unsigned_conj up_ctx (pauli_wf 1 2) /\
  reachable up_ctx (pauli_wf 1 2) table_start /\ later up_ctx (pauli_wf 1 2) table_start up_table /\ raw_ok (pauli_wf 1 2) up_sum /\ unphased up_sum /\
  (exists ts, find_quietly up_ctx up_table (staged up_sum) = (ts, false)) /\ (forall t, term_order (R:=Qc_rfield) t id_less) /\ (forall t, sorts (R:=Qc_rfield) t id_less (isort id_less)) /\
  assignment up_table up_v /\ agrees up_E up_table up_v /\
  (casts16 tr16 of8 /\ plain_cell of8 cell16 /\ seq_denotes scan16 of8 cell16 list16 /\ Forall (fun z => Forall (fun o => o < 3) (fst z)) list16 /\
   raw_ok (pauli_wf 1 2) (map (fun z => (up_resolve (fst z), snd z)) list16)).
Proof.
  split; [exact up_lawful|]. split; [exact up_expectation|]. split; [exact up_unsigned|]. split; [exact up_start|]. split; [exact up_later|]. split; [exact (proj1 up_sum_ok)|]. split; [exact (proj2 up_sum_ok)|].
  split; [exists (fst (find_quietly up_ctx up_table (staged up_sum))); rewrite <- up_quiet; apply surjective_pairing|]. split; [intro t; apply id_less_order|]. split; [intro t; apply isort_sorts, id_less_order|].
  split; [exact up_assignment|]. split; [exact up_agrees|]. split; [exact casts_16|]. split; [exact cell16_plain|]. split; [exact cell16_denotes|]. split.
  - constructor; [|constructor; [|constructor; [|constructor]]]; cbn [fst]; repeat (constructor; [lia|]); constructor.
  - constructor; [|constructor; [|constructor; [|constructor]]]; cbn [fst]; (apply up_word; [apply up_over; reflexivity|cbn; lia]).
Qed.
