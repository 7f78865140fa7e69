(** Indices that find another matrix; examples. *)
From Coq Require Import List NArith ZArith Arith Bool Lia.
From Verif Require Import CoreModel CoreSpec CoreProofs FieldModel PolyModel SymModel SymSpec PolySpec PolyTableProofs PolyWitnessProofs PauliModel TreeModel MsModel IdxModel IdxSpec IdxProofs IdxFinalProofs.
Import ListNotations.
Local Open Scope nat_scope.

Lemma three_words : (count_words (N.of_nat 3) 4 < two64)%N. Proof. vm_compute. reflexivity. Qed.
(** Z, and X times Y, of one qubit *)
Definition z1 : hseq := pauli_sequence 1 [2] SPos.
Definition xy1 : hseq := pauli_sequence 1 [0; 1] SPos.
Lemma z1_eq : z1 = mk_hseq 4 [2] SPos. Proof. vm_compute. reflexivity. Qed.
Lemma xy1_eq : xy1 = mk_hseq 4 [2] SIm. Proof. vm_compute. reflexivity. Qed.
Lemma z1_hashed : hashed 3 4 z1.
Proof. rewrite z1_eq. split; [intros o [<-|[]]; cbn; lia|]. split; [cbn; lia|vm_compute; reflexivity]. Qed.
Lemma xy1_hashed : hashed 3 4 xy1.
Proof. rewrite xy1_eq. split; [intros o [<-|[]]; cbn; lia|]. split; [cbn; lia|vm_compute; reflexivity]. Qed.
Lemma loc_refuted : exists r L (k k' : loc_index) o, (count_words (N.of_nat r) L < two64)%N /\ hashed r L (snd k) /\ hashed r L (snd k') /\ (0 <= o)%Z /\ k <> k' /\
  st_find (map_storage loc_less) (after (map_storage loc_less) [(k, o)]) k' = o.
Proof.
  exists 3, 4, (1, z1), (1, xy1), 0%Z. split; [exact three_words|]. split; [exact z1_hashed|]. split; [exact xy1_hashed|]. split; [lia|]. split; [rewrite z1_eq, xy1_eq; discriminate|]. vm_compute. reflexivity.
Qed.
Lemma pauli_refuted : exists n (k k' : pauli_index) o, snd k = pauli_sequence n [2] SPos /\ snd k' = pauli_sequence n [0; 1] SPos /\ (0 <= o)%Z /\ k <> k' /\
  st_find (map_storage pauli_less) (after (map_storage pauli_less) [(k, o)]) k' = o.
Proof.
  exists 1, ((1, 0), z1), ((1, 0), xy1), 0%Z. split; [reflexivity|]. split; [reflexivity|]. split; [lia|]. split; [rewrite z1_eq, xy1_eq; discriminate|]. vm_compute. reflexivity.
Qed.

(** examples *)
Definition loc_hist : list (loc_index * Z) := [((2, hseq_make 3 [1; 0] SPos), 5%Z); ((1, hseq_make 3 [1] SPos), 6%Z); ((2, hseq_make 3 [1; 0] SPos), 7%Z)].
Lemma word3 w : forallb (fun o => Nat.ltb o 3) w = true -> length w <= 4 -> unsigned 3 4 (hseq_make 3 w SPos).
Proof.
  intros H L. split; [|reflexivity]. split; [|split; [exact L|reflexivity]]. rewrite forallb_forall in H. intros o I. apply H in I. now apply Nat.ltb_lt.
Qed.
Lemma loc_valid : valid (fun k => unsigned 3 4 (snd k)) loc_hist.
Proof. intros k o [H|[H|[H|[]]]]; injection H as <- <-; (split; [apply word3; [reflexivity|cbn; lia]|lia]). Qed.
Lemma loc_stored : stored eq loc_hist (2, hseq_make 3 [1; 0] SPos) 5%Z.
Proof. exists [], (2, hseq_make 3 [1; 0] SPos), (tl loc_hist). split; [reflexivity|]. split; [reflexivity|]. intros e []. Qed.
Lemma loc_missing : missing eq loc_hist (1, hseq_make 3 [1; 0] SPos).
Proof. intros e [<-|[<-|[<-|[]]]]; discriminate. Qed.
Definition ext_hist : list (ext_index * Z) := [((1%Z, []), 0%Z); ((1%Z, [4; 7]%Z), 1%Z); ((2%Z, [4]%Z), 2%Z)].
Lemma ext_valid : valid level_fits ext_hist.
Proof. intros k o [H|[H|[H|[]]]]; injection H as <- <-; (split; [split; [cbn; lia|reflexivity]|lia]). Qed.
Lemma ext_stored : stored eq ext_hist (1%Z, [4; 7]%Z) 1%Z /\ missing eq ext_hist (1%Z, [4]%Z).
Proof.
  split; [|intros e [<-|[<-|[<-|[]]]]; discriminate]. exists [((1%Z, []), 0%Z)], (1%Z, [4; 7]%Z), [((2%Z, [4]%Z), 2%Z)]. split; [reflexivity|]. split; [reflexivity|]. intros e [<-|[]]. discriminate.
Qed.
Definition level_hist : list (nat * Z) := [(3, 0%Z); (1, 1%Z)].
Lemma level_stored : valid any level_hist /\ stored eq level_hist 1 1%Z /\ missing eq level_hist 2.
Proof.
  split; [intros k o [H|[H|[]]]; injection H as <- <-; (split; [exact I|lia])|]. split; [|intros e [<-|[<-|[]]]; discriminate].
  exists [(3, 0%Z)], 1, []. split; [reflexivity|]. split; [reflexivity|]. intros e [<-|[]]. discriminate.
Qed.
Definition two_hist {A} (f : nat -> A) : list ((A * A) * Z) := [((f 1, f 2), 0%Z); ((f 2, f 1), 1%Z)].
Lemma two_stored {A} (f : nat -> A) : f 1 <> f 2 -> valid any (two_hist f) /\ stored eq (two_hist f) (f 2, f 1) 1%Z /\ missing eq (two_hist f) (f 2, f 2).
Proof.
  intros Ne. split; [intros k o [H|[H|[]]]; injection H as <- <-; (split; [exact I|lia])|]. split.
  - exists [((f 1, f 2), 0%Z)], (f 2, f 1), []. split; [reflexivity|]. split; [reflexivity|]. intros e [<-|[]]. cbn. congruence.
  - intros e [<-|[<-|[]]]; cbn; congruence.
Qed.
Definition poly_hist : list ((nat * list (mono Q')) * Z) := [((1, p8), 0%Z); ((1, []), 1%Z)].
Lemma poly_stored : term_order t8 (@id_less Q') /\ exact_compare qcmp /\ valid (poly_ok t8) poly_hist /\ stored eq poly_hist (1, []) 1%Z /\ missing eq poly_hist (2, []).
Proof.
  split; [apply id_less_order|]. split; [exact qcmp_exact|]. split; [|split].
  - intros k o [H|[H|[]]]; injection H as <- <-; (split; [|lia]); unfold poly_ok; cbn [snd]; [|constructor]. apply Forall_forall. intros x I. now apply (cp_terms _ _ _ p8_canonical).
  - exists [((1, p8), 0%Z)], (1, []), []. split; [reflexivity|]. split; [reflexivity|]. intros e [<-|[]]. discriminate.
  - intros e [<-|[<-|[]]]; discriminate.
Qed.
