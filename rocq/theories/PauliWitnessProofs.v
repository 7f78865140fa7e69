(** Counterexamples for Pauli sequences. *)
From Coq Require Import List ZArith NArith Arith Bool Sorted Lia.
From Verif Require Import CoreModel CoreSpec CoreProofs PauliModel PauliSpec PauliProofs PauliFinalProofs.
Import ListNotations.

(** X1 X2 ... X12 and Y1 X2 ... X12 in a 64-qubit context *)
Definition long_word (p : nat) : word := p :: map (fun q => 3 * q) (seq 1 11).
Lemma long_word_canonical p : p < 3 -> pauli_canonical (long_word p).
Proof.
  intro H. assert (E : p = 0 \/ p = 1 \/ p = 2) by lia.
  destruct E as [->|[->| ->]]; unfold pauli_canonical, long_word; cbn [map seq];
    repeat (constructor; [|repeat (constructor; [vm_compute; lia|]); constructor]); constructor.
Qed.
Lemma long_words_collide : hs_eqb (pauli_sequence 64 (long_word 0) SPos) (pauli_sequence 64 (long_word 1) SPos) = true.
Proof. vm_compute. reflexivity. Qed.
Lemma long_words_differ : ~ forall psi b, apply_signed SPos (long_word 0) psi b = apply_signed SPos (long_word 1) psi b.
Proof.
  intro E. destruct (canonical_unique SPos (long_word 0) SPos (long_word 1)) as [H _]; [apply long_word_canonical; lia..|exact E|].
  discriminate H.
Qed.
Lemma equality_refuted : exists n u w, over (3 * n) u /\ over (3 * n) w /\ pauli_canonical u /\ pauli_canonical w /\
  hs_eqb (pauli_sequence n u SPos) (pauli_sequence n w SPos) = true /\
  ~ forall psi b, apply_signed SPos u psi b = apply_signed SPos w psi b.
Proof.
  exists 64, (long_word 0), (long_word 1). split; [|split; [|split; [|split; [|split]]]].
  - intros x Hx. repeat (destruct Hx as [<-|Hx]; [lia|]). destruct Hx.
  - intros x Hx. repeat (destruct Hx as [<-|Hx]; [lia|]). destruct Hx.
  - apply long_word_canonical. lia.
  - apply long_word_canonical. lia.
  - exact long_words_collide.
  - exact long_words_differ.
Qed.
(** zero times minus the identity *)
Lemma zero_product_refuted : exists n a b, pauli_wf n n a /\ pauli_wf n n b /\ hs_zero a = true /\
  hs_eqb (pauli_multiply n a b) (hseq_const true) = false.
Proof.
  exists 1, (hseq_const true), (hseq_make 3 [] SNeg). split; [left; reflexivity|]. split; [|split; [reflexivity|vm_compute; reflexivity]].
  right. cbn. split; [reflexivity|]. split; [intros x []|]. split; [lia|constructor].
Qed.
