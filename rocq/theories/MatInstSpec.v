(** What moment and localizing matrices ought to be. *)
From Coq Require Import List NArith Arith Bool.
From Verif Require Import CoreModel AlgModel MatModel MatInstModel.
Import ListNotations.

(** Words with a product and a conjugation obeying the laws of an involution, as long as no more than [L] letters are involved.
    [D l q]: the word [q] is proper and has at most [l] letters. *)
Record star_words (mul : hseq -> hseq -> res hseq) (cj : hseq -> res hseq) (D : nat -> hseq -> Prop) (L : nat) : Prop := {
  sw_mul : forall l k a b, D l a -> D k b -> l + k <= L -> exists p, mul a b = Ret p /\ D (l + k) p;
  sw_conj : forall l a, D l a -> l <= L -> exists c, cj a = Ret c /\ D l c /\ cj c = Ret a;
  sw_anti : forall l k a b p ca cb, D l a -> D k b -> l + k <= L -> mul a b = Ret p -> cj a = Ret ca -> cj b = Ret cb -> cj p = mul cb ca;
  sw_assoc : forall l k j a b c ab bc, D l a -> D k b -> D j c -> l + k + j <= L -> mul a b = Ret ab -> mul b c = Ret bc -> mul ab c = mul a bc }.

(** a matrix (stored column by column) equal to its own conjugate transpose *)
Definition hermitian_matrix {A} (cj : A -> A) (n : nat) (m : list A) : Prop :=
  length m = n * n /\ forall r c x y, r < n -> c < n -> nth_error m (c * n + r) = Some x -> nth_error m (r * n + c) = Some y -> x = cj y.
(** the places where it fails to be, in the order (column first) in which they are reported: on or below the diagonal *)
Definition hermitian_failure {A} (cj : A -> A) (n : nat) (m : list A) (p : nat * nat) : Prop :=
  let (r, c) := p in c <= r < n /\ exists x y, nth_error m (c * n + r) = Some x /\ nth_error m (r * n + c) = Some y /\ x <> cj y.
Definition earlier (p q : nat * nat) : Prop := snd p < snd q \/ snd p = snd q /\ fst p < fst q.
