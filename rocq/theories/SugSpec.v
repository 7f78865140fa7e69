(** What suggested extensions are for. *)
From Coq Require Import List Arith Bool Sorted Permutation.
From Verif Require Import CoreModel AlgModel InfModel InfSpec TreeModel FTabModel FTabSpec SugModel.
Import ListNotations.

Section Spec.
  Variables (nt : network) (L : nat) (t : ftab).
  (** a product of several symbols *)
  Definition composite (s : nat) : Prop := exists l, factors t s l /\ 2 <= length l.
  (** [lg] are the factors of the moment of the word [g] *)
  Definition word_factors (g : word) (lg : list nat) : Prop := exists r k, moment_of nt L g r /\ symbol_seq t k (Some r) /\ factors t k lg.
  (** [s] is the product of the moment of [g] and the symbol [x]: an entry of the matrix with the row [g] that is extended by [x] *)
  Definition reaches (g : word) (x s : nat) : Prop := exists lg l, word_factors g lg /\ factors t s l /\ Permutation l (without_one (lg ++ [x])).
  (** [x] is a factor of one of the composite symbols of the matrix *)
  Definition candidate (included : list nat) (x : nat) : Prop := exists s l, In s included /\ factors t s l /\ 2 <= length l /\ In x l.
  (** the matrix: symbols that exist and are not products with zero, words whose moments have symbols *)
  Record suggestible (included : list nat) (gens : list word) : Prop := {
    sg_symbols : forall s, In s included -> exists l, factors t s l /\ (2 <= length l -> ~ In 0 l);
    sg_words : forall g, In g gens -> exists lg, word_factors g lg }.
  (** no other symbol has the same factors *)
  Definition only_one (s : nat) : Prop := forall s' l, factors t s l -> factors t s' l -> s' = s.
End Spec.
