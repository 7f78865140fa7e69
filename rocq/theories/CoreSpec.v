(** Specification vocabulary for words, phases and hashes; independent of the code's algorithms. *)
From Coq Require Import List ZArith Arith Bool.
From Verif Require Import CoreModel.
Import ListNotations.

(** ** Gaussian integers a + bi, used to say what a phase means *)
Definition gauss := (Z * Z)%type.
Definition gmul (x y : gauss) : gauss :=
  (fst x * fst y - snd x * snd y, fst x * snd y + snd x * fst y)%Z.
Definition gconj (x : gauss) : gauss := (fst x, - snd x)%Z.
Definition gneg (x : gauss) : gauss := (- fst x, - snd x)%Z.
Definition gone : gauss := (1, 0)%Z.

(** meaning of the four phases; to_scalar, sequence_sign_type.h:94-106 *)
Definition phase (s : sign) : gauss :=
  match s with SPos => (1, 0) | SIm => (0, 1) | SNeg => (-1, 0) | SNegIm => (0, -1) end%Z.

(** ** Words over an alphabet of [r] letters *)
Definition over (r : nat) (w : word) : Prop := forall o, In o w -> o < r.

(** lexicographic order on words (used only between words of equal length) *)
Inductive lex_lt : word -> word -> Prop :=
| lex_head : forall a b u v, a < b -> lex_lt (a :: u) (b :: v)
| lex_tail : forall a u v, lex_lt u v -> lex_lt (a :: u) (a :: v).

(** shortlex: shorter first, then lexicographic *)
Definition shortlex_lt (u v : word) : Prop :=
  length u < length v \/ (length u = length v /\ lex_lt u v).

(** number of words of length at most [L] over [r] letters: 1 + r + ... + r^L *)
Fixpoint count_words (r : N) (L : nat) : N :=
  match L with O => 1 | S m => count_words r m + r ^ N.of_nat L end%N.

(** substring of length [n] at offset [i] *)
Definition sub (w : word) (i n : nat) : word := firstn n (skipn i w).

(** order in which substrings (start, length, _) are visited: larger end first, then larger start first *)
Definition visited_before (p q : nat * nat * N) : Prop :=
  let '(i, n, _) := p in let '(j, m, _) := q in
  j + m < i + n \/ (j + m = i + n /\ j < i).
