(** What texts should do, independently of the code. *)
From Coq Require Import NArith Arith Bool Ascii String List.
From Verif Require Import CoreModel AlgModel LocModel InfModel TextModel.
Import ListNotations.
Local Open Scope list_scope.

(** Names by letters: the nonempty texts of letters of one case, shorter ones first, those of one length in order of the alphabet *)
Definition cased (upper : bool) (c : ascii) : Prop := if upper then 65 <= nat_of_ascii c <= 90 else 97 <= nat_of_ascii c <= 122.
Fixpoint alphabetic (a b : text) : Prop :=
  match a, b with x :: a', y :: b' => nat_of_ascii x < nat_of_ascii y \/ (x = y /\ alphabetic a' b') | _, _ => False end.
Definition earlier (a b : text) : Prop := length a < length b \/ (length a = length b /\ alphabetic a b).

(** Names that may be given to operators: a letter, then letters, digits, and the characters _ . | *)
Definition letter_char (c : ascii) : Prop := 65 <= nat_of_ascii c <= 90 \/ 97 <= nat_of_ascii c <= 122.
Definition name_char (c : ascii) : Prop := letter_char c \/ 48 <= nat_of_ascii c <= 57 \/ c = "_"%char \/ c = "."%char \/ c = "|"%char.
Definition good_name (n : text) : Prop := exists c r, n = c :: r /\ letter_char c /\ forall x, In x r -> name_char x.
(** The operator a given name stands for *)
Definition raw_operator (mode : conj_mode) (i : nat) : nat := match mode with Interleaved => 2 * i | _ => i end.
(** A real sign *)
Definition real_sign (s : sign) : Prop := s = SPos \/ s = SNeg.
