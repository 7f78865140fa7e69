(** Model of the test whether one rule directly implies another, and of the text of a rule: scenarios/algebraic/operator_rule.cpp:27-68, 127-156. *)
From Coq Require Import NArith Ascii String List Arith Bool.
From Verif Require Import CoreModel AlgModel TextModel.
Import ListNotations.
Local Open Scope list_scope.

(** std::equal on two ranges with both ends, as used in operator_rule.cpp:141-151: equal lengths and entries *)
Fixpoint same_word (u w : word) : bool :=
  match u, w with
  | [], [] => true
  | a :: u', b :: w' => Nat.eqb a b && same_word u' w'
  | _, _ => false
  end.

(** OperatorRule::implies, operator_rule.cpp:127-156: the first places at which the sides of [a] are found in the sides
    of [b], the end counting as not found; then what is before and what is after them is compared.
    Iterators are offsets. *)
Definition implies (a b : rule) : bool :=
  let al := hs_ops (rl_lhs a) in let ar := hs_ops (rl_rhs a) in
  let bl := hs_ops (rl_lhs b) in let br := hs_ops (rl_rhs b) in
  match matches_anywhere al bl with
  | None => false
  | Some i =>
      match matches_anywhere ar br with
      | None => false
      | Some j =>
          if same_word (firstn i bl) (firstn j br)
          then same_word (skipn (i + List.length al) bl) (skipn (j + List.length ar) br)
          else false
      end
  end.

(** one side of a rule as text, operator_rule.cpp:28-38 and 55-65; operators are numbered from 0 *)
Definition side_text (q : hseq) : text :=
  match hs_ops q with
  | [] => if hs_zero q then tx "0" else tx "I"
  | w => concat (map (fun o => tx "X" ++ dec o) w)
  end.
(** operator<<(std::ostream&, OperatorRule), operator_rule.cpp:27-68 *)
Definition rule_text (rl : rule) : text := side_text (rl_lhs rl) ++ tx " -> " ++ sign_text (rule_sign rl) ++ side_text (rl_rhs rl).
