(** Model of the export of rewrite rules to MATLAB: mex_functions/export/export_operator_rules.cpp. *)
From Coq Require Import NArith ZArith Arith Bool Ascii String List.
From Verif Require Import CoreModel AlgModel TextModel.
Import ListNotations.
Local Open Scope list_scope.

(** an entry of the cell array of one rule: an array of numbers or of characters; uint64_t and int64_t numbers are integers *)
Inductive rcell := RNums (l : list Z) | RChars (t : text).

(** one side of a rule, export_operator_rules.cpp:34-43 and 71-82: operators, from 1 if [ml] (matlab_indices) *)
Definition side_cell (ml : bool) (w : word) : rcell := RNums (map (fun o => if ml then Z.of_nat o + 1 else Z.of_nat o)%Z w).
(** the sign, if not positive, export_operator_rules.cpp:27-32, 45-61 *)
Definition sign_cells (s : sign) : list rcell :=
  match s with SPos => [] | SIm => [RChars (tx "i")] | SNeg => [RChars (tx "-")] | SNegIm => [RChars (tx "-i")] end.
(** right side, export_operator_rules.cpp:63-83: 0, or -1 if operators are numbered from 0, for a rule that sets to zero *)
Definition rhs_cell (ml : bool) (rl : rule) : rcell :=
  if rl_zero rl then RNums [if ml then 0 else -1]%Z else side_cell ml (hs_ops (rl_rhs rl)).
(** body of the loop, export_operator_rules.cpp:24-88 *)
Definition export_rule (ml : bool) (rl : rule) : list rcell :=
  side_cell ml (hs_ops (rl_lhs rl)) :: sign_cells (rule_sign rl) ++ [rhs_cell ml rl].
(** OperatorRuleExporter::operator(), export_operator_rules.cpp:18-91: one entry for each rule, in the order of the map *)
Definition export_rules (ml : bool) (m : rulemap) : list (list rcell) := map (fun kr => export_rule ml (snd kr)) m.
