(** ... and polynomials of its symbols. *)
From Coq Require Import List NArith ZArith QArith Qcanon Arith Bool Sorted Lia.
From Verif Require Import CoreModel CoreProofs LocModel LocSpec FieldModel FieldProofs SymModel SymSpec SymProofs SymInstModel SymWitnessProofs SymFinalProofs ChshProofs
  PolyModel PolySpec PolyProofs PolyTableProofs PolyWitnessProofs PolyFinalProofs RawModel RawSpec.
Import ListNotations.
Local Open Scope nat_scope.

Lemma chsh_good : starts chsh_table /\ no_null chsh_table.
Proof. apply (session_no_null chsh_sctx chsh_words chsh_lawful chsh_ops chsh_table chsh_ops_ok); [|exact chsh_run]. repeat (constructor; [exact I|]). constructor. Qed.
Lemma chsh_real : real_phases chsh_sctx chsh_table.
Proof.
  intros id w E H. do 4 (destruct id as [|id]; [vm_compute in E; injection E as <-; vm_compute in H; try discriminate H; (left; vm_compute; reflexivity) || (right; vm_compute; reflexivity)|]).
  vm_compute in E. destruct id; discriminate E.
Qed.
(** 3 + (2+i) A0A1 - i A1A0 + 5 A0B0 *)
Definition chsh_poly : list (mono Q') := [mq 1 false 3 0; mq 2 false 2 1; mq 2 true 0 (-1); mq 3 false 5 0].
Lemma chsh_canonical : PolySpec.canonical chsh_table id_less chsh_poly. Proof. apply canonical_by. vm_compute. reflexivity. Qed.
Definition chsh_v (id : nat) : cx Q' := match id with 0 => c0 | _ => c1 end.
Lemma chsh_assignment : assignment chsh_table chsh_v. Proof. apply assignment_by; [reflexivity|reflexivity|vm_compute; reflexivity]. Qed.
Lemma chsh_agrees : agrees flat_E chsh_table chsh_v.
Proof. intros id w E. do 4 (destruct id as [|id]; [vm_compute in E; injection E as <-; apply cx_ext; reflexivity|]). vm_compute in E. destruct id; discriminate E. Qed.
