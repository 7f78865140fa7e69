(** Concrete matrices with substitutions. *)
From Coq Require Import List NArith ZArith Arith Bool Sorted Permutation Lia QArith Qcanon.
From Verif Require Import CoreModel FieldModel FieldProofs SymModel SymSpec PolyModel PolySpec PolyProofs PolyOpsProofs PolyTableProofs PolyWitnessProofs RuleModel RuleSpec RuleThmProofs
  BasModel BasSpec BasWitnessProofs RuleWitnessProofs SubsModel SubsSpec SubsProofs.
Import ListNotations.
Local Open Scope nat_scope.

Notation src := (source (R := Q')).
Definition mono8 : src := SMono true cells8.
Definition poly8 : src := SPoly polys8.
(** X3 and X4, which the equations make equal, and X5 and 1 *)
Definition alike8 : src := SPoly [[mq 3 false 1 0]; [mq 4 false 1 0]; [mq 5 false 1 0]; [mq 1 false 1 0]].
(** a matrix with X7, which becomes i X2 *)
Definition cells9 : list (mono Q') := [mq 1 false 1 0; mq 7 false 2 (-3); mq 7 false 2 3; mk_mono 0 false c0].
Definition mono9 : src := SMono true cells9.

Lemma mono8_proper : proper F8 2 mono8.
Proof.
  split; [reflexivity|]. split; [|intros _; exact cells8_hermitian]. unfold cells8. repeat (constructor; [right; apply canonical_by; vm_compute; reflexivity|]). constructor.
Qed.
Lemma poly8_proper : proper F8 2 poly8. Proof. split; [reflexivity|exact polys8_canonical]. Qed.
Lemma alike8_proper : proper F8 2 alike8. Proof. split; [reflexivity|]. repeat (constructor; [apply canonical_by; vm_compute; reflexivity|]). constructor. Qed.
Lemma cells9_hermitian : truly_hermitian t8 2 (mono_entry 2 cells9).
Proof.
  intros v A r c Hr Hc. unfold mono_entry, by_columns. destruct r as [|[|r]]; [| |lia]; (destruct c as [|[|c]]; [| |lia]); cbn [nth Nat.mul Nat.add cells9].
  - apply herm_terms; [now rewrite (as_one t8 v A)|exact (cconj8 1 0)].
  - apply herm_terms; [apply real8; [exact A|vm_compute; reflexivity|rewrite len8; lia]|exact (cconj8 2 3)].
  - apply herm_terms; [apply real8; [exact A|vm_compute; reflexivity|rewrite len8; lia]|exact (cconj8 2 (-3))].
  - apply herm_terms; [now rewrite (as_zero t8 v A)|]. now rewrite (cconj_0 Q').
Qed.
Lemma mono9_proper : proper F8 2 mono9.
Proof.
  split; [reflexivity|]. split; [|intros _; exact cells9_hermitian]. unfold cells9. constructor; [|constructor; [|constructor; [|constructor; [|constructor]]]]; [right|right|right|now left]; apply canonical_by; vm_compute; reflexivity.
Qed.
Definition shape (m : smat Q') : list (list (nat * bool)) := map (map (fun x => (m_id x, m_cj x))) (sm_cells m).
Definition shown (o : option (smat Q')) : option (list (list (nat * bool)) * bool) := option_map (fun m => (shape m, sm_herm m)) o.
Definition made_of (d : nat) (b : rulebook) (s : src) : option (smat Q') := fst (create_substituted F8 pos8 d b s).
Lemma mono8_made : shown (made_of 2 book8 mono8) = Some ([[(1, false)]; [(1, false); (3, false); (6, false); (6, true)]; [(1, false); (3, false); (6, false); (6, true)]; [(3, false)]], true).
Proof. vm_compute. reflexivity. Qed.
Lemma mono9_made : shown (made_of 2 book9 mono9) = Some ([[(1, false)]; [(2, false)]; [(2, false)]; [(0, false)]], true).
Proof. vm_compute. reflexivity. Qed.
Lemma poly8_made : shown (made_of 2 book8 poly8) = Some ([[(1, false)]; [(2, false); (3, false)]; [(2, false); (3, false)]; [(3, false)]], true).
Proof. vm_compute. reflexivity. Qed.
Lemma alike8_made : shown (made_of 2 book8 alike8) = Some ([[(3, false)]; [(3, false)]; [(1, false); (3, false)]; [(1, false)]], false).
Proof. vm_compute. reflexivity. Qed.
(** values that obey the rules: X3 = X4 = 1, X5 = 0, X6 = i *)
Definition w8 (id : nat) : cx Q' := match id with 1 => c1 | 3 => c1 | 4 => c1 | 6 => ci | _ => c0 end.
Lemma w8_assignment : assignment t8 w8. Proof. apply assignment_by; [reflexivity|reflexivity|vm_compute; reflexivity]. Qed.
Lemma w8_solves : solves w8 eqs8.
Proof.
  assert (G : forallb (fun p => ceqb (value w8 p) c0) eqs8 = true) by (vm_compute; reflexivity). rewrite forallb_forall in G. intros p I. apply (ceqb_spec Q'). now apply G.
Qed.
Lemma w8_obeys : obeys w8 (rb_rules book8). Proof. apply (t_completed Q' F8 F8_ok keep keep_ok book8 eqs8 book8_session (proj1 book8_shape) w8 w8_assignment). exact w8_solves. Qed.
Lemma made_exists d b s : match made_of d b s with Some _ => true | None => false end = true -> exists m, fst (create_substituted F8 pos8 d b s) = Some m.
Proof. unfold made_of. destruct (fst (create_substituted F8 pos8 d b s)) as [m|]; [eauto|discriminate]. Qed.
Lemma mono8_some : exists m, fst (create_substituted F8 pos8 2 book8 mono8) = Some m. Proof. apply made_exists. vm_compute. reflexivity. Qed.
Lemma mono9_some : exists m, fst (create_substituted F8 pos8 2 book9 mono9) = Some m. Proof. apply made_exists. vm_compute. reflexivity. Qed.
Lemma poly8_some : exists m, fst (create_substituted F8 pos8 2 book8 poly8) = Some m. Proof. apply made_exists. vm_compute. reflexivity. Qed.
Lemma alike8_some : exists m, fst (create_substituted F8 pos8 2 book8 alike8) = Some m. Proof. apply made_exists. vm_compute. reflexivity. Qed.
