(** Inflation scenarios: example networks and witnesses. *)
From Coq Require Import List NArith ZArith Arith Bool Lia Permutation Sorted Qcanon.
From Verif Require Import CoreModel CoreSpec AlgModel FieldModel FieldProofs EnumSpec InfModel InfSpec InfProofs InfLayoutProofs InfSimpProofs InfFinalProofs.
Import ListNotations.
Local Open Scope nat_scope.

(** a chain: two sources, the middle observable sees both; the third observable is a number and the fourth has no sources *)
Definition ex_outcomes := [2; 3; 0; 2].
Definition ex_srcs := [[0; 1]; [1; 2]].
Definition ex_net : network := match make_network ex_outcomes ex_srcs with Some n => n | None => mk_net [] 0 0 end.
Lemma ex_made : make_network ex_outcomes ex_srcs = Some ex_net. Proof. reflexivity. Qed.
Lemma ex_size : length (ic_ops (inflate ex_net 2)) = 13. Proof. vm_compute. reflexivity. Qed.
(** two observables, both seeing the one source *)
Definition two_net : network := match make_network [2; 2] [[0; 1]] with Some n => n | None => mk_net [] 0 0 end.
Lemma two_made : make_network [2; 2] [[0; 1]] = Some two_net. Proof. reflexivity. Qed.

Definition below (n : nat) (w : list nat) : bool := forallb (fun x => x <? n) w.
Lemma below_exists c w : below (length (ic_ops c)) w = true -> word_exists c w.
Proof. intros H x X. unfold below in H. rewrite forallb_forall in H. apply Nat.ltb_lt. auto. Qed.
Definition simplified_b (c : ictx) (w : list nat) : bool :=
  below (length (ic_ops c)) w && match simplify c w with Some u => if list_eq_dec Nat.eq_dec u w then true else false | None => false end.
Lemma simplified_by c w : simplified_b c w = true -> simplified c w.
Proof.
  unfold simplified_b. rewrite andb_true_iff. intros [A B]. split; [now apply below_exists|].
  destruct (simplify c w) as [u|]; [|discriminate]. destruct (list_eq_dec Nat.eq_dec u w) as [->|]; [reflexivity|discriminate].
Qed.

Definition swap2 (s i : nat) : nat := match i with 0 => 1 | 1 => 0 | _ => i end.
Lemma swap2_permutes s : permutes 2 (swap2 s).
Proof.
  split; [intros [|[|i]] H; cbn; lia|]. intros [|[|i]] [|[|j]] A B; cbn; intros E; lia || congruence.
Qed.
Lemma moment_refuted : exists outcomes srcs nt L u w,
  make_network outcomes srcs = Some nt /\ simplified (inflate nt L) u /\ simplified (inflate nt L) w /\ alike srcs (inflate nt L) L u w /\
  forall fuel scratch, length scratch = total_sources nt L ->
    canonical_moment (inflate nt L) (S fuel) scratch u = Ret (Some u) /\ canonical_moment (inflate nt L) (S fuel) scratch w = Ret (Some w) /\ u <> w.
Proof.
  exists [2; 2], [[0; 1]], two_net, 2, [0; 1; 2], [0; 1; 3]. split; [exact two_made|].
  split; [apply simplified_by; vm_compute; reflexivity|]. split; [apply simplified_by; vm_compute; reflexivity|]. split.
  - exists swap2. split; [intros s _; apply swap2_permutes|]. vm_compute. apply perm_swap.
  - intros fuel scratch Ls. destruct scratch as [|a [|b [|d scratch]]]; try (vm_compute in Ls; discriminate). repeat split; try reflexivity. discriminate.
Qed.
Lemma outcomes_bound_refuted : exists outcomes srcs nt L ps k,
  make_network outcomes srcs = Some nt /\ (exists x, In x ps /\ length outcomes <= fst x) /\ unflatten_outcomes (inflate nt L) ps k = Some None.
Proof.
  exists [2; 2], [[0; 1]], two_net, 2, [(2, 0)], 0. split; [exact two_made|]. split; [exists (2, 0); split; [now left|cbn; lia]|vm_compute; reflexivity].
Qed.
Lemma outcomes_number_refuted : exists outcomes srcs nt L ps k,
  make_network outcomes srcs = Some nt /\ (forall x, In x ps -> fst x < length outcomes /\ snd x < L ^ length (sources srcs (fst x))) /\
  unflatten_outcomes (inflate nt L) ps k = Some None.
Proof.
  exists ex_outcomes, ex_srcs, ex_net, 2, [(2, 0)], 0. split; [exact ex_made|]. split; [|vm_compute; reflexivity].
  intros x [<-|[]]. vm_compute. split; lia.
Qed.

(** an explanation of the chain: fair coins; every measurement reports the parity of its sources *)
Fixpoint sum_values (l : list nat) : nat := match l with [] => 0 | x :: r => x + sum_values r end.
Definition ex_half : Qc := Q2Qc (QArith_base.Qmake 1 2).
Definition ex_coins : explanation Qc_rfield :=
  mk_expl Qc_rfield (fun _ => 2) (fun _ _ => ex_half) (fun _ vs => sum_values vs mod 2) (fun _ vs => match sum_values vs with 0 => 1%Qc | _ => 0%Qc end).
Lemma ex_coins_normal : normalized Qc_rfield ex_coins.
Proof. intros s. apply Qc_is_canon. vm_compute. reflexivity. Qed.
