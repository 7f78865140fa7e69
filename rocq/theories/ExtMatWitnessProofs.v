(** Concrete extended matrices. *)
From Coq Require Import List NArith ZArith Arith Bool Permutation Lia.
From Verif Require Import CoreModel FieldModel AlgModel InfModel InfSpec InfWitnessProofs TreeModel FTabModel FTabSpec FTabProofs FTabWitnessProofs ExtMatModel ExtMatSpec ExtMatProofs ExtMatParProofs ExtMatProgProofs.
Import ListNotations.

Lemma single_safe outcomes srcs nt L : make_network outcomes srcs = Some nt -> forall grow_to (A : Type) (mono : nat -> A) t src words cols exts,
  sound_table srcs nt L t -> generators nt L t words cols -> (forall s, In s exts -> s < length (ft_syms t)) ->
  length exts <= 1 \/ length (ft_entries t) + (length cols + length exts) * length exts <= ft_cap t ->
  exists t' m, settles nt L (fun fuel scratch => extend_single mono (inflate nt L) fuel scratch grow_to t (length words) src words exts) (t', m) /\
    sound_table srcs nt L t' /\ grows t t' /\ fresh t t' /\ extended mono t' src cols exts m.
Proof.
  intros MK grow_to A mono t src words cols exts St G He Safe. destruct (single_ok outcomes srcs nt L MK grow_to A mono t src words cols exts St G He) as [[H1 [H2 _]]|H]; [lia|exact H].
Qed.
Definition same (k : nat) : nat := k.
(** the matrix of the identity and A *)
Definition src2 (i j : nat) : nat := match i, j with 0, 0 => 1 | _, _ => 2 end.
Lemma two_gens : generators two_net 2 tab1 [[]; [0]] [1; 2].
Proof.
  assert (M : forall w, simplified_b two_ctx w = true -> canonical_moment two_ctx 9 [0; 0] w = Ret (Some w) -> simplified two_ctx w /\ moment_of two_net 2 w w).
  { intros w H E. split; [now apply simplified_by|]. destruct (moment_exists [2; 2] [[0; 1]] two_net 2 two_made w (simplified_by two_ctx w H)) as [r [Hr _]].
    destruct (moment_det two_net 2 w r 9 [0; 0] Hr two_scratch) as [X|X]; unfold two_ctx in E; rewrite X in E; [injection E as ->; exact Hr|discriminate]. }
  constructor; [|constructor; [|constructor]].
  - destruct (M [] eq_refl eq_refl) as [A B]. split; [exact A|]. exists []. split; [exact B|reflexivity].
  - destruct (M [0] eq_refl eq_refl) as [A B]. split; [exact A|]. exists [0]. split; [exact B|reflexivity].
Qed.
Definition shown {A} (n : nat) (x : fout (ftab * (nat -> nat -> A))) : option (list (list A)) := match x with FOk (_, m) => Some (map (fun i => map (m i) (seq 0 n)) (seq 0 n)) | _ => None end.
Lemma single_case : generators two_net 2 tab1 [[]; [0]] [1; 2] /\ length (ft_syms tab1) = 6 /\
  shown 4 (extend_single same (inflate two_net 2) 9 [0; 0] doubling tab1 2 src2 [[]; [0]] [2; 3]) = Some [[1; 2; 2; 3]; [2; 2; 5; 6]; [2; 5; 5; 6]; [3; 6; 6; 7]].
Proof. split; [exact two_gens|]. split; vm_compute; reflexivity. Qed.
Lemma safe_one : forall s, In s [3] -> s < length (ft_syms tab1). Proof. intros s [<-|[]]. vm_compute. lia. Qed.
Lemma two_gens1 : generators two_net 2 tab1 [[]] [1].
Proof. pose proof two_gens as H. inversion_clear H as [|x y l l' H1 H2]. constructor; [exact H1|constructor]. Qed.
Lemma w_realloc : exists outcomes srcs nt L (t : ftab) (src : nat -> nat -> nat) words cols exts,
  make_network outcomes srcs = Some nt /\ sound_table srcs nt L t /\ generators nt L t words cols /\ (forall s, In s exts -> s < length (ft_syms t)) /\
  exists fuel scratch, length scratch = total_sources nt L /\ extend_single (fun k => k) (inflate nt L) fuel scratch doubling t (length words) src words exts = FUndef.
Proof.
  exists [2; 2], [[0; 1]], two_net, 2, tab1, src2, [[]], [1], [3; 4; 2; 5]. split; [exact two_made|]. split; [exact tab1_sound|]. split; [exact two_gens1|]. split.
  - intros s [<-|[<-|[<-|[<-|[]]]]]; vm_compute; lia.
  - exists 9, [0; 0]. split; [exact two_scratch|]. vm_compute. reflexivity.
Qed.

(** * Several threads *)
Definition progs2 : list (list action) := of_f [] (programs tab1 [1] [2; 5] 2).
Lemma progs2_eq : programs tab1 [1] [2; 5] 2 = FOk progs2. Proof. vm_compute. reflexivity. Qed.
Definition order_a : list nat := [0; 0; 0; 0; 0; 0; 0; 0; 0; 1; 1; 1; 1; 1; 1].
Definition order_b : list nat := [1; 1; 1; 1; 1; 1; 0; 0; 0; 0; 0; 0; 0; 0; 0].
Definition ended (progs : list (list action)) (s : mstate nat) : bool := forallb (fun x => length (snd x) <=? fst (fst x)) (List.combine (ms_work s) progs).
Lemma combine_nth {X Y} : forall (a : list X) (b : list Y) w x y, nth_error a w = Some x -> nth_error b w = Some y -> In (x, y) (List.combine a b).
Proof.
  induction a as [|x' a IH]; intros b w x y Hx Hy; [destruct w; discriminate|]. destruct b as [|y' b]; [destruct w; discriminate|]. destruct w as [|w]; cbn in *.
  - injection Hx as ->. injection Hy as ->. now left.
  - right. now apply (IH b w).
Qed.
Lemma ended_done progs s : ended progs s = true -> mdone progs s.
Proof. intros H w pc h prog Hw P. unfold ended in H. rewrite forallb_forall in H. specialize (H ((pc, h), prog) (combine_nth _ _ w _ _ Hw P)). now apply Nat.leb_le in H. Qed.
Lemma order_a_ok : exists s, mrun same tab1 1 src2 progs2 (mstart same progs2) order_a = FOk s /\ mdone progs2 s.
Proof.
  assert (E : match mrun same tab1 1 src2 progs2 (mstart same progs2) order_a with FOk s => ended progs2 s | _ => false end = true) by (vm_compute; reflexivity).
  destruct (mrun same tab1 1 src2 progs2 (mstart same progs2) order_a) as [s| | | |]; try discriminate. exists s. split; [reflexivity|now apply ended_done].
Qed.
Lemma order_b_dies : mrun same tab1 1 src2 progs2 (mstart same progs2) order_b = FTerminate. Proof. vm_compute. reflexivity. Qed.
Lemma range2 : (forall k, In k [1] -> k < length (ft_syms tab1)) /\ (forall k, In k [2; 5] -> k < length (ft_syms tab1)).
Proof. split; [intros k [<-|[]]; vm_compute; lia|intros k [<-|[<-|[]]]; vm_compute; lia]. Qed.
Lemma w_terminate : exists outcomes srcs nt L (t : ftab) (src : nat -> nat -> nat) cols exts workers progs order order',
  make_network outcomes srcs = Some nt /\ sound_table srcs nt L t /\ (forall k, In k cols -> k < length (ft_syms t)) /\ (forall k, In k exts -> k < length (ft_syms t)) /\
  programs t cols exts workers = FOk progs /\ Permutation order order' /\
  (exists s, mrun (fun k => k) t (length cols) src progs (mstart (fun k => k) progs) order = FOk s /\ mdone progs s) /\
  mrun (fun k => k) t (length cols) src progs (mstart (fun k => k) progs) order' = FTerminate.
Proof.
  exists [2; 2], [[0; 1]], two_net, 2, tab1, src2, [1], [2; 5], 2, progs2, order_a, order_b. split; [exact two_made|]. split; [exact tab1_sound|]. split; [apply range2|]. split; [apply range2|].
  split; [exact progs2_eq|]. split; [|split; [exact order_a_ok|exact order_b_dies]].
  change (Permutation ([0; 0; 0; 0; 0; 0; 0; 0; 0] ++ [1; 1; 1; 1; 1; 1]) ([1; 1; 1; 1; 1; 1] ++ [0; 0; 0; 0; 0; 0; 0; 0; 0])). apply Permutation_app_comm.
Qed.
Lemma w_range : exists outcomes srcs nt L t cols exts workers, make_network outcomes srcs = Some nt /\ sound_table srcs nt L t /\ (forall k, In k cols -> k < length (ft_syms t)) /\ 0 < workers /\
  programs t cols exts workers = FUndef.
Proof. exists [2; 2], [[0; 1]], two_net, 2, tab1, [1], [9], 2. split; [exact two_made|]. split; [exact tab1_sound|]. split; [apply range2|]. split; [lia|vm_compute; reflexivity]. Qed.
Lemma single23 : (forall k, In k [1; 2] \/ In k [2; 3] -> exists j, j <> 0 /\ factors tab1 k [j]) /\ (forall k, In k [1; 2] -> k < length (ft_syms tab1)) /\ (forall k, In k [2; 3] -> k < length (ft_syms tab1)).
Proof.
  assert (H : forall k, In k [1; 2] \/ In k [2; 3] -> k = 1 \/ k = 2 \/ k = 3) by (cbn; lia). split; [|split].
  - intros k I. destruct (H k I) as [->|[->| ->]]; [exists 1|exists 2|exists 3]; (split; [discriminate|apply tab1_factors; vm_compute; reflexivity]).
  - intros k I. change (length (ft_syms tab1)) with 6. destruct (H k (or_introl I)) as [->|[->| ->]]; lia.
  - intros k I. change (length (ft_syms tab1)) with 6. destruct (H k (or_intror I)) as [->|[->| ->]]; lia.
Qed.
