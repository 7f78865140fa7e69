(** Statements about the limits and the errors of the Pauli dictionaries. *)
From Coq Require Import List NArith Arith Bool Lia Sorted.
From Verif Require Import CoreModel CoreSpec SiteModel SiteSpec SiteWordProofs SiteWitnessProofs POsgModel POsgSpec.
Import ListNotations.

Fixpoint same_word (a b : word) : bool :=
  match a, b with [], [] => true | x :: a', y :: b' => Nat.eqb x y && same_word a' b' | _, _ => false end.
Fixpoint twice (l : list word) : bool := match l with [] => false | w :: l' => existsb (same_word w) l' || twice l' end.
Lemma same_word_ok a : forall b, same_word a b = true <-> a = b.
Proof.
  induction a as [|x a IH]; intros [|y b]; cbn; try (split; [discriminate|discriminate]); [split; reflexivity|].
  rewrite andb_true_iff, Nat.eqb_eq, IH. split; [intros [-> ->]; reflexivity|intros [= -> ->]; split; reflexivity].
Qed.
Lemma in_word w l : existsb (same_word w) l = true <-> In w l.
Proof. rewrite existsb_exists. split; [intros (x & I & E); apply same_word_ok in E; now subst|intro I; exists w; split; [exact I|now apply same_word_ok]]. Qed.
Lemma twice_ok l : twice l = true -> ~ NoDup l.
Proof.
  induction l as [|w l IH]; [discriminate|]. cbn. intros T N. apply NoDup_cons_iff in N. destruct N as [N1 N2]. apply orb_true_iff in T. destruct T as [T|T]; [now apply N1, in_word|now apply IH].
Qed.
Lemma repeats (d : dout (list hseq)) : match d with DOk l => twice (map hs_ops l) | _ => false end = true -> exists l, d = DOk l /\ ~ NoDup (map hs_ops l).
Proof. destruct d as [l| | |]; try discriminate. intro H. exists l. split; [reflexivity|now apply twice_ok]. Qed.
Lemma lacks w (d : dout (list hseq)) : match d with DOk l => negb (existsb (same_word w) (map hs_ops l)) | _ => false end = true -> exists l, d = DOk l /\ ~ In w (map hs_ops l).
Proof. destruct d as [l| | |]; try discriminate. intro H. exists l. split; [reflexivity|]. apply negb_true_iff in H. rewrite <- in_word. congruence. Qed.
Lemma contains w (d : dout (list hseq)) : match d with DOk l => existsb (same_word w) (map hs_ops l) | _ => false end = true -> exists l, d = DOk l /\ In w (map hs_ops l).
Proof. destruct d as [l| | |]; try discriminate. intro H. exists l. split; [reflexivity|]. now apply in_word. Qed.

(** lattices: only nearest neighbours, only up to four qubits, on a torus from three qubits only with symmetry *)
Lemma lattice_limits wide ch rw wrap sym level d : 0 < ch -> 1 < d \/ (d = 1 /\ 5 <= Nat.min level (ch * rw)) ->
  pauli_osg wide (lattice_ctx ch rw wrap sym) level d = DThrow.
Proof.
  intros CH H. set (c := lattice_ctx ch rw wrap sym). assert (IL : is_lattice c = true) by (unfold is_lattice, c; cbn; destruct (Nat.eqb_spec ch 0); [lia|reflexivity]).
  unfold pauli_osg. destruct (Nat.eqb_spec d 0); [lia|]. cbn [negb]. unfold compute_neighbours. rewrite IL. cbn [andb]. destruct (Nat.ltb_spec 1 d) as [|D]; [reflexivity|].
  destruct H as [H|[-> H]]; [lia|]. change (pc_qubits c) with (ch * rw). change (1 =? 1) with true.
  destruct (Nat.ltb_spec (Nat.min level (ch * rw)) 1); [lia|]. destruct (Nat.ltb_spec (Nat.min level (ch * rw)) 2); [lia|]. cbn [andb].
  unfold lattice_neighbours. destruct (Nat.leb_spec 5 (Nat.min level (ch * rw))); [reflexivity|lia].
Qed.
Lemma torus_needs_symmetry wide ch rw level : 2 <= ch -> 2 <= rw -> 3 <= level -> pauli_osg wide (lattice_ctx ch rw true false) level 1 = DThrow.
Proof.
  intros CH RW L. set (c := lattice_ctx ch rw true false). assert (IL : is_lattice c = true) by (unfold is_lattice, c; cbn; destruct (Nat.eqb_spec ch 0); [lia|reflexivity]).
  assert (CR : pc_row c = rw) by (unfold c; cbn; destruct (Nat.eqb_spec ch 0); [lia|reflexivity]).
  assert (Q : 4 <= ch * rw) by nia.
  unfold pauli_osg. change (1 =? 0) with false. cbn [negb]. unfold compute_neighbours. rewrite IL. change (1 <? 1) with false. change (1 =? 1) with true. cbn [andb].
  change (pc_qubits c) with (ch * rw). destruct (Nat.ltb_spec (Nat.min level (ch * rw)) 1); [lia|]. destruct (Nat.ltb_spec (Nat.min level (ch * rw)) 2); [lia|].
  unfold lattice_neighbours. destruct (Nat.leb_spec 5 (Nat.min level (ch * rw))); [reflexivity|]. destruct (Nat.leb_spec 3 (Nat.min level (ch * rw))); [|lia].
  assert (T : lattice_triplets wide c = DThrow).
  { assert (F : forall a b rest, symmetrical_fill wide c (a :: rest) b = DThrow) by reflexivity.
    unfold lattice_triplets, triplet_shapes. rewrite CR. change (pc_col c) with ch. change (pc_wrap c) with true.
    destruct (Nat.leb_spec 3 rw); [cbn [app each fst snd]; now rewrite F|]. destruct (Nat.leb_spec 3 ch); [cbn [app each fst snd]; now rewrite F|].
    destruct (Nat.leb_spec 2 rw); [|lia]. destruct (Nat.leb_spec 2 ch); [|lia]. cbn [andb app each fst snd]. now rewrite F. }
  now rewrite T.
Qed.

(** a ring: windows that close the ring, or meet again behind it, are listed once for each start *)
Lemma ring_repeats : (exists l, pauli_osg wide_cpp (chain_ctx 3 true false) 3 1 = DOk l /\ ~ NoDup (map hs_ops l)) /\
  (exists l, pauli_osg wide_cpp (chain_ctx 2 true false) 2 1 = DOk l /\ ~ NoDup (map hs_ops l)) /\
  (exists l, pauli_osg wide_cpp (chain_ctx 4 true false) 2 2 = DOk l /\ ~ NoDup (map hs_ops l)).
Proof. split; [|split]; apply repeats; vm_compute; reflexivity. Qed.
Lemma corner_repeated : exists ch rw l, pauli_osg wide_cpp (lattice_ctx ch rw false false) 3 1 = DOk l /\ ~ NoDup (map hs_ops l).
Proof. exists 2, 2. apply repeats. vm_compute. reflexivity. Qed.
Lemma corner_missing : exists ch rw l w, pauli_osg wide_cpp (lattice_ctx ch rw false false) 3 1 = DOk l /\ pauli_word (ch * rw) w /\ in_triple false ch rw w /\ ~ In w (map hs_ops l).
Proof.
  destruct (lacks [3; 6; 9] (pauli_osg wide_cpp (lattice_ctx 2 2 false false) 3 1) ltac:(vm_compute; reflexivity)) as (l & E & N).
  exists 2, 2, l, [3; 6; 9]. split; [exact E|]. split; [apply pauli_wordb_ok; vm_compute; reflexivity|]. split; [|exact N].
  exists bottom_right. split; [cbn; auto 8|]. exists 0, 0. split.
  - intros i j I. cbn in I. repeat (destruct I as [I|I]; [injection I as <- <-; lia|]). destruct I.
  - intro q. vm_compute. tauto.
Qed.
Lemma torus_missing : exists ch rw l w, pauli_osg wide_cpp (lattice_ctx ch rw true true) 3 1 = DOk l /\ pauli_word (ch * rw) w /\ on_copy true ch rw top_left w /\ ~ In w (map hs_ops l).
Proof.
  destruct (lacks [0; 6; 15] (pauli_osg wide_cpp (lattice_ctx 3 2 true true) 3 1) ltac:(vm_compute; reflexivity)) as (l & E & N).
  exists 3, 2, l, [0; 6; 15]. split; [exact E|]. split; [apply pauli_wordb_ok; vm_compute; reflexivity|]. split; [|exact N].
  exists 2, 0. split; [lia|]. intro q. vm_compute. tauto.
Qed.
Lemma checked_repeats : exists ch rw l, symmetrical_fill wide_cpp (lattice_ctx ch rw true true) [0; 1] true = DOk l /\ ~ NoDup (map hs_ops l).
Proof. exists 2, 4. apply repeats. vm_compute. reflexivity. Qed.
Lemma eight_undefined : pauli_osg wide_cpp (lattice_ctx 8 8 true true) 3 1 = DUndef.
Proof. vm_compute. reflexivity. Qed.
Lemma long_ring_undefined : symmetrical_fill wide_cpp (chain_ctx 33 true true) [0; 1] true = DUndef.
Proof. vm_compute. reflexivity. Qed.
