(** Shared dictionaries: the statements, and the witnesses. *)
From Coq Require Import List Arith Bool Lia.
From Verif Require Import PdcModel PdcSpec PdcProofs PdcRunProofs.
Import ListNotations.

Section Final.
  Variable G : Type.
  Variable make : dkey -> option G.
  Variable size : G -> nat.
  Variable zero : G.
  Variable grow : nat -> nat.
  Notation final sched progs := (prun make size grow sched (pbegin zero grow progs)).
  Lemma right_events (Gr : growing grow) sched progs e : saw (final sched progs) e -> right_event make size e.
  Proof. intros (t & Ht & He). exact (proj1 (run_event G make size zero grow Gr sched progs t e Ht He)). Qed.
  Lemma generators_stay (Gr : growing grow) sched progs k : ~ saw (final sched progs) (ELost k).
  Proof. intros (t & Ht & He). exact (proj2 (run_event G make size zero grow Gr sched progs t _ Ht He)). Qed.
  Lemma one_generator (Gr : growing grow) sched progs k k' a a' : saw (final sched progs) (EOpened k a) -> saw (final sched progs) (EOpened k' a') -> (a = a' <-> k = k').
  Proof.
    intros (t & Ht & He) (t' & Ht' & He'). pose proof (proj2 (run_event G make size zero grow Gr sched progs t _ Ht He)) as A.
    pose proof (proj2 (run_event G make size zero grow Gr sched progs t' _ Ht' He')) as B. cbn in A, B. split; [|congruence].
    intros <-. destruct (sinv_run G make size grow Gr sched _ (sinv_begin G make size zero grow Gr progs)) as [I _]. exact (dv_once _ _ _ I k k' a A B).
  Qed.
  Lemma apart_fine (Gr : growing grow) sched progs k : apart progs -> ~ saw (final sched progs) (ERaced k).
  Proof. intros A (t & Ht & He). exact (apart_no_race G make size zero grow sched progs t k A Ht He). Qed.
  Lemma room_fine (Gr : growing grow) sched progs k : length (flat_map asks progs) < grow 0 -> ~ saw (final sched progs) (EDangling k).
  Proof. intros A (t & Ht & He). exact (enough_room G make size zero grow Gr sched progs t k A Ht He). Qed.
  Lemma careful_fine (Gr : growing grow) sched p e : careful [] 0 [] 0 p = true -> saw (final sched [p]) e -> ~ undefined_event e /\ e <> EBad.
  Proof.
    intros C (t & Ht & He). pose proof (careful_alone G make size zero grow Gr sched p t e C Ht He) as F.
    destruct e; cbn in F |- *; try contradiction; (split; [intros []|discriminate]).
  Qed.
  Lemma good_schedule (Gr : growing grow) sched progs e : apart progs -> length (flat_map asks progs) < grow 0 -> saw (final sched progs) e -> ~ undefined_event e.
  Proof.
    intros A L S. destruct e; cbn; try exact (fun x => x).
    - intros _. now apply (apart_fine Gr sched progs k).
    - intros _. now apply (room_fine Gr sched progs k).
    - intros _. now apply (generators_stay Gr sched progs k).
  Qed.
  (** * Witnesses *)
  Lemma kept_pair g1 g2 : make (1, 0) = Some g1 -> make (2, 0) = Some g2 ->
    saw (prun make size doubling (repeat 0 9) (pbegin zero doubling [[Ask (1, 0); Ask (2, 0); Open 0]])) (EDangling (1, 0)).
  Proof.
    intros A B. cbn. rewrite A. cbn. rewrite B. cbn. eexists. split; [left; reflexivity|]. cbn. auto 6.
  Qed.
  Lemma count_race g1 g2 : make (1, 0) = Some g1 -> make (2, 0) = Some g2 ->
    saw (prun make size doubling [0;0;0;0;1;1;1;1;0] (pbegin zero doubling [[Count (1, 0)]; [Count (2, 0)]])) (EDangling (1, 0)).
  Proof.
    intros A B. cbn. rewrite A. cbn. rewrite B. cbn. eexists. split; [left; reflexivity|]. cbn. auto 6.
  Qed.
  Lemma near_race g : make (1, 1) = Some g ->
    saw (prun make size grow [0;0;1;1;0;0;1;1] (pbegin zero grow [[Ask (1, 1)]; [Ask (1, 1)]])) (ERaced (1, 1)).
  Proof.
    intros A. cbn. rewrite A. cbn. rewrite A. cbn. eexists. split; [right; left; reflexivity|]. cbn. auto 6.
  Qed.
End Final.
Lemma doubling_grows : growing doubling.
Proof. intro n. unfold doubling. destruct (Nat.eqb n 0) eqn:E; [apply Nat.eqb_eq in E; lia|apply Nat.eqb_neq in E; lia]. Qed.
(** a dictionary is its key; those of more than 4 neighbours cannot be made *)
Definition keys (k : dkey) : option dkey := if Nat.leb (snd k) 4 then Some k else None.
