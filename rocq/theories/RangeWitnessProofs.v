(** Cases for ranges of measurements. *)
From Coq Require Import List NArith Arith Bool Lia Permutation.
From Verif Require Import FieldModel PolyModel PolySpec AlgModel TensorModel TensorSpec EnumSpec ProbModel ProbSpec RangeModel RangeSpec RangeProofs RangeRunProofs.
Import ListNotations.

(** two parties: measurements with 2 and 3 outcomes; with 2 outcomes, and with 2 outcomes that both have an operator *)
Definition sc2 : list party := [[(2, false); (3, false)]; [(2, false); (2, true)]].
Lemma sc2_1 : numbered sc2 1 0 1 (3, false).
Proof. exists [], [(2, false); (3, false)], [[(2, false); (2, true)]]. repeat split. Qed.
Lemma sc2_0 : numbered sc2 0 0 0 (2, false).
Proof. exists [], [(2, false); (3, false)], [[(2, false); (2, true)]]. repeat split. Qed.
Lemma sc2_2 : numbered sc2 2 1 0 (2, false).
Proof. exists [[(2, false); (3, false)]], [(2, false); (2, true)], []. repeat split. Qed.
Lemma sc2_3 : numbered sc2 3 1 1 (2, true).
Proof. exists [[(2, false); (3, false)]], [(2, false); (2, true)], []. repeat split. Qed.
Lemma two_parties g o p m x g' o' p' m' x' : numbered sc2 g p m x -> numbered sc2 g' p' m' x' -> p <> p' -> ~ clash sc2 [(g, o); (g', o')].
Proof.
  intros H H' Hne (i & j & g1 & o1 & g2 & o2 & q & m1 & m2 & x1 & x2 & Hij & H1 & H2 & N1 & N2).
  assert (B : forall k r, nth_error [(g, o); (g', o')] k = Some r -> (k = 0 /\ r = (g, o)) \/ (k = 1 /\ r = (g', o'))).
  { intros [|[|[|k]]] r E; cbn in E; try discriminate; injection E as <-; auto. }
  destruct (B _ _ H1) as [[-> E1]|[-> E1]], (B _ _ H2) as [[-> E2]|[-> E2]]; try congruence; injection E1 as -> ->; injection E2 as -> ->.
  - destruct (numbered_one _ _ _ _ _ _ _ _ H N1) as [-> _]. destruct (numbered_one _ _ _ _ _ _ _ _ H' N2) as [-> _]. congruence.
  - destruct (numbered_one _ _ _ _ _ _ _ _ H N2) as [-> _]. destruct (numbered_one _ _ _ _ _ _ _ _ H' N1) as [-> _]. congruence.
Qed.
(** measurement 3 free, outcome 1 of measurement 1 *)
Lemma sc2_sound : sound_requests fst sc2 [(3, None); (1, Some 1)].
Proof.
  split; [|exact (two_parties _ _ _ _ _ _ _ _ _ _ sc2_3 sc2_1 ltac:(discriminate))].
  intros g o [E|[E|[]]]; injection E as <- <-.
  - exists 1, 1, (2, true). split; [exact sc2_3|]. split; [cbn; lia|discriminate].
  - exists 0, 1, (3, false). split; [exact sc2_1|]. split; [cbn; lia|intros a [= <-]; cbn; lia].
Qed.
Lemma sc2_sound_operators : sound_requests operators sc2 [(3, None); (1, Some 1)].
Proof.
  split; [|exact (two_parties _ _ _ _ _ _ _ _ _ _ sc2_3 sc2_1 ltac:(discriminate))].
  intros g o [E|[E|[]]]; injection E as <- <-.
  - exists 1, 1, (2, true). split; [exact sc2_3|]. split; [cbn; lia|discriminate].
  - exists 0, 1, (3, false). split; [exact sc2_1|]. split; [cbn; lia|intros a [= <-]; cbn; lia].
Qed.
Lemma sc2_sound_fixed : sound_requests fst sc2 (fixed [(3, 0); (1, 2)]).
Proof.
  split; [|exact (two_parties _ _ _ _ _ _ _ _ _ _ sc2_3 sc2_1 ltac:(discriminate))].
  intros g o [E|[E|[]]]; injection E as <- <-.
  - exists 1, 1, (2, true). split; [exact sc2_3|]. split; [cbn; lia|intros a [= <-]; cbn; lia].
  - exists 0, 1, (3, false). split; [exact sc2_1|]. split; [cbn; lia|intros a [= <-]; cbn; lia].
Qed.
Lemma sc2_clash : clash sc2 [(1, None); (2, None); (0, Some 1)].
Proof. exists 0, 2, 1, None, 0, (Some 1), 0, 1, 0, (3, false), (2, false). repeat split; [lia|exact sc2_1|exact sc2_0]. Qed.

(** three variants: a projective observable with 2 outcomes, one with 3, and one that is not projective *)
Definition vs3 : list (nat * bool) := [(2, false); (3, false); (1, true)].
Lemma vs3_sound : sound_requests fst (map single vs3) [(2, None); (1, Some 2)].
Proof.
  assert (N2 : numbered (map single vs3) 2 2 0 (1, true)) by (now apply single_numbered).
  assert (N1 : numbered (map single vs3) 1 1 0 (3, false)) by (now apply single_numbered).
  split.
  - intros g o [E|[E|[]]]; injection E as <- <-.
    + exists 2, 0, (1, true). split; [exact N2|]. split; [cbn; lia|discriminate].
    + exists 1, 0, (3, false). split; [exact N1|]. split; [cbn; lia|intros a [= <-]; cbn; lia].
  - intros (i & j & g1 & o1 & g2 & o2 & q & m1 & m2 & x1 & x2 & Hij & H1 & H2 & K1 & K2).
    destruct i as [|[|[|i]]], j as [|[|[|j]]]; cbn in H1, H2; try discriminate; try lia; injection H1 as <- <-; injection H2 as <- <-.
    + destruct (numbered_one _ _ _ _ _ _ _ _ N2 K1) as [<- _]. destruct (numbered_one _ _ _ _ _ _ _ _ N1 K2) as [E _]. discriminate.
    + destruct (numbered_one _ _ _ _ _ _ _ _ N1 K1) as [<- _]. destruct (numbered_one _ _ _ _ _ _ _ _ N2 K2) as [E _]. discriminate.
Qed.

(** the number of measurements itself is not refused *)
Lemma bound_case : exists (sc : list party) g, (forall p m x, ~ numbered sc g p m x) /\
  measurement_to_range (gm_table num_outcomes sc) (length sc) [(g, None)] = Undefined /\
  measurement_to_range (gm_table num_operators sc) (length sc) [(g, None)] = Undefined /\
  outcome_to_element (gm_table num_outcomes sc) (length sc) [(g, 0)] = Undefined.
Proof.
  exists sc2, 4. split; [|vm_compute; auto]. intros p m x H. destruct (numbered_lt _ _ _ _ _ H) as (H' & _). vm_compute in H'. lia.
Qed.
(** the last outcome of a measurement gives the first outcome of the next measurement *)
Lemma outcome_case : exists (sc : list party) g p m x a lo hi es m', numbered sc g p m x /\ a < fst x /\
  measurement_to_range (gm_table num_operators sc) (length sc) [(g, Some a)] = Value (lo, hi) /\
  joint_operator sc es /\ between lo hi (places cg_place sc es) /\ nth_error es p = Some (Some (m', 0)) /\ m' <> m.
Proof.
  exists sc2, 0, 0, 0, (2, false), 1, [2; 0], [3; 1], [Some (1, 0); None], 1. split; [exact sc2_0|]. split; [cbn; lia|].
  split; [reflexivity|]. split; [|split; [|split; [reflexivity|discriminate]]].
  - constructor; [exists 3, false; split; [reflexivity|cbn; lia]|]. constructor; [exact I|constructor].
  - unfold between, in_box. cbn. constructor; [cbn; lia|]. constructor; [cbn; lia|constructor].
Qed.

From Verif Require Import FieldProofs ProbWitnessProofs.
Lemma sc3_requests : sound_requests fst sc3 (fixed [(2, 2); (1, 2)]).
Proof.
  assert (N2 : numbered sc3 2 1 0 (3, false)) by (exists [[(2, false); (3, true)]], [(3, false); (2, false)], []; repeat split).
  assert (N1 : numbered sc3 1 0 1 (3, true)) by (exists [], [(2, false); (3, true)], [[(3, false); (2, false)]]; repeat split).
  split.
  - intros g o [E|[E|[]]]; injection E as <- <-.
    + exists 1, 0, (3, false). split; [exact N2|]. split; [cbn; lia|intros a [= <-]; cbn; lia].
    + exists 0, 1, (3, true). split; [exact N1|]. split; [cbn; lia|intros a [= <-]; cbn; lia].
  - intros (i & j & g1 & o1 & g2 & o2 & q & m1 & m2 & x1 & x2 & Hij & H1 & H2 & K1 & K2).
    destruct i as [|[|[|i]]], j as [|[|[|j]]]; cbn in H1, H2; try discriminate; try lia; injection H1 as <- <-; injection H2 as <- <-.
    + destruct (numbered_one _ _ _ _ _ _ _ _ N2 K1) as [<- _]. destruct (numbered_one _ _ _ _ _ _ _ _ N1 K2) as [E _]. discriminate.
    + destruct (numbered_one _ _ _ _ _ _ _ _ N1 K1) as [<- _]. destruct (numbered_one _ _ _ _ _ _ _ _ N2 K2) as [E _]. discriminate.
Qed.
Lemma sc3_value_case (R : rfield) : Forall (Forall (fun m => 0 < fst m)) sc3 /\ small (map cg_dim sc3) /\ consistent sc3 (detP R)
  /\ entries sc3 (detP R) (fun n => bit R (value_bits sc3 n)) /\ sound_requests fst sc3 (fixed [(2, 2); (1, 2)]).
Proof. destruct (sc3_case R) as (H1 & H2 & H3 & _ & H4). split; [exact H1|]. split; [exact H2|]. split; [exact H3|]. split; [exact H4|exact sc3_requests]. Qed.
