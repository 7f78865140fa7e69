(** Concrete runs for tensors made on first use. *)
From Coq Require Import List Arith Bool Lia.
From Verif Require Import MtenModel MtenSpec MtenProofs MtenRunProofs.
Import ListNotations.

Lemma new_consistent total known : known <= total -> consistent total (ts_new known).
Proof. intros K. split; cbn; [exact K|discriminate| |reflexivity]. intros q r n [->| ->] E; discriminate. Qed.
(** a system in which the Collins-Gisin tensor has been made, two of four symbols being known, and the full correlator *)
Definition warm : tshared := mk_ts 3 (Some (0, 3)) 1 (Some (0, 2)) None false.
Lemma warm_consistent : consistent 4 warm.
Proof.
  split; cbn; [lia| | |reflexivity].
  - intros id n E. injection E as <- <-. lia.
  - intros q r n [->| ->] E; [|discriminate]. injection E as <- <-. exists 3. split; [reflexivity|lia].
Qed.
Definition warm_full : tshared := mk_ts 4 (Some (0, 3)) 1 (Some (0, 2)) None false.
Lemma warm_full_consistent : consistent 4 warm_full.
Proof.
  split; cbn; [lia| | |reflexivity].
  - intros id n E. injection E as <- <-. lia.
  - intros q r n [->| ->] E; [|discriminate]. injection E as <- <-. exists 3. split; [reflexivity|lia].
Qed.
Definition two : list (list treq) := [[TCg]; [TFc; TFc]].
Definition race : list nat := [0; 0; 1; 1; 1; 1; 1; 1; 1; 1; 0; 1; 1; 1].
Lemma race_refuted : exists total s progs sched i q b, consistent total s /\ sh_known s = total /\
  in_use (trun total true sched (tstart s progs)) i q b /\ ~ usable total q b (st_shared (trun total true sched (tstart s progs))) /\
  sh_bad (st_shared (trun total true (sched ++ [i]) (tstart s progs))) = true.
Proof.
  exists 3, (ts_new 3), two, race, 1, TFc, true. split; [apply new_consistent; lia|]. split; [reflexivity|]. split; [|split].
  - eexists. split; [vm_compute; reflexivity|reflexivity].
  - intros (id & n & m & E1 & E2 & _). vm_compute in E1, E2. congruence.
  - vm_compute. reflexivity.
Qed.
Definition three : list (list treq) := [[TPt; TGrow 1; TPt]; [TFc; TFc]; [TCg; TPt]].
(** round robin *)
Fixpoint robin (k n : nat) : list nat := match k with 0 => [] | S k' => seq 0 n ++ robin k' n end.
Lemma robin_ends : map (fun t => (tt_todo t, tt_log t)) (st_threads (trun 4 true (robin 40 3) (tstart warm three))) =
  [([], [(TPt, Some false); (TGrow 1, Some true); (TPt, Some true)]); ([], [(TFc, Some false); (TFc, Some true)]); ([], [(TCg, Some false); (TPt, Some true)])].
Proof. vm_compute. reflexivity. Qed.
