(** The theorems of C64 and a case of them. *)
From Coq Require Import List Arith NArith ZArith Bool Lia.
From Verif Require Import CoreModel AlgModel RepModel ParModel RepParModel RepParProofs RepSpec RepWitnessProofs.
Import ListNotations.

Section Final.
  Variables (K : Type) (k0 k1 : K) (kadd kmul : K -> K -> K) (todo : list N) (maps : N -> option mapper) (size workers : nat) (reps0 final : N -> option (rep K)).
  Hypothesis workers_pos : 1 <= workers.
  Hypothesis single : build_reps k0 k1 kadd kmul maps size reps0 todo = Some final.
  Notation run := (prun k0 k1 kadd kmul todo maps size workers (pstart todo size workers reps0)).
  Notation step := (pstep k0 k1 kadd kmul todo maps size workers).
  Lemma g_all order : exists c s, chain K k0 k1 kadd kmul maps size reps0 todo c /\ nth_error c (length todo) = Some final /\ run order = Some s /\ Inv K k0 k1 kadd kmul todo maps size workers c s.
  Proof.
    destruct (build_chain _ _ _ _ _ _ _ _ _ _ single) as [c [C E]]. destruct (inv_run K k0 k1 kadd kmul todo maps size workers reps0 workers_pos c C order _ (inv_start K k0 k1 kadd kmul todo maps size workers reps0 workers_pos c C)) as [s [R I]]. now exists c, s.
  Qed.
  Lemma f_result order : exists s, run order = Some s /\ (p_main s = MEnd -> p_reps s = final /\ forall w pc, nth_error (p_work s) w = Some pc -> exists k, pc = WDone k).
  Proof.
    destruct (g_all order) as [c [s [C [E [R I]]]]]. exists s. split; [exact R|]. intros M. split; [now apply (inv_end K k0 k1 kadd kmul todo maps size workers final c E s I)|]. intros w pc Ew. pose proof (i_main _ _ _ _ _ _ _ _ _ _ s I) as Hm. rewrite M in Hm. exists (length todo). now apply (Hm w).
  Qed.
  Lemma f_finishes order : moved k0 k1 kadd kmul todo maps size workers (pstart todo size workers reps0) order <= length todo * (workers + 2) + 2 * workers + 3 + workers * (length todo * (size + 2) + 1) /\
    forall s, run order = Some s -> p_main s <> MEnd -> exists t s', step s t = PNext s'.
  Proof.
    destruct (g_all order) as [c [s [C [E [R I]]]]]. split.
    - rewrite <- (meas_start K todo size workers reps0 workers_pos). apply (moved_bound K k0 k1 kadd kmul todo maps size workers reps0 workers_pos c C). exact (inv_start K k0 k1 kadd kmul todo maps size workers reps0 workers_pos c C).
    - intros s' R' M. rewrite R in R'. injection R' as <-. now apply (inv_progress K k0 k1 kadd kmul todo maps size workers reps0 workers_pos c C s I).
  Qed.
  Lemma f_no_race order s : run order = Some s ->
    (forall k w pc, p_main s = MWait k workers -> k < length todo -> nth_error (p_work s) w = Some pc -> forall l e ra rb, pc <> WWork l e ra rb) /\
    (forall v w l m e f ra rb qa qb, v <> w -> nth_error (p_work s) v = Some (WWork l e ra rb) -> nth_error (p_work s) w = Some (WWork m f qa qb) -> l = m /\ e <> f) /\
    (forall w l e ra rb, nth_error (p_work s) w = Some (WWork l e ra rb) -> exists j, p_main s = MWait l j).
  Proof.
    intros R. destruct (g_all order) as [c [s' [C [E [R' I]]]]]. rewrite R in R'. injection R' as <-. split; [|split].
    - intros k w pc M Kn Ew l e ra rb ->. destruct (inv_quiet K k0 k1 kadd kmul todo maps size workers workers_pos c s k w _ I M Ew) as [X|[[X _]|X]]; [discriminate|discriminate|lia].
    - intros v w l m e f ra rb qa qb Ne Ev Ew. pose proof (i_work _ _ _ _ _ _ _ _ _ _ s I v _ Ev) as Wv. pose proof (i_work _ _ _ _ _ _ _ _ _ _ s I w _ Ew) as Ww. cbn in Wv, Ww. destruct Wv as [-> [_ [Mv _]]], Ww as [-> [_ [Mw _]]]. split; [reflexivity|]. intros ->. congruence.
    - intros w l e ra rb Ew. pose proof (i_work _ _ _ _ _ _ _ _ _ _ s I w _ Ew) as Ww. cbn in Ww. destruct Ww as [-> [Ln _]]. destruct (i_level _ _ _ _ _ _ _ _ _ _ s I) as [Lv _]. destruct (p_main s) as [k j|j|]; cbn in Lv; [exists j; now rewrite Lv|lia|lia].
  Qed.
End Final.

(** the two elements of the group of C63, words of lengths 2 and 3, two workers *)
Definition maps3 : N -> option mapper := match build_maps hash2 prod2 osg2 (g_maps start2) [2; 3]%N with Some m => m | None => fun _ => None end.
Definition final3 : N -> option (rep Z) := match build_reps 0 1 Z.add Z.mul maps3 2 (g_reps start2) [2; 3]%N with Some r => r | None => fun _ => None end%Z.
Definition fair3 : list nat := concat (repeat [0; 2; 1] 40).
Definition ended {K} (s : option (pstate K)) : bool := match s with Some s => match p_main s with MEnd => true | _ => false end | None => false end.
Lemma f_par_case : 1 <= 2 /\ build_reps 0%Z 1%Z Z.add Z.mul maps3 2 (g_reps start2) [2; 3]%N = Some final3 /\
  ended (prun 0%Z 1%Z Z.add Z.mul [2; 3]%N maps3 2 2 (pstart [2; 3]%N 2 2 (g_reps start2)) fair3) = true.
Proof.
  split; [auto|]. split; [|vm_compute; reflexivity]. unfold final3. assert (X : match build_reps 0%Z 1%Z Z.add Z.mul maps3 2 (g_reps start2) [2; 3]%N with Some _ => true | None => false end = true) by (vm_compute; reflexivity).
  destruct (build_reps 0%Z 1%Z Z.add Z.mul maps3 2 (g_reps start2) [2; 3]%N); [reflexivity|discriminate].
Qed.
