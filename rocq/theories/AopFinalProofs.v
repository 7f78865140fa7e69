(** Sums, products and commutators of arrays of polynomials. *)
From Coq Require Import List NArith ZArith QArith Qcanon Arith Bool Lia.
From Verif Require Import CoreModel FieldModel FieldProofs SymModel PolyModel PolyProofs PolyWitnessProofs AlgModel PauliModel PauliSpec PauliFinalProofs RawModel RawSpec RawProofs RawInstProofs RawFinalProofs AopModel AopSpec AopProofs.
Import ListNotations.
Local Open Scope list_scope.
Local Open Scope nat_scope.

Section Finals.
  Context {R : rfield}.
  Notation raw := (list (hseq * cx R)).
  Variable t : table.
  Variable srt : list (mono R) -> list (mono R).
  Variable unit : hseq.
  Notation pw := (pointwise t srt unit). Notation inside := (operand_in t srt unit).
  Lemma pw_mono V (rel rel' : raw -> raw -> raw -> Prop) lhs rhs o : inside V lhs -> inside V rhs -> (forall p q r, raw_wf V p -> raw_wf V q -> rel p q r -> rel' p q r) -> pw rel lhs rhs o -> pw rel' lhs rhs o.
  Proof.
    intros L K H (ls & le & rs & re & -> & -> & FT & SH & SZ & MO & PW). exists ls, le, rs, re. do 6 (split; [easy|]). intros i r N. destruct (PW i r N) as (p & q & P & Q & E). exists p, q. split; [easy|]. split; [easy|].
    apply H; [exact (L _ _ P)|exact (K _ _ Q)|exact E].
  Qed.
  Notation acceptable := (acceptable t srt unit).
  Lemma condensed_wf V (p : raw) : condensed V p -> raw_wf V p. Proof. intros [_ F]. apply Forall_forall. intros x X. destruct (F x X) as (A & B & _). now split. Qed.
  Lemma wf_words V (p : raw) : raw_wf V p -> Forall (fun x => V (fst x)) p. Proof. apply Forall_impl. now intros x [H _]. Qed.

  Lemma plus_spec (A : cspace R) V (rep : hseq -> A) lhs rhs o : hash_exact V -> represents V rep -> array_ok lhs -> array_ok rhs -> inside V lhs -> inside V rhs -> plus t srt unit lhs rhs = AOk o ->
    pw (fun p q r => condensed V r /\ poly_in rep r = v_add (poly_in rep p) (poly_in rep q)) lhs rhs o.
  Proof.
    intros HX RP OL OR L K H. apply bin_ok in H; auto. revert H. apply (pw_mono V); auto. intros p q r P Q E. injection E as <-. destruct (sums_spec R A V rep p q HX RP P Q) as (C & E & _). now split.
  Qed.
  Lemma times_spec (A : cspace R) V W (rep : hseq -> A) tm mul lhs rhs o : multiplies A V W rep tm mul -> array_ok lhs -> array_ok rhs -> inside V lhs -> inside V rhs -> times t srt unit mul lhs rhs = AOk o ->
    pw (fun p q r => condensed W r /\ poly_in rep r = tm (poly_in rep p) (poly_in rep q)) lhs rhs o.
  Proof.
    intros M OL OR L K H. apply bin_ok in H; auto. revert H. apply (pw_mono V); auto. intros p q r P Q E. unfold multiply_op in E. destruct (M p q P Q) as (s & S & C & V'). rewrite S in E. injection E as <-. now split.
  Qed.
  Lemma bracket_spec (A : cspace R) V W (rep : hseq -> A) tm mul lhs rhs o anti : hash_exact W -> represents W rep -> multiplies A V W rep tm mul -> array_ok lhs -> array_ok rhs -> inside V lhs -> inside V rhs -> bracket t srt unit mul anti lhs rhs = AOk o ->
    pw (fun p q r => condensed W r /\ poly_in rep r = v_add (tm (poly_in rep p) (poly_in rep q)) (v_scale (if anti then c1 else copp c1) (tm (poly_in rep q) (poly_in rep p)))) lhs rhs o.
  Proof.
    intros HX RP M OL OR L K H. apply bin_ok in H; auto. revert H. apply (pw_mono V); auto. intros p q r P Q E. unfold bracket_op in E. destruct (M p q P Q) as (s & S & C & V1). destruct (M q p Q P) as (u & U & D & V2). rewrite S, U in E. cbn [of_res abind] in E.
    destruct (sums_spec R A W rep s u HX RP (condensed_wf _ _ C) (condensed_wf _ _ D)) as (C1 & E1 & C2 & E2). rewrite <- V1, <- V2. destruct anti; injection E as <-; (split; [assumption|]); [rewrite v_scale_1; exact E1|exact E2].
  Qed.
  Lemma pauli_bracket_spec (A : cspace R) n l (rep : hseq -> A) tm lhs rhs o anti : pauli_safe n (l + l) -> represents (pauli_wf n (l + l)) rep -> bilinear tm ->
    (forall a b, pauli_wf n (l + l) a /\ hs_hash a <> 0%N -> pauli_wf n (l + l) b /\ hs_hash b <> 0%N -> rep (pauli_multiply n a b) = tm (rep a) (rep b)) ->
    array_ok lhs -> array_ok rhs -> inside (fun q => pauli_wf n l q /\ hs_hash q <> 0%N) lhs -> inside (fun q => pauli_wf n l q /\ hs_hash q <> 0%N) rhs -> pauli_bracket t srt unit n anti lhs rhs = AOk o ->
    pw (fun p q r => condensed (pauli_wf n (l + l)) r /\ poly_in rep r = v_add (tm (poly_in rep p) (poly_in rep q)) (v_scale (if anti then c1 else copp c1) (tm (poly_in rep q) (poly_in rep p)))) lhs rhs o.
  Proof.
    intros S RP BL MU OL OR L K H. apply bin_ok in H; auto. revert H. apply (pw_mono (fun q => pauli_wf n l q /\ hs_hash q <> 0%N)); auto. intros p q r P Q E. unfold pauli_bracket_op in E.
    destruct (brackets_spec R A n l l S rep RP tm BL MU p q (wf_words _ _ P) (wf_words _ _ Q)) as [(u & U & CU & VU) (w & W & CW & VW)]. destruct anti; [rewrite W in E|rewrite U in E]; injection E as <-; now split.
  Qed.

  (** what is accepted *)
  Lemma accepted f refused mt sq V lhs rhs : array_ok lhs -> array_ok rhs -> inhabited_array lhs -> inhabited_array rhs -> inside V lhs -> inside V rhs ->
    (forall p q, raw_wf V p -> raw_wf V q -> exists r, f p q = AOk r) -> ((exists o, binary t srt unit f refused mt sq lhs rhs = AOk o) <-> acceptable lhs rhs).
  Proof.
    intros OL OR NL NR L K T. split.
    - intros [o H]. pose proof (bin_ok _ _ _ _ _ _ _ _ _ _ OL OR H) as (ls & le & rs & re & -> & -> & FT & _). exists ls, le, rs, re. do 3 (split; [easy|]). eapply bin_readable; eauto.
    - intros (ls & le & rs & re & -> & -> & FT & RL & RR). apply bin_some; auto. intros i p q P Q. apply T; [exact (L _ _ P)|exact (K _ _ Q)].
  Qed.
  Lemma plus_accepted lhs rhs : array_ok lhs -> array_ok rhs -> inhabited_array lhs -> inhabited_array rhs -> ((exists o, plus t srt unit lhs rhs = AOk o) <-> acceptable lhs rhs).
  Proof.
    intros OL OR NL NR. unfold plus. split.
    - intros [o H]. pose proof (bin_ok _ _ _ _ _ _ _ _ _ _ OL OR H) as (ls & le & rs & re & -> & -> & FT & _). exists ls, le, rs, re. do 3 (split; [easy|]). eapply bin_readable; eauto.
    - intros (ls & le & rs & re & -> & -> & FT & RL & RR). apply bin_some; auto. intros i p q _ _. now exists (raw_add p q).
  Qed.
  Lemma times_accepted (A : cspace R) V W (rep : hseq -> A) tm mul lhs rhs : multiplies A V W rep tm mul -> array_ok lhs -> array_ok rhs -> inhabited_array lhs -> inhabited_array rhs -> inside V lhs -> inside V rhs ->
    ((exists o, times t srt unit mul lhs rhs = AOk o) <-> acceptable lhs rhs) /\ forall anti, (exists o, bracket t srt unit mul anti lhs rhs = AOk o) <-> acceptable lhs rhs.
  Proof.
    intros M OL OR NL NR L K. split; [|intro anti]; apply (accepted _ _ _ _ V); auto; intros p q P Q; destruct (M p q P Q) as (s & S & _).
    - unfold multiply_op. rewrite S. now exists s.
    - destruct (M q p Q P) as (u & U & _). unfold bracket_op. rewrite S, U. eexists. reflexivity.
  Qed.

  (** what is refused, and where matrices are handled *)
  Variable f : raw -> raw -> aout raw.
  Variables (refused : aerr) (mt sq : bool).
  Notation bin := (binary t srt unit f refused mt sq).
  Lemma refuses_unfit lhs rhs : unfit lhs rhs -> bin lhs rhs = AErr refused.
  Proof.
    intros (ls & le & rs & re & -> & -> & PL & PR & NL & NR & NE). unfold binary. destruct (kind_array ls le PL) as (lk & LK & _). destruct (kind_array rs re PR) as (rk & RK & _). rewrite LK, RK. cbn [abind]. cbn [shape_of]. rewrite (product_arrays ls le rs re lk rk LK RK).
    destruct (Nat.eqb_spec (size le) 1); [easy|]. destruct (Nat.eqb_spec (size re) 1); [easy|]. destruct (same_shape ls rs) eqn:E; [apply same_shape_ok in E; easy|reflexivity].
  Qed.
  Lemma refuses_array lhs rhs : matrix_and_array lhs rhs -> bin lhs rhs = AErr refused.
  Proof.
    intros (id & s & e & P & N & [[-> ->]|[-> ->]]); unfold binary; destruct (kind_array s e P) as (k & K & _ & AK); specialize (AK N); rewrite K; cbn [abind kind_of]; destruct AK as [->|[->|[->| ->]]]; reflexivity.
  Qed.
  Lemma matrix_single lhs rhs : matrix_and_single lhs rhs -> bin lhs rhs = if mt then AMatrix else AErr refused.
  Proof.
    intros (id & s & e & P & N & [[-> ->]|[-> ->]]); unfold binary; destruct (kind_array s e P) as (k & K & AK & _); specialize (AK N); rewrite K; cbn [abind kind_of]; destruct AK as [->|[->|[->| ->]]]; reflexivity.
  Qed.
  Lemma matrix_both i j : bin (GInteger i) (GInteger j) = if sq then AMatrix else AErr refused. Proof. reflexivity. Qed.
  Lemma refuses_other lhs rhs : lhs = GOther \/ rhs = GOther /\ (exists k, kind_of lhs = AOk k) -> bin lhs rhs = AErr ABad.
  Proof. intros [->|[-> [k K]]]; unfold binary; [reflexivity|]. rewrite K. reflexivity. Qed.
  Lemma empty_internal s e : plane s e -> bin GEmpty (GArray s e) = AErr AInternal.
  Proof.
    intro P. unfold binary. destruct (kind_array s e P) as (k & K & A1 & A2). rewrite K. cbn [abind kind_of]. destruct (Nat.eq_dec (size e) 1) as [N|N]; [specialize (A1 N); destruct A1 as [->|[->|[->| ->]]]|specialize (A2 N); destruct A2 as [->|[->|[->| ->]]]]; reflexivity.
  Qed.
End Finals.
