(** Concrete calls. *)
From Coq Require Import List String Arith Bool Lia.
From Verif Require Import AlgModel TensorModel UtilModel ArgModel ArgSpec ArgProofs ArgCallProofs.
Import ListNotations.
Local Open Scope string_scope.
Local Open Scope nat_scope.
Local Open Scope list_scope.

(** arrays: a text or a number *)
Inductive arr := T (s : string) | N (n : nat).
Definition arr_text (a : arr) : option string := match a with T s => Some s | N _ => None end.
Definition arr_nat (a : arr) : option nat := match a with N n => Some n | T _ => None end.
Definition rd0 : readers arr nat (option bool * etype * nat) nat nat string :=
  mk_readers arr_nat arr_nat (fun i t a => option_map (fun n => (i, t, n)) (arr_nat a)) arr_nat arr_nat arr_text.
Notation it := (item arr).
(** by name, in some order, and in order; both with flags *)
Definition moment_named : list it := [Named (T "neighbours") (N 2); Named (T "level") (N 3); Flag (T "monomial"); Named (T "reference_id") (N 9)].
Definition moment_plain : list it := [Plain (N 9); Named (T "neighbours") (N 2); Plain (N 3); Flag (T "monomial")].
Definition comm_named : list it := [Named (T "reference_id") (N 9); Named (T "level") (N 2); Named (T "word") (N 7); Flag (T "anticommutator")].
Definition comm_plain : list it := [Plain (N 9); Plain (N 2); Plain (N 7); Flag (T "anticommutator")].
Definition subs_named : list it := [Named (T "reference_id") (N 9); Named (T "matrix") (N 4); Named (T "rules") (N 1)].
Definition subs_plain : list it := [Plain (N 9); Plain (N 4); Plain (N 1)].

(** deciding that calls say the same *)
Definition fits_b (params flags : list string) (i : it) : bool :=
  match i with
  | Named a _ => match arr_text a with Some n => mem n params | None => false end
  | Flag a => match arr_text a with Some n => negb (mem n params) && mem n flags | None => false end
  | Plain x => match arr_text x with Some n => negb (mem n params) && negb (mem n flags) | None => true end
  end.
Lemma fits_by params flags items : forallb (fits_b params flags) items = true -> Forall (fits arr_text params flags) items.
Proof.
  intros H. rewrite forallb_forall in H. apply Forall_forall. intros i Hi. specialize (H i Hi). destruct i as [a v|a|x]; cbn [fits_b fits] in *.
  - destruct (arr_text a) as [n|]; [|discriminate]. exists n. apply mem_in in H. auto.
  - destruct (arr_text a) as [n|]; [|discriminate]. apply andb_true_iff in H. destruct H as (H1 & H2). apply negb_true_iff, mem_out in H1. apply mem_in in H2. eauto.
  - intros n E. rewrite E in H. apply andb_true_iff in H. destruct H as (H1 & H2). apply negb_true_iff, mem_out in H1. apply negb_true_iff, mem_out in H2. auto.
Qed.
Lemma moment_same : same_call arr_text Moment [N 9; N 3] moment_named moment_plain.
Proof.
  constructor.
  - split; apply fits_by; vm_compute; reflexivity.
  - split; reflexivity.
  - reflexivity.
  - intros [|[|k]] n H; cbn in H; [injection H as <-; split; reflexivity|injection H as <-; split; reflexivity|destruct k; discriminate].
  - intros n H. cbn [given moment_named moment_plain arr_text]. destruct (String.eqb_spec "neighbours" n) as [E|E]; [reflexivity|].
    destruct (String.eqb_spec "level" n) as [<-|E2]; [exfalso; apply H; cbn; auto|]. destruct (String.eqb_spec "reference_id" n) as [<-|E3]; [exfalso; apply H; cbn; auto|reflexivity].
  - intros n. unfold flagged. split; intros (a & I & Q); exists a; (split; [|exact Q]); cbn in I |- *; intuition (try discriminate).
Qed.
Lemma comm_same : same_call arr_text Commutator [N 9; N 2; N 7] comm_named comm_plain.
Proof.
  constructor.
  - split; apply fits_by; vm_compute; reflexivity.
  - split; reflexivity.
  - reflexivity.
  - intros [|[|[|k]]] n H; cbn in H; [injection H as <-; split; reflexivity|injection H as <-; split; reflexivity|injection H as <-; split; reflexivity|destruct k; discriminate].
  - intros n H. cbn [given comm_named comm_plain arr_text]. destruct (String.eqb_spec "reference_id" n) as [<-|E3]; [exfalso; apply H; cbn; auto|].
    destruct (String.eqb_spec "level" n) as [<-|E2]; [exfalso; apply H; cbn; auto|]. destruct (String.eqb_spec "word" n) as [<-|E4]; [exfalso; apply H; cbn; auto|reflexivity].
  - intros n. unfold flagged. split; intros (a & I & Q); exists a; (split; [|exact Q]); cbn in I |- *; intuition (try discriminate).
Qed.
Lemma subs_same : same_call arr_text Substituted [N 9; N 4; N 1] subs_named subs_plain.
Proof.
  constructor.
  - split; apply fits_by; vm_compute; reflexivity.
  - split; reflexivity.
  - reflexivity.
  - intros [|[|[|k]]] n H; cbn in H; [injection H as <-; split; reflexivity|injection H as <-; split; reflexivity|injection H as <-; split; reflexivity|destruct k; discriminate].
  - intros n H. cbn [given subs_named subs_plain arr_text]. destruct (String.eqb_spec "reference_id" n) as [<-|E3]; [exfalso; apply H; cbn; auto|].
    destruct (String.eqb_spec "matrix" n) as [<-|E2]; [exfalso; apply H; cbn; auto|]. destruct (String.eqb_spec "rules" n) as [<-|E4]; [exfalso; apply H; cbn; auto|reflexivity].
  - intros n. unfold flagged. split; intros (a & I & Q); exists a; (split; [|exact Q]); cbn in I |- *; intuition (try discriminate).
Qed.
Lemma moment_calls : call arr_text rd0 Moment (written moment_named) = Value (2, 9, WantMoment 3 2) /\ call arr_text rd0 Moment (written moment_plain) = Value (2, 9, WantMoment 3 2).
Proof. split; vm_compute; reflexivity. Qed.
Lemma comm_calls : call arr_text rd0 Commutator (written comm_named) = Value (5, 9, WantCommutator true 0 0 (None, OperatorSequence, 7)) /\
  call arr_text rd0 Commutator (written comm_plain) = Value (5, 9, WantCommutator true 2 0 (None, OperatorSequence, 7)).
Proof. split; vm_compute; reflexivity. Qed.
Lemma subs_calls : call arr_text rd0 Substituted (written subs_named) = Value (5, 9, WantSubstituted 4 4) /\ call arr_text rd0 Substituted (written subs_plain) = Value (5, 9, WantSubstituted 4 1).
Proof. split; vm_compute; reflexivity. Qed.
Lemma comm_refuted : exists (text : arr -> option string) (rd : readers arr nat (option bool * etype * nat) nat nat string) vals by_name in_order,
  same_call text Commutator vals by_name in_order /\ (exists r, call text rd Commutator (written in_order) = Value r) /\ call text rd Commutator (written by_name) <> call text rd Commutator (written in_order).
Proof.
  exists arr_text, rd0, [N 9; N 2; N 7], comm_named, comm_plain. split; [exact comm_same|]. rewrite (proj1 comm_calls), (proj2 comm_calls). split; [eexists; reflexivity|discriminate].
Qed.
Lemma subs_refuted : exists (text : arr -> option string) (rd : readers arr nat (option bool * etype * nat) nat nat string) vals by_name in_order,
  same_call text Substituted vals by_name in_order /\ (exists r, call text rd Substituted (written in_order) = Value r) /\ call text rd Substituted (written by_name) <> call text rd Substituted (written in_order).
Proof.
  exists arr_text, rd0, [N 9; N 4; N 1], subs_named, subs_plain. split; [exact subs_same|]. rewrite (proj1 subs_calls), (proj2 subs_calls). split; [eexists; reflexivity|discriminate].
Qed.
Definition dangling : list arr := [T "level"; N 3; T "neighbours"].
Lemma dangling_undefined : exists (text : arr -> option string) (rd : readers arr nat (option bool * etype * nat) nat nat string) args, call text rd Moment args = Undefined.
Proof. exists arr_text, rd0, dangling. vm_compute. reflexivity. Qed.
Lemma moment_well : well arr_text Moment moment_named /\ well arr_text Moment moment_plain. Proof. exact (sc_well _ _ _ _ _ moment_same). Qed.
Lemma plain_no_names : no_names [Plain (N 9); Flag (T "monomial")] /\ Forall (fits arr_text (param_names Moment) (flag_names Moment)) [Plain (N 9); Flag (T "monomial")].
Proof. split; [intros a v [H|[H|[]]]; discriminate|apply fits_by; vm_compute; reflexivity]. Qed.
(** * Alternatives *)
Definition member (l : list string) (x : string) : bool := existsb (String.eqb x) l.
Lemma member_spec l x : member l x = true <-> In x l.
Proof. unfold member. rewrite existsb_exists. split; [intros [y [I E]]; apply String.eqb_eq in E; now subst|intros I; exists x; now rewrite String.eqb_refl]. Qed.
Definition pair_in (l : list (string * string)) (x : string * string) : bool := existsb (fun y => String.eqb (fst x) (fst y) && String.eqb (snd x) (snd y)) l.
Lemma pair_in_spec l x : pair_in l x = true <-> In x l.
Proof.
  unfold pair_in. rewrite existsb_exists. split.
  - intros [[u v] [I E]]. apply andb_prop in E. destruct x as [a b]. cbn in E. destruct E as [E1 E2]. apply String.eqb_eq in E1, E2. now subst.
  - intros I. exists x. now rewrite !String.eqb_refl.
Qed.
Lemma alternatives_spec c a b : excluded (exclusions c) a b <-> alternatives c a b.
Proof.
  split.
  - assert (H : forallb (fun x => negb (String.eqb (fst x) (snd x)) && existsb (fun g => member g (fst x) && member g (snd x)) (choices c)) (exclusions c) = true) by (destruct c; vm_compute; reflexivity).
    rewrite forallb_forall in H. intros [I|I]; apply H in I; apply andb_prop in I; destruct I as [I1 I2]; cbn [fst snd] in *; apply negb_true_iff, String.eqb_neq in I1;
      apply existsb_exists in I2; destruct I2 as [g [G I2]]; apply andb_prop in I2; destruct I2 as [I2 I3]; apply member_spec in I2, I3; (split; [congruence|exists g; auto]).
  - assert (H : forallb (fun g => forallb (fun a => forallb (fun b => String.eqb a b || pair_in (exclusions c) (a, b) || pair_in (exclusions c) (b, a)) g) g) (choices c) = true) by (destruct c; vm_compute; reflexivity).
    intros [N [g [G [A B]]]]. rewrite forallb_forall in H. specialize (H g G). rewrite forallb_forall in H. specialize (H a A). rewrite forallb_forall in H. specialize (H b B).
    apply String.eqb_neq in N. rewrite N in H. cbn [orb] in H. apply orb_prop in H. unfold excluded. now rewrite !pair_in_spec in H.
Qed.
Lemma alternatives_example : alternatives Localizing "zero_indexing" "matlab_indexing".
Proof. split; [discriminate|]. exists ["zero_indexing"; "matlab_indexing"]. cbn [choices In]. auto 6. Qed.
Lemma t_alternatives (A K E X D L : Type) (text : A -> option string) (rd : readers A K E X D L) c items o k r a b : well text c items ->
  call text rd c (written items) = Value (o, k, r) -> alternatives c a b -> flagged text items a -> flagged text items b -> False.
Proof. intros W H I. apply (t_exclusive text rd c items o k r a b W H). now apply alternatives_spec. Qed.
