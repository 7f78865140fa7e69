(** Concrete cases for the examples of ProbProps.v. *)
From Coq Require Import List NArith ZArith Arith Bool Lia Permutation Sorted Field_theory Ring Field.
From Verif Require Import CoreModel CoreSpec AlgModel FieldModel FieldProofs SymModel SymSpec PolyModel PolySpec PolyProofs PolyOpsProofs PolyFinalProofs PolyTableProofs PolyWitnessProofs
  EnumModel EnumSpec TensorModel TensorSpec TensorProofs TensorFinalProofs ProbModel ProbSpec ProbProofs ProbTensorProofs ProbFinalProofs ProbCorrProofs ProbCorrFinalProofs ProbConvertProofs.
Import ListNotations.
Local Open Scope nat_scope.

(* correlators of two parties in terms of probabilities *)
Section Two.
Variable R : rfield.
Add Field Rw : (r_field R).
Lemma two_party_meaning sc (P : list report -> cx R) a b : all_binary sc -> chosen sc [a; b] -> consistent sc P ->
  cre (correlator P [a; b]) = two_party_correlator (fun x y => cre (P [rep x; rep y])) a b.
Proof.
  intros B H K. rewrite (expand sc [a; b] B H P K).
  destruct a as [|a], b as [|b]; cbn; ring.
Qed.
End Two.

(* a deterministic strategy: outcome 1 of measurement 0, outcome 0 of the others *)
Definition det (es : list report) : bool := forallb (fun e => match e with None => true | Some (m, a) => Nat.eqb a (1 - m) end) es.
Definition bit (R : rfield) (b : bool) : cx R := if b then c1 else c0.
Definition detP (R : rfield) (es : list report) : cx R := bit R (det es).
Lemma nth_error_Some_lt {A} (l : list A) n x : nth_error l n = Some x -> n < length l.
Proof. intro H. apply nth_error_Some. congruence. Qed.
Section Det.
Variable R : rfield.
Add Field Cw : (cx_field R).
Lemma det_consistent sc : Forall (fun p : party => forall m k x, nth_error p m = Some (k, x) -> 1 - m < k) sc -> consistent sc (detP R).
Proof.
  intros H before p after es fs m k x -> Jb Ja N. unfold detP.
  assert (L : 1 - m < k). { rewrite Forall_forall in H. apply (H p) with x; [apply in_app_iff; right; now left|exact N]. }
  assert (E : forall a, det (es ++ Some (m, a) :: fs) = det (es ++ None :: fs) && Nat.eqb a (1 - m)).
  { intro a. unfold det. rewrite !forallb_app. cbn [forallb]. destruct (forallb _ es), (forallb _ fs), (a =? 1 - m); reflexivity. }
  rewrite (map_ext _ (fun a => bit R (det (es ++ None :: fs) && Nat.eqb a (1 - m)))) by (intro a; now rewrite E).
  revert L. generalize (det (es ++ None :: fs)), (1 - m). clear. intros d c L.
  assert (G : forall s n, csum (map (fun a => bit R (d && Nat.eqb a c)) (seq s n)) = bit R (d && (Nat.leb s c && Nat.ltb c (s + n)))).
  { intros s n. revert s. induction n as [|n IH]; intro s; cbn [seq map csum].
    - replace (s <=? c) with (s <=? c) by reflexivity. destruct (Nat.leb_spec s c), (Nat.ltb_spec c (s + 0)); try lia; now rewrite ?andb_false_r.
    - rewrite IH. destruct (Nat.eqb_spec s c), (Nat.leb_spec (S s) c), (Nat.leb_spec s c), (Nat.ltb_spec c (S s + n)), (Nat.ltb_spec c (s + S n)); try lia; destruct d; cbn [andb bit]; try ring. }
  rewrite G. destruct (Nat.ltb_spec c (0 + k)); [|lia]. cbn. now rewrite andb_true_r.
Qed.
End Det.
Definition all_reports (p : party) : list report :=
  None :: flat_map (fun m => map (fun a => Some (m, a)) (seq 0 (operators (nth m p (0, true))))) (seq 0 (length p)).
Lemma reports_in p e : has_operator p e -> In e (all_reports p).
Proof.
  destruct e as [[m a]|]; [|now left]. intros (k & x & N & A). right. apply in_flat_map. exists m. split.
  - apply in_seq. apply nth_error_Some_lt in N. lia.
  - apply in_map_iff. exists a. split; [reflexivity|]. apply in_seq. rewrite (nth_error_nth _ _ _ N). lia.
Qed.
Fixpoint all_joint (sc : list party) : list (list report) :=
  match sc with [] => [[]] | p :: sc' => flat_map (fun e => map (cons e) (all_joint sc')) (all_reports p) end.
Lemma joint_in sc es : joint_operator sc es -> In es (all_joint sc).
Proof.
  induction 1 as [|p e sc es H J IH]; [now left|]. cbn [all_joint]. apply in_flat_map. exists e. split; [now apply reports_in|]. now apply in_map.
Qed.
Lemma entries_by R sc (vb : nat -> bool) : forallb (fun es => Bool.eqb (vb (S (cg_position sc es))) (det es)) (all_joint sc) = true ->
  entries sc (detP R) (fun n => bit R (vb n)).
Proof. intros H es J. rewrite forallb_forall in H. apply joint_in, H, eqb_prop in J. unfold detP. now rewrite J. Qed.
Definition value_bits (sc : list party) (n : nat) : bool :=
  existsb (fun es => Nat.eqb (S (cg_position sc es)) n && det es) (all_joint sc).

(* party 1: two outcomes, then three with an operator each; party 2: three outcomes *)
Definition sc3 : list party := [[(2, false); (3, true)]; [(3, false); (2, false)]].
Definition chsh2 : list party := [[(2, false); (2, false)]; [(2, false); (2, false)]].
Definition tri2 : list party := [[(2, false)]; [(2, false); (2, false)]; [(2, false)]].
Lemma det_ok_by sc : forallb (fun p : party => forallb (fun m => Nat.ltb (1 - m) (fst (nth m p (0, true)))) (seq 0 (length p))) sc = true ->
  Forall (fun p : party => forall m k x, nth_error p m = Some (k, x) -> 1 - m < k) sc.
Proof.
  intro H. apply Forall_forall. intros p Hp m k x N. rewrite forallb_forall in H. specialize (H p Hp). rewrite forallb_forall in H.
  assert (M : In m (seq 0 (length p))) by (apply in_seq; apply nth_error_Some_lt in N; lia). specialize (H m M). apply Nat.ltb_lt in H. now rewrite (nth_error_nth _ _ _ N) in H.
Qed.
(* symbols: offset o has symbol o + 1 (the identity at 0), except that offset [z] has symbol 0 *)
Definition sym_at (size : nat) (z : option nat) (o : N) : option nat :=
  if Nat.ltb (N.to_nat o) size then match z with Some z => if Nat.eqb (N.to_nat o) z then Some 0 else Some (S (N.to_nat o)) | None => Some (S (N.to_nat o)) end else None.
Definition real_symbol (i : nat) : symbol := mk_symbol i None None true (Nat.eqb i 0) None None.
Definition real_table (size : nat) : table := mk_table (map real_symbol (seq 0 (S size))) [] [] [] [] [] [] 0.
Lemma sym_in_table size z o id : sym_at size z o = Some id -> id < length (t_syms (real_table size)).
Proof.
  unfold sym_at, real_table. cbn [t_syms]. rewrite map_length, seq_length. destruct (Nat.ltb_spec (N.to_nat o) size); [|discriminate].
  destruct z as [z|]; [destruct (Nat.eqb (N.to_nat o) z)|]; intro E; injection E as <-; lia.
Qed.
Lemma real_starts size : 1 <= size -> starts (real_table size).
Proof. intro H. destruct size as [|n]; [lia|]. unfold starts, real_table. cbn [t_syms seq map]. eexists _, _, _. split; [reflexivity|]. cbn. auto. Qed.
Lemma real_assignment R size (vb : nat -> bool) : vb 0 = false -> vb 1 = true -> assignment (real_table size) (fun n => bit R (vb n)).
Proof.
  intros H0 H1. constructor.
  - now rewrite H0.
  - now rewrite H1.
  - intros id s _ _. destruct (vb id); reflexivity.
  - intros id s N A. unfold real_table in N. cbn [t_syms] in N. rewrite nth_error_map in N. destruct (nth_error (seq 0 (S size)) id) as [i|] eqn:E; [|discriminate].
    cbn in N. injection N as <-. cbn in A. apply Nat.eqb_eq in A. subst i. assert (id = 0).
    { assert (id < S size) by (rewrite <- (seq_length (S size) 0); apply nth_error_Some; congruence). pose proof (nth_error_nth _ _ 0 E) as Q. rewrite seq_nth in Q by assumption. lia. }
    subst id. rewrite H0. reflexivity.
Qed.
Lemma symbols_by R sc sym (vb : nat -> bool) :
  forallb (fun es => match sym (N.of_nat (cg_position sc es)) with Some id => Bool.eqb (vb id) (det es) | None => true end) (all_joint sc) = true ->
  symbol_entries sc (detP R) sym (fun n => bit R (vb n)).
Proof. intros H es id J E. rewrite forallb_forall in H. apply joint_in, H in J. rewrite E in J. apply eqb_prop in J. unfold detP. now rewrite J. Qed.
Lemma known_by sc sym : forallb (fun es => match sym (N.of_nat (cg_position sc es)) with Some (S _) => true | _ => false end) (all_joint sc) = true ->
  forall es, joint_operator sc es -> exists id, sym (N.of_nat (cg_position sc es)) = Some (S id).
Proof. intros H es J. rewrite forallb_forall in H. apply joint_in, H in J. destruct (sym _) as [[|id]|]; try discriminate. eauto. Qed.

(* rules fixing probabilities, without and with a condition *)
Section Rules.
  Context {R : rfield}.
  Variable t : table.
  Variable lt : mono R -> mono R -> bool.
  Hypothesis TO : term_order t lt.
  Hypothesis STS : starts t.
  Add Field Rz : (r_field R).
  Let known (lt' : mono R -> mono R -> bool) (e : element R) : Prop := exists p, el_symbol e = Some p /\ canonical t lt' p.
  Lemma known_some elems : Forall (known lt) elems -> Forall (fun e => el_symbol e <> None) elems.
  Proof. intro K. eapply Forall_impl; [|exact K]. intros e (p & -> & _). discriminate. Qed.
  Lemma known_canonical elems : Forall (known lt) elems -> forall e p, In e elems -> el_symbol e = Some p -> canonical t lt p.
  Proof. intros K e p H E. rewrite Forall_forall in K. destruct (K e H) as (p' & E' & C). rewrite E' in E. now injection E as ->. Qed.
  Lemma explicit_spec elems values : length elems <= length values -> Forall (known lt) elems ->
    exists rules, explicit_value_rules (append lt) elems values = Value rules /\ Forall (canonical t lt) rules /\ length rules = length elems /\
      forall w i e p x r, assignment t w -> nth_error elems i = Some e -> el_symbol e = Some p -> nth_error values i = Some x -> nth_error rules i = Some r ->
        value w r = csub (value w p) (creal x).
  Proof.
    intros L K. destruct (value_rules_spec t lt TO STS None elems (fun p H => ltac:(discriminate)) (known_canonical elems K) values L (known_some elems K)) as (rules & E & C & Ln & M).
    exists rules. repeat split; [exact E|exact C|exact Ln|]. intros w i e p x r A H1 H2 H3 H4. rewrite (M w i e p x r A H1 H2 H3 H4). cbn [meaning]. f_equal. apply cx_ext; cbn; ring.
  Qed.
  Lemma conditional_spec condition c elems values : el_symbol condition = Some c -> canonical t lt c -> length elems <= length values -> Forall (known lt) elems ->
    exists rules, conditional_value_rules (append lt) condition elems values = Value rules /\ Forall (canonical t lt) rules /\ length rules = length elems /\
      forall w i e p x r, assignment t w -> nth_error elems i = Some e -> el_symbol e = Some p -> nth_error values i = Some x -> nth_error rules i = Some r ->
        value w r = csub (value w p) (cmul (creal x) (value w c)).
  Proof.
    intros Ec Cc L K. unfold conditional_value_rules. rewrite Ec.
    exact (value_rules_spec t lt TO STS (Some c) elems (fun p H => eq_ind _ (canonical t lt) Cc _ (f_equal (fun o => match o with Some x => x | None => c end) H)) (known_canonical elems K) values L (known_some elems K)).
  Qed.
  Lemma missing_throws condition elems values : length elems <= length values ->
    (Exists (fun e => el_symbol e = None) elems -> explicit_value_rules (append lt) elems values = Throws /\ conditional_value_rules (append lt) condition elems values = Throws)
    /\ (el_symbol condition = None -> conditional_value_rules (append lt) condition elems values = Throws).
  Proof.
    intro L. unfold explicit_value_rules, conditional_value_rules. split.
    - intro E. split; [now apply value_rules_throw|]. destruct (el_symbol condition); [now apply value_rules_throw|reflexivity].
    - intros ->. reflexivity.
  Qed.
End Rules.

(* the cases *)
Ltac small_dims := repeat match goal with |- _ /\ _ => split end; try reflexivity; repeat constructor; try reflexivity.
Lemma sc3_case (R : rfield) : Forall (Forall (fun m => 0 < fst m)) sc3 /\ small (map cg_dim sc3) /\ consistent sc3 (detP R)
  /\ joint sc3 [Some (1, 2); Some (0, 2)] /\ entries sc3 (detP R) (fun n => bit R (value_bits sc3 n)).
Proof.
  split; [repeat constructor|]. split; [vm_compute; reflexivity|]. split; [apply det_consistent, det_ok_by; vm_compute; reflexivity|].
  split; [repeat constructor; eexists _, _; (split; [reflexivity|repeat constructor])|]. apply entries_by. vm_compute. reflexivity.
Qed.
Lemma sc3_symbols (R : rfield) : let t := real_table 20 in let sym := sym_at 20 None in let w := fun n => bit R (value_bits sc3 n) in
  (forall o id, sym o = Some id -> id < length (t_syms t)) /\ symbol_entries sc3 (detP R) sym w /\ assignment t w /\ term_order (R := R) t id_less /\ sorts (R := R) t id_less (isort id_less) /\
  forall es, joint_operator sc3 es -> sym (N.of_nat (cg_position sc3 es)) <> None.
Proof.
  cbv zeta. split; [intros o id; apply sym_in_table|]. split; [apply symbols_by; vm_compute; reflexivity|]. split; [apply real_assignment; vm_compute; reflexivity|].
  split; [apply id_less_order|]. split; [apply isort_sorts, id_less_order|]. intros es J.
  destruct (known_by sc3 (sym_at 20 None) ltac:(vm_compute; reflexivity) es J) as (id & ->). discriminate.
Qed.
Definition tri_choice : list nat := [1; 2; 1].
Lemma tri_case (R : rfield) : all_binary tri2 /\ Forall2 (fun (p : party) c => c <= length p) tri2 tri_choice /\ small (map cg_dim tri2) /\ consistent tri2 (detP R)
  /\ entries tri2 (detP R) (fun n => bit R (value_bits tri2 n)) /\ detP R (map (fun _ => None) tri2) = c1.
Proof.
  split; [repeat constructor|]. split; [repeat constructor|]. split; [vm_compute; reflexivity|]. split; [apply det_consistent, det_ok_by; vm_compute; reflexivity|].
  split; [apply entries_by; vm_compute; reflexivity|reflexivity].
Qed.
Lemma tri_symbols (R : rfield) : let t := real_table 12 in let sym := sym_at 12 None in let w := fun n => bit R (value_bits tri2 n) in
  (forall o id, sym o = Some id -> id < length (t_syms t)) /\ symbol_entries tri2 (detP R) sym w /\ assignment t w /\ starts t /\
  forall es, joint_operator tri2 es -> exists id, sym (N.of_nat (cg_position tri2 es)) = Some (S id).
Proof.
  cbv zeta. split; [intros o id; apply sym_in_table|]. split; [apply symbols_by; vm_compute; reflexivity|]. split; [apply real_assignment; vm_compute; reflexivity|].
  split; [apply real_starts; repeat constructor|]. apply known_by. vm_compute. reflexivity.
Qed.
(* every entry of the CHSH tensor has a symbol, the one of offset 4 being the zero symbol (the strategy gives it probability zero) *)
Definition zero_at (R : rfield) : res (tout (element R)) :=
  make_correlator (map cg_dim chsh2) (sym_at 9 (Some 4)) (isort id_less) (make_poly (real_table 9) (isort id_less)) 10 (map (fun p => S (length p)) chsh2) [1; 1].
Definition no_symbol (R : rfield) (x : res (tout (element R))) : bool :=
  match x with Ret (Value e) => match el_symbol e with None => true | Some _ => false end | _ => false end.
Lemma correlator_zero_refuted : exists (R : rfield) (t : table) (sym : N -> option nat) (srt : list (mono R) -> list (mono R)) sc choice (P : list report -> cx R) w e fuel,
  term_order (R := R) t id_less /\ sorts t id_less srt /\ (forall o id, sym o = Some id -> id < length (t_syms t)) /\
  all_binary sc /\ Forall2 (fun (p : party) c => c <= length p) sc choice /\ small (map cg_dim sc) /\ consistent sc P /\ symbol_entries sc P sym w /\ assignment t w /\ starts t /\ 2 ^ length sc <= fuel /\
  P (map (fun _ => None) sc) = c1 /\
  make_correlator (map cg_dim sc) sym srt (make_poly t srt) fuel (map (fun p => S (length p)) sc) choice = Ret (Value e) /\
  (forall es, joint_operator sc es -> sym (N.of_nat (cg_position sc es)) <> None) /\ el_symbol e = None.
Proof.
  assert (E : no_symbol Qc_rfield (zero_at Qc_rfield) = true) by (vm_compute; reflexivity).
  unfold no_symbol in E. destruct (zero_at Qc_rfield) as [[e| |]| |] eqn:Z; try discriminate. destruct (el_symbol e) eqn:Y; [discriminate|].
  exists Qc_rfield, (real_table 9), (sym_at 9 (Some 4)), (isort id_less), chsh2, [1; 1], (detP _), (fun n => bit _ (value_bits chsh2 n)), e, 10.
  split; [apply id_less_order|]. split; [apply isort_sorts, id_less_order|]. split; [intros o id; apply sym_in_table|]. split; [repeat constructor|].
  split; [repeat constructor|]. split; [vm_compute; reflexivity|]. split; [apply det_consistent, det_ok_by; vm_compute; reflexivity|].
  split; [apply symbols_by; vm_compute; reflexivity|]. split; [apply real_assignment; vm_compute; reflexivity|]. split; [apply real_starts; repeat constructor|].
  split; [repeat constructor|]. split; [reflexivity|]. split; [exact Z|]. split; [|exact Y].
  intros es J. assert (H : forallb (fun es => match sym_at 9 (Some 4) (N.of_nat (cg_position chsh2 es)) with Some _ => true | None => false end) (all_joint chsh2) = true) by (vm_compute; reflexivity).
  rewrite forallb_forall in H. apply joint_in, H in J. destruct (sym_at _ _ _); [discriminate|discriminate J].
Qed.
