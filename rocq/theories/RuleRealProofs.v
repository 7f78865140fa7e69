(** The real numbers are a number system with the square roots that completion needs. *)
From Coq Require Import List NArith ZArith Arith Bool Sorted Permutation Lia Reals Lra.
From Verif Require Import CoreModel FieldModel FieldProofs SymModel SymSpec PolyModel PolySpec PolyProofs PolyTableProofs PolyWitnessProofs RuleModel RuleSpec.
Import ListNotations.
Local Open Scope R_scope.

Definition real_eqb (a b : R) : bool := if Req_EM_T a b then true else false.
Lemma real_eqb_spec a b : real_eqb a b = true <-> a = b.
Proof. unfold real_eqb. destruct (Req_EM_T a b); split; auto; discriminate. Qed.
Lemma real_real (a b : R) : a * a + b * b = 0 -> a = 0.
Proof. intro H. nra. Qed.
Definition R_rfield : rfield := mk_rfield R 0 1 Rplus Rmult Rminus Ropp Rdiv Rinv Rfield real_eqb real_eqb_spec real_real.
Definition real_pos (x : R_rfield) : bool := if Rlt_dec 0 x then true else false.
Definition unit_sqrt (z : cx R_rfield) : option (cx R_rfield) :=
  if Req_EM_T (cnorm z) 1 then Some (mk_cx (R := R_rfield) (sqrt ((1 + cre z) / 2)) (if Rle_dec 0 (cim z) then sqrt ((1 - cre z) / 2) else - sqrt ((1 - cre z) / 2))) else None.
Lemma unit_sqrt_ok z s : unit_sqrt z = Some s -> cmul s s = z /\ (cnorm z = 1 -> cnorm s = 1).
Proof.
  unfold unit_sqrt. destruct (Req_EM_T (cnorm z) 1) as [N|N]; [|discriminate]. intro H. injection H as <-. destruct z as [a b]. unfold cnorm in N. cbn in *.
  assert (A : 0 <= (1 + a) / 2) by nra. assert (B : 0 <= (1 - a) / 2) by nra.
  assert (SA := sqrt_sqrt _ A). assert (SB := sqrt_sqrt _ B). assert (PA := sqrt_pos ((1 + a) / 2)). assert (PB := sqrt_pos ((1 - a) / 2)).
  set (x := sqrt ((1 + a) / 2)) in *. set (y := sqrt ((1 - a) / 2)) in *.
  assert (E : (2 * (x * y)) * (2 * (x * y)) = b * b). { replace (2 * (x * y) * (2 * (x * y))) with (4 * (x * x) * (y * y)) by ring. rewrite SA, SB. nra. }
  assert (P : 0 <= x * y) by (apply Rmult_le_pos; assumption). split.
  - destruct (Rle_dec 0 b) as [Q|Q]; unfold cmul; cbn; f_equal; try nra.
  - intros _. unfold cnorm. cbn. destruct (Rle_dec 0 b); nra.
Qed.
Definition FR : factory R_rfield := mk_factory t8 id_less (isort id_less) (isort id_less) real_pos unit_sqrt.
Lemma FR_ok : factory_ok FR.
Proof.
  constructor; cbn [fa_table fa_lt fa_sort fa_idsort fa_pos fa_sqrt FR].
  - apply id_less_order.
  - intros x y _ _ E L. unfold id_less. rewrite E. apply Nat.ltb_lt in L. now rewrite L.
  - apply isort_sorts, id_less_order.
  - apply isort_sorts, id_less_order.
  - apply t8_good.
  - apply t8_good.
  - unfold real_pos. cbn. split; [destruct (Rlt_dec 0 1); [reflexivity|lra]|destruct (Rlt_dec 0 (- (1))); [lra|reflexivity]].
  - exact unit_sqrt_ok.
Qed.
Lemma FR_roots : has_roots FR.
Proof. intros z N. cbn in *. unfold unit_sqrt. destruct (Req_EM_T (cnorm z) 1) as [_|Q]; [discriminate|contradiction]. Qed.
(** X6 + (3 + 4i)/5 X6* = 0: completing it needs a square root *)
Definition eqR : list (mono R_rfield) := [mk_mono 6 false c1; mk_mono 6 true (mk_cx (R := R_rfield) (3 / 5) (4 / 5))].
Lemma eqR_canonical : canonical t8 id_less eqR.
Proof.
  constructor.
  - constructor; [constructor; constructor|]. constructor; [reflexivity|constructor].
  - intros x [<-|[<-|[]]]; (split; [apply Nat.ltb_lt; vm_compute; reflexivity|]); (split; [cbn|split; [discriminate|]]).
    + apply (c1_neq_0 R_rfield).
    + cbn. intros [H|H]; vm_compute in H; discriminate.
    + intro H. apply (f_equal cre) in H. cbn in H. lra.
    + cbn. intros [H|H]; vm_compute in H; discriminate.
Qed.
Lemma eqR_session : session FR (fun l => l) (set_raw (new_rulebook false) [eqR]) [eqR] /\ locked (set_raw (new_rulebook false) [eqR]) = false.
Proof.
  split; [|reflexivity]. apply (s_add FR _ (new_rulebook false) [] [eqR] _ 0); [constructor|constructor; [exact eqR_canonical|constructor]|reflexivity].
Qed.
