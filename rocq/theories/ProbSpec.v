(** Probabilities of joint outcomes, correlators, and functionals of them. *)
From Coq Require Import List NArith Arith Bool.
From Verif Require Import CoreModel FieldModel TensorSpec.
Import ListNotations.

(** A party has measurements; a measurement has a number of outcomes and a mark: [true] if every outcome has an operator of its
    own, [false] if the last outcome has none. *)
Definition party := list (nat * bool).
(** operators of a measurement *)
Definition operators (m : nat * bool) : nat := if snd m then fst m else fst m - 1.
(** What a party reports: nothing, or outcome [a] of its measurement [m]. *)
Notation report := (option (nat * nat)).
Definition possible (p : party) (e : report) : Prop :=
  match e with None => True | Some (m, a) => exists k x, nth_error p m = Some (k, x) /\ a < k end.
(** ... such that the outcome has an operator *)
Definition has_operator (p : party) (e : report) : Prop :=
  match e with None => True | Some (m, a) => exists k x, nth_error p m = Some (k, x) /\ a < operators (k, x) end.
Definition joint (sc : list party) (es : list report) : Prop := Forall2 possible sc es.
Definition joint_operator (sc : list party) (es : list report) : Prop := Forall2 has_operator sc es.

(** Index of a report: 0 for nothing, then all outcomes of the first measurement, of the second ... ; and the same counting only the
    outcomes with an operator. *)
Definition full_place (p : party) (e : report) : nat :=
  match e with None => 0 | Some (m, a) => 1 + list_sum (map fst (firstn m p)) + a end.
Definition cg_place (p : party) (e : report) : nat :=
  match e with None => 0 | Some (m, a) => 1 + list_sum (map operators (firstn m p)) + a end.
Definition full_dim (p : party) : nat := 1 + list_sum (map fst p).
Definition cg_dim (p : party) : nat := 1 + list_sum (map operators p).
Definition places (f : party -> report -> nat) (sc : list party) (es : list report) : list nat :=
  map (fun x => f (fst x) (snd x)) (List.combine sc es).
(** offset in the Collins-Gisin tensor *)
Definition cg_position (sc : list party) (es : list report) : nat :=
  column_position (map cg_dim sc) (places cg_place sc es).

Section Values.
  Context {R : rfield}.
  Fixpoint csum (l : list (cx R)) : cx R := match l with [] => c0 | x :: l' => cadd x (csum l') end.
  (** Summing the probabilities of all outcomes of one party's measurement removes that party's report (normalisation and
      no-signalling in one). *)
  Definition consistent (sc : list party) (P : list report -> cx R) : Prop :=
    forall before p after es fs m k x, sc = before ++ p :: after -> joint before es -> joint after fs -> nth_error p m = Some (k, x) ->
      csum (map (fun a => P (es ++ Some (m, a) :: fs)) (seq 0 k)) = P (es ++ None :: fs).
  (** [v n] (n from 1) is the value of the entry of the Collins-Gisin tensor at offset [n - 1] *)
  Definition entries (sc : list party) (P : list report -> cx R) (v : nat -> cx R) : Prop :=
    forall es, joint_operator sc es -> v (S (cg_position sc es)) = P es.
  (** ... [w] gives values to symbols, and the entry at offset [o] has the symbol [sym o] (if any) *)
  Definition symbol_entries (sc : list party) (P : list report -> cx R) (sym : N -> option nat) (w : nat -> cx R) : Prop :=
    forall es id, joint_operator sc es -> sym (N.of_nat (cg_position sc es)) = Some id -> w id = P es.

  (** The correlator of a choice of binary measurements (index 0: no measurement; n + 1: measurement n): outcome 0 counts +1,
      outcome 1 counts -1. *)
  Fixpoint correlator (P : list report -> cx R) (choice : list nat) : cx R :=
    match choice with
    | [] => P []
    | O :: choice' => correlator (fun es => P (None :: es)) choice'
    | S m :: choice' => csub (correlator (fun es => P (Some (m, 0) :: es)) choice') (correlator (fun es => P (Some (m, 1) :: es)) choice')
    end.
  Definition all_binary (sc : list party) : Prop := Forall (fun p => Forall (fun m => m = (2, false)) p) sc.

  (** The linear functional with coefficients [c] (column-major) on a table of values [d0] x [d1] *)
  Fixpoint rtotal (l : list R) : R := match l with [] => r0 R | x :: l' => radd R x (rtotal l') end.
  Definition functional (d0 d1 : nat) (c : list R) (value : nat -> nat -> R) : R :=
    rtotal (map (fun ab => rmul R (nth (fst ab + d0 * snd ab) c (r0 R)) (value (fst ab) (snd ab))) (list_prod (seq 0 d0) (seq 0 d1))).
  (** Values of correlators in terms of Collins-Gisin values (index 0: no measurement), for two parties *)
  Definition two_party_correlator (cg : nat -> nat -> R) (a b : nat) : R :=
    let two := fun x => radd R x x in
    match a, b with
    | O, O => cg 0 0
    | O, S _ => rsub R (two (cg 0 b)) (cg 0 0)
    | S _, O => rsub R (two (cg a 0)) (cg 0 0)
    | S _, S _ => radd R (rsub R (rsub R (two (two (cg a b))) (two (cg a 0))) (two (cg 0 b))) (cg 0 0)
    end.
End Values.
