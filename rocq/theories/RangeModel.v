(** From measurements and outcomes to ranges and elements of tensors: probability/collins_gisin.cpp:167-210,
    scenarios/locality/locality_collins_gisin.cpp:30-115, locality_probability_tensor.cpp:32-118, locality_full_correlator.cpp:35-55,
    scenarios/inflation/inflation_collins_gisin.cpp:41-138, inflation_probability_tensor.cpp:44-130.

    A scenario is a list of parties, a party a list of measurements (outcomes, is every outcome explicit); see [ProbModel].  Measurements are
    asked for by their global number; a request is a number with an outcome, or with none if the outcome is free.  The functions that take a list
    of free measurements and then a list of fixed outcomes run over the first list and then over the second; the function of the base class that takes one list
    with outcomes (free if negative) runs over it in order; the functions without outcomes run over free requests: all are one loop over a list of
    requests.  Outcomes are natural numbers.  A subscript beyond a vector is [Undefined].  The range object and the walk over it are in [TensorModel]. *)
From Coq Require Import List Arith Bool.
From Verif Require Import TensorModel.
Import ListNotations.

(** CollinsGisin::GlobalMmtInfo, LocalityProbabilityTensor's copy of it (collins_gisin.h:127-140): party, offset, length *)
Record gm_info := { gm_party : nat; gm_offset : nat; gm_length : nat }.

(** the table of a party: locality_collins_gisin.cpp:37-45, locality_probability_tensor.cpp:41-46.  [len] is the number of operators of a measurement
    for the first, of outcomes for the second. *)
Fixpoint gm_measurements (len : nat * bool -> nat) (p off : nat) (ms : list (nat * bool)) : list gm_info :=
  match ms with
  | [] => []
  | m :: ms' => {| gm_party := p; gm_offset := off; gm_length := len m |} :: gm_measurements len p (off + len m) ms'
  end.
(** ... and of all parties *)
Fixpoint gm_parties (len : nat * bool -> nat) (p : nat) (sc : list (list (nat * bool))) : list gm_info :=
  match sc with
  | [] => []
  | ms :: sc' => gm_measurements len p 1 ms ++ gm_parties len (S p) sc'
  end.
Definition gm_table (len : nat * bool -> nat) (sc : list (list (nat * bool))) : list gm_info := gm_parties len 0 sc.

(** Measurement::num_operators, measurement.h:44-46 *)
Definition num_operators (m : nat * bool) : nat := if snd m then fst m else fst m - 1.
Definition num_outcomes (m : nat * bool) : nat := fst m.

Definition set_at (l : list nat) (i x : nat) : list nat := firstn i l ++ x :: skipn (S i) l.

(** one turn of the loop: collins_gisin.cpp:171-181 (free), 192-207, locality_collins_gisin.cpp:103-112 (fixed) *)
Definition range_step (gm : list gm_info) (b : list nat * list nat) (q : nat * option nat) : tout (list nat * list nat) :=
  if length gm <? fst q then Throws
  else match nth_error gm (fst q) with
       | None => Undefined
       | Some e =>
         match nth_error (fst b) (gm_party e) with
         | None => Undefined
         | Some (S _) => Throws
         | Some O =>
           match snd q with
           | None => Value (set_at (fst b) (gm_party e) (gm_offset e), set_at (snd b) (gm_party e) (gm_offset e + gm_length e))
           | Some a => Value (set_at (fst b) (gm_party e) (gm_offset e + a), set_at (snd b) (gm_party e) (gm_offset e + a + 1))
           end
         end
       end.
Fixpoint range_steps (gm : list gm_info) (b : list nat * list nat) (qs : list (nat * option nat)) : tout (list nat * list nat) :=
  match qs with [] => Value b | q :: qs' => tbind (range_step gm b q) (fun b' => range_steps gm b' qs') end.
(** measurement_to_range: [n] dimensions; the corners of the range *)
Definition measurement_to_range (gm : list gm_info) (n : nat) (qs : list (nat * option nat)) : tout (list nat * list nat) :=
  range_steps gm (repeat 0 n, repeat 1 n) qs.

(** LocalityProbabilityTensor::outcome_to_element, locality_probability_tensor.cpp:102-118: the index of the element *)
Fixpoint element_steps (gm : list gm_info) (index : list nat) (qs : list (nat * nat)) : tout (list nat) :=
  match qs with
  | [] => Value index
  | (g, a) :: qs' =>
    if length gm <? g then Throws
    else match nth_error gm g with
         | None => Undefined
         | Some e =>
           match nth_error index (gm_party e) with
           | None => Undefined
           | Some (S _) => Throws
           | Some O => element_steps gm (set_at index (gm_party e) (gm_offset e + a)) qs'
           end
         end
  end.
Definition outcome_to_element (gm : list gm_info) (n : nat) (qs : list (nat * nat)) : tout (list nat) := element_steps gm (repeat 0 n) qs.

(** InflationProbabilityTensor::measurement_to_range, inflation_probability_tensor.cpp:52-100: the dimension is the variant's number *)
Definition variant_step (dims : list nat) (b : list nat * list nat) (q : nat * option nat) : tout (list nat * list nat) :=
  if length dims <? fst q then Throws
  else match nth_error (fst b) (fst q) with
       | None => Undefined
       | Some (S _) => Throws
       | Some O =>
         match snd q with
         | None => match nth_error dims (fst q) with
                   | None => Undefined
                   | Some d => Value (set_at (fst b) (fst q) 1, set_at (snd b) (fst q) d)
                   end
         | Some a => Value (set_at (fst b) (fst q) (1 + a), set_at (snd b) (fst q) (2 + a))
         end
       end.
Fixpoint variant_steps (dims : list nat) (b : list nat * list nat) (qs : list (nat * option nat)) : tout (list nat * list nat) :=
  match qs with [] => Value b | q :: qs' => tbind (variant_step dims b q) (fun b' => variant_steps dims b' qs') end.
Definition variant_to_range (dims : list nat) (qs : list (nat * option nat)) : tout (list nat * list nat) :=
  variant_steps dims (repeat 0 (length dims), repeat 1 (length dims)) qs.
(** dimensions of the inflation tensor: inflation_probability_tensor.cpp:16-33; an observable's variant is (outcomes, false) if projective and
    (1, true) if not *)
Definition variant_dims (vs : list (nat * bool)) : list nat := map (fun v => fst v + 1) vs.

(** LocalityFullCorrelator::mmt_to_element, locality_full_correlator.cpp:35-55; a request is (party, measurement); [counts] has the number of
    measurements of each party *)
Fixpoint correlator_steps (counts : list nat) (index : list nat) (qs : list (nat * nat)) : tout (list nat) :=
  match qs with
  | [] => Value index
  | (p, m) :: qs' =>
    if length index <=? p then Throws
    else match nth_error counts p, nth_error index p with
         | Some c, Some x =>
           if negb (x =? 0) then Throws
           else if c <=? m then Throws
           else correlator_steps counts (set_at index p (m + 1)) qs'
         | _, _ => Undefined
         end
  end.
Definition mmt_to_element (counts : list nat) (qs : list (nat * nat)) : tout (list nat) :=
  correlator_steps counts (repeat 0 (length counts)) qs.
