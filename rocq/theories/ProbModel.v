(** Model of probability/probability_tensor.cpp, probability/full_correlator.cpp, probability/polynomial_tensor.cpp and
    scenarios/locality/tensor_conversion.cpp.
    Simplifications: double is an exact real field; symbol numbers are natural numbers, so offsets that do not fit
    symbol_name_t are outside the model. *)
From Coq Require Import List NArith ZArith Arith Bool.
From Verif Require Import CoreModel AlgModel FieldModel SymModel PolyModel EnumModel CombModel TensorModel.
Import ListNotations.
Local Open Scope nat_scope.

(** Results of calls that loop (out of fuel) and may throw or be undefined. *)
Definition pbind {A B} (x : res (tout A)) (f : A -> res (tout B)) : res (tout B) :=
  bind x (fun o => match o with Value a => f a | Throws => Ret Throws | Undefined => Ret Undefined end).
Definition lift {A} (x : tout A) : res (tout A) := Ret x.
Fixpoint pconcat {A B} (f : A -> res (tout (list B))) (l : list A) : res (tout (list B)) :=
  match l with
  | [] => Ret (Value [])
  | a :: l' => pbind (f a) (fun b => pbind (pconcat f l') (fun r => Ret (Value (b ++ r))))
  end.
(** vector::operator[] *)
Definition at_index {A} (l : list A) (i : nat) : tout A := match nth_error l i with Some a => Value a | None => Undefined end.

(** * ProbabilityTensor *)
(** OneDimensionInfo, probability_tensor.h 76-96; [ax_implicit] lists the bits set in [implicit] *)
Record axis := mk_axis { ax_cg : list nat; ax_outcome : list nat; ax_implicit : list nat }.
(** make_dimension_info, probability_tensor.cpp 63-86: the loop over the measurements of one party.  [opm] is what is left of
    outcomesPerMeasurement and fullyExplicit (read in step).  A measurement without outcomes makes the inner loop run 2^64-1
    times, growing the vectors: counted as undefined. *)
Fixpoint axis_mmts (n : nat) (opm : list (nat * bool)) (dim cg : nat) (a : axis) : tout (axis * list (nat * bool)) :=
  match n with
  | O => Value (a, opm)
  | S n' =>
      match opm with
      | [] => Undefined
      | (k, fully_explicit) :: opm' =>
          if Nat.eqb k 0 then Undefined else
          let cgs := ax_cg a ++ seq cg (k - 1) in
          let outs := ax_outcome a ++ seq 0 (k - 1) ++ [k - 1] in
          let cg' := cg + (k - 1) in
          let dim' := dim + k in
          if fully_explicit then axis_mmts n' opm' dim' (S cg') (mk_axis (cgs ++ [cg']) outs (ax_implicit a))
          else axis_mmts n' opm' dim' cg' (mk_axis (cgs ++ [cg]) outs (ax_implicit a ++ [dim' - 1]))
      end
  end.
(** ... 51-88: one axis for each party *)
Fixpoint make_axes (mmts_per_party : list nat) (opm : list (nat * bool)) : tout (list axis) :=
  match mmts_per_party with
  | [] => Value []
  | n :: rest => tbind (axis_mmts n opm 1 1 (mk_axis [0] [0] [])) (fun p => tbind (make_axes rest (snd p)) (fun l => Value (fst p :: l)))
  end.

(** element_info, probability_tensor.cpp 180-203: baseIndex, finalIndex and implicitMmts, from dimension [d] on *)
Fixpoint element_info (d : nat) (axes : list axis) (index : list nat) : tout (list nat * list nat * list nat) :=
  match axes, index with
  | [], _ => Value ([], [], [])
  | _ :: _, [] => Undefined
  | a :: axes', i :: index' =>
      tbind (at_index (ax_cg a) i) (fun base =>
      tbind (at_index (ax_outcome a) i) (fun outcome =>
      tbind (element_info (S d) axes' index') (fun r =>
      let '(b, f, im) := r in
      if Nat.ltb 0 i && existsb (Nat.eqb i) (ax_implicit a) then Value (base :: b, base + outcome :: f, d :: im)
      else Value (base :: b, base + 1 :: f, im))))
  end.

Section Elements.
  Context {R : rfield}.
  Notation mono := (mono R).
  (** The Collins-Gisin tensor as seen from here: its dimensions, and the symbol_id of the entry at an offset (none for -1).
      C48 shows that entries do not depend on how the tensor is stored. *)
  Variable cg_dims : list nat.
  Variable cg_symbol : N -> option nat.
  (** std::sort in Polynomial(storage_t), and the polynomial factory *)
  Variable psort : list mono -> list mono.
  Variable factory : list mono -> list mono.

  (** PolynomialElement, polynomial_tensor.h 22-34; no symbolPolynomial: hasSymbolPoly is false *)
  Record element := mk_element { el_cg : list mono; el_symbol : option (list mono) }.
  (** a term found in the Collins-Gisin tensor: offset, factor, symbol *)
  Definition found : Type := (N * cx R * option nat)%type.
  Definition lookup (offset : N) (f : cx R) : found := (offset, f, cg_symbol offset).
  Definition cg_term (x : found) : mono := mk_mono (S (N.to_nat (fst (fst x)))) false (snd (fst x)).
  (** ... their symbols, if all are known *)
  Fixpoint symbol_terms (l : list found) : option (list mono) :=
    match l with
    | [] => Some []
    | (_, f, s) :: l' => match s, symbol_terms l' with Some id, Some r => Some (mk_mono id false f :: r) | _, _ => None end
    end.

  (** for (rw_idx ...) target[implicitMmts[rw_idx]] = bit ? source : off, probability_tensor.cpp 274-283 *)
  Fixpoint blit (implicit : list nat) (bits : list bool) (source : list nat) (off : nat) (target : list nat) : list nat :=
    match implicit, bits with
    | d :: implicit', b :: bits' => blit implicit' bits' source off (set_nth d (if b then nth d source 0 else off) target)
    | _, _ => target
    end.
  (** the loop over partitions 272-299: cgBase and cgLast are carried along *)
  Fixpoint partition_terms (fuel : nat) (base final implicit : list nat) (s : cx R) (parts : list (list bool)) (cg_base cg_last : list nat)
    : res (tout (list found)) :=
    match parts with
    | [] => Ret (Value [])
    | bits :: parts' =>
        let lo := blit implicit bits base 0 cg_base in
        let hi := blit implicit bits final 1 cg_last in
        bind (mdoi_run fuel true lo hi) (fun cells =>
        pbind (lift (tmap (fun p => tbind (index_to_offset_no_checks true cg_dims (fst p)) (fun o => Value (lookup o s))) cells)) (fun l =>
        pbind (partition_terms fuel base final implicit s parts' lo hi) (fun r => Ret (Value (l ++ r)))))
    end.
  (** do_make_element, probability_tensor.cpp 233-301: all terms, from L to the end *)
  Definition level_terms (fuel : nat) (base final implicit : list nat) (s : cx R) (L : nat) : res (tout (list found)) :=
    if Nat.eqb L 0 then
      pbind (lift (index_to_offset true cg_dims (fold_left (fun x d => set_nth d 0 x) implicit base))) (fun o => Ret (Value [lookup o s]))
    else bind (parts_run fuel (length implicit) L) (fun parts => partition_terms fuel base final implicit s (map snd parts) base final).
  Fixpoint all_levels (fuel : nat) (base final implicit : list nat) (s : cx R) (L left : nat) : res (tout (list found)) :=
    match left with
    | O => Ret (Value [])
    | S left' => pbind (level_terms fuel base final implicit s L) (fun l =>
        pbind (all_levels fuel base final implicit (copp s) (S L) left') (fun r => Ret (Value (l ++ r))))
    end.
  (** do_make_element, probability_tensor.cpp 210-310 *)
  Definition make_probability (fuel : nat) (axes : list axis) (index : list nat) : res (tout element) :=
    pbind (lift (element_info 0 axes index)) (fun info =>
    let '(base, final, implicit) := info in
    if Nat.eqb (length implicit) 0 then
      pbind (lift (index_to_offset true cg_dims base)) (fun o =>
      Ret (Value (mk_element (poly_of_mono (cg_term (lookup o c1)))
                    (match cg_symbol o with Some id => Some (poly_of_mono (mk_mono id false c1)) | None => None end))))
    else pbind (all_levels fuel base final implicit c1 0 (S (length implicit))) (fun l =>
      Ret (Value (mk_element (make_plain psort (map cg_term l)) (option_map factory (symbol_terms l)))))).

  (** explicit_value_rules, probability_tensor.cpp 115-136 and, with a condition, 138-170.  [append] is
      PolynomialFactory::append; Polynomial::Scalar(f) is [f] times symbol 1 (polynomial.h 370-376). *)
  Variable pappend : list mono -> list mono -> list mono.
  Definition scalar (f : cx R) : list mono := poly_of_mono (mk_mono 1 false f).
  Fixpoint value_rules (condition : option (list mono)) (elems : list element) (values : list R) : tout (list (list mono)) :=
    match elems with
    | [] => Value []
    | e :: elems' =>
        match el_symbol e with
        | None => Throws
        | Some p =>
            match values with
            | [] => Undefined
            | x :: values' =>
                let tail := match condition with None => scalar (copp (creal x)) | Some c => scale (copp (creal x)) c end in
                tbind (value_rules condition elems' values') (fun r => Value (pappend p tail :: r))
            end
        end
    end.
  Definition explicit_value_rules (elems : list element) (values : list R) : tout (list (list mono)) := value_rules None elems values.
  Definition conditional_value_rules (condition : element) (elems : list element) (values : list R) : tout (list (list mono)) :=
    match el_symbol condition with None => Throws | Some c => value_rules (Some c) elems values end.

  (** PolynomialTensor::attempt_symbol_resolution, polynomial_tensor.cpp 54-69 *)
  Definition attempt_symbol_resolution (e : element) : element * bool :=
    match symbol_terms (map (fun x => lookup (N.of_nat (m_id x - 1)) (m_f x)) (el_cg e)) with
    | Some l => (mk_element (el_cg e) (Some (factory l)), true)
    | None => (e, false)
    end.

  (** * FullCorrelator, full_correlator.cpp *)
  Definition half : R := rdiv R (r1 R) (radd R (r1 R) (r1 R)).
  Definition two : cx R := creal (radd R (r1 R) (r1 R)).
  Definition minus_half : cx R := creal (ropp R half).
  Fixpoint two_to (n : nat) : cx R := match n with O => c1 | S n' => cmul two (two_to n') end.
  Definition four : cx R := cmul two two.
  Definition one_term (f : cx R) : mono := mk_mono 1 false f.
  (** the symbol test of make_one_party 65 and make_two_party 96: symbol_id > 0 *)
  Definition positive_symbol (o : N) : option nat := match cg_symbol o with Some (S id) => Some (S id) | _ => None end.
  (** make_element_no_checks 34-39 *)
  Definition involved (index : list nat) : list nat := map fst (filter (fun p => Nat.ltb 0 (snd p)) (List.combine (seq 0 (length index)) index)).
  (** make_id 54-59 *)
  Definition make_id : element := mk_element (scalar c1) (Some (scalar c1)).
  (** make_one_party 61-75 *)
  Definition make_one_party (index : list nat) : tout element :=
    tbind (index_to_offset_no_checks true cg_dims index) (fun o =>
    Value (mk_element (make_plain psort [cg_term (lookup o two); one_term (copp c1)])
             (match positive_symbol o with Some id => Some (factory [mk_mono id false two; one_term (copp c1)]) | None => None end))).
  (** make_two_party 77-116 *)
  Definition make_two_party (dim_count party_a party_b : nat) (index : list nat) : tout element :=
    tbind (index_to_offset_no_checks true cg_dims index) (fun ab =>
    let zero := repeat 0 dim_count in
    tbind (index_to_offset true cg_dims (set_nth party_a (nth party_a index 0) zero)) (fun a =>
    tbind (index_to_offset true cg_dims
             (set_nth party_b (nth party_b index 0) (set_nth party_a 0 (set_nth party_a (nth party_a index 0) zero)))) (fun b =>
    Value (mk_element (make_plain psort [cg_term (lookup ab four); cg_term (lookup a (copp two)); cg_term (lookup b (copp two)); one_term c1])
             (match positive_symbol ab, positive_symbol a, positive_symbol b with
              | Some iab, Some ia, Some ib =>
                  Some (factory [mk_mono iab false four; mk_mono ia false (copp two); mk_mono ib false (copp two); one_term c1])
              | _, _, _ => None
              end))))).
  (** make_general 119-163: the middle loop 139-153, [subset] counting down, then the constant term 156 *)
  Definition subset_index (dim_count : nat) (parties index primary : list nat) : list nat :=
    fold_left (fun x i => let d := nth i parties 0 in set_nth d (nth d index 0) x) primary (repeat 0 dim_count).
  Fixpoint middle_terms (fuel : nat) (dims parties index : list nat) (subset : nat) (factor : cx R) : res (tout (list mono)) :=
    match subset with
    | O => Ret (Value [one_term factor])
    | S subset' =>
        bind (parts_run fuel (length parties) subset) (fun parts =>
        pbind (lift (tmap (fun p => tbind (index_to_offset_no_checks true dims (subset_index (length dims) parties index (fst (fst p))))
                                     (fun o => Value (cg_term (lookup o factor)))) parts)) (fun l =>
        pbind (middle_terms fuel dims parties index subset' (cmul factor minus_half)) (fun r => Ret (Value (l ++ r)))))
    end.
  Definition make_general (fuel : nat) (dims parties index : list nat) : res (tout element) :=
    let n := length parties in
    pbind (lift (index_to_offset_no_checks true dims index)) (fun o =>
    pbind (middle_terms fuel dims parties index (n - 1) (cmul (two_to n) minus_half)) (fun r =>
    Ret (Value (fst (attempt_symbol_resolution (mk_element (make_plain psort (cg_term (lookup o (two_to n)) :: r)) None)))))).
  (** make_element_no_checks 32-52; [dims] are the dimensions of the correlator tensor itself *)
  Definition make_correlator (fuel : nat) (dims index : list nat) : res (tout element) :=
    match involved index with
    | [] => Ret (Value make_id)
    | [_] => lift (make_one_party index)
    | [a; b] => lift (make_two_party (length dims) a b index)
    | parties => make_general fuel dims parties index
    end.
End Elements.
Arguments element R : clear implicits.
Arguments found R : clear implicits.

(** * TensorConvertor, scenarios/locality/tensor_conversion.cpp *)
Section Convert.
  Context {R : rfield}.
  Notation "x + y" := (radd R x y). Notation "x * y" := (rmul R x y). Notation "x - y" := (rsub R x y). Notation "x / y" := (rdiv R x y).
  Definition r2 : R := radd R (r1 R) (r1 R).
  Definition r4 : R := radd R r2 r2.
  Definition rsum (l : list R) : R := fold_left (radd R) l (r0 R).
  (** The two parties' dimensions; entries of the input are read through index_to_offset, which is exact for these indices (C41).
      [input a b] is the entry at index {a, b}.
      alice_marginals and bob_marginals, 33-60 (the loops add the entries in increasing order of the other index). *)
  Definition alice (d1 : nat) (input : nat -> nat -> R) (a : nat) : R := rsum (map (fun b => input a b) (seq 1 (d1 - 1))).
  Definition bob (d0 : nat) (input : nat -> nat -> R) (b : nat) : R := rsum (map (fun a => input a b) (seq 1 (d0 - 1))).
  (** central_sum, 63 *)
  Definition central (d0 d1 : nat) (input : nat -> nat -> R) : R := rsum (map (alice d1 input) (seq 1 (d0 - 1))).
  (** cg_to_fc_matrix, 29-91 *)
  Definition cg_to_fc (d0 d1 : nat) (input : nat -> nat -> R) (a b : nat) : R :=
    match a, b with
    | O, O => input 0%nat 0%nat + alice d1 input 0 / r2 + bob d0 input 0 / r2 + central d0 d1 input / r4
    | S _, O => input a 0%nat / r2 + alice d1 input a / r4
    | O, S _ => input 0%nat b / r2 + bob d0 input b / r4
    | S _, S _ => input a b / r4
    end.
  (** fc_to_cg_matrix, 93-154 *)
  Definition fc_to_cg (d0 d1 : nat) (input : nat -> nat -> R) (a b : nat) : R :=
    match a, b with
    | O, O => input 0%nat 0%nat + central d0 d1 input - alice d1 input 0 - bob d0 input 0
    | S _, O => r2 * input a 0%nat - r2 * alice d1 input a
    | O, S _ => r2 * input 0%nat b - r2 * bob d0 input b
    | S _, S _ => r4 * input a b
    end.
  (** full_correlator_to_collins_gisin 174-186 and collins_gisin_to_full_correlator 188-200, after the checks of the constructor
      157-172.  [opm] are the outcomes of all measurements, [mpp] the numbers of measurements of the parties; a binary
      measurement has one operator.  Offsets are column-major (tensor_conversion.h 27). *)
  Definition read (d0 : nat) (data : list R) (a b : nat) : R := nth (a + d0 * b)%nat data (r0 R).
  Definition convert (to_cg : bool) (opm mpp : list nat) (data : list R) : tout (list R) :=
    if negb (forallb (fun k => Nat.eqb k 2) opm) then Throws
    else match mpp with
         | [m0; m1] =>
             let d0 := S m0 in let d1 := S m1 in
             if negb (N.eqb (N.of_nat (length data)) (element_count [d0; d1])) then Throws
             else Value (map (fun o => (if to_cg then fc_to_cg else cg_to_fc) d0 d1 (read d0 data) (o mod d0) (o / d0)%nat) (seq 0 (length data)))
         | _ => Throws
         end.
End Convert.
