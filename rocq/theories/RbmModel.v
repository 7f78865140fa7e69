(** Exporting a moment rulebook as a matrix: symbolic/rules/moment_rulebook_to_basis.{h,cpp}.  Numbers are exact, so
    "approximately real" is real. *)
From Coq Require Import List NArith Arith Bool.
From Verif Require Import CoreModel FieldModel SymModel PolyModel PolyBasisModel RuleModel.
Import ListNotations.

(** ExportMode, moment_rulebook_to_basis.h:26-31 *)
Inductive export_mode := Rewrite | Homogeneous.

Section Export.
  Context {R : rfield}.
  Notation mono := (mono R).
  Notation rule := (rule R).
  Notation rtriplet := (nat * nat * R)%type.
  Variable t : table.
  (** abs(re) >= abs(im), moment_rulebook_to_basis.cpp:66 *)
  Variable mostly_real : cx R -> bool.
  (** RealSymbolCount, ImaginarySymbolCount, moment_rulebook_to_basis.cpp:34-36 *)
  Definition num_real : nat := length (t_real t).
  Definition num_imag : nat := length (t_imag t).
  (** add_triplet_row with one list of triplets, polynomial_to_basis.cpp:306-312.  (The code appends the entries of both rows
      alternately; here those of the real row first.  The matrix is the sum of the entries.) *)
  Definition add_row (zre zim : option nat) (p : list mono) : option (list rtriplet) :=
    match triplets t true zre zim p with Some (a, b) => Some (a ++ b) | None => None end.
  (** the direction is neither real nor imaginary, moment_rulebook_to_basis.cpp:57-86: entries, and rows marked in the two masks.
      Polynomial::pop_back of an empty polynomial is undefined behaviour: [None] *)
  Definition mixed_rows (re im : nat) (e : cx R) (rhs : list mono) : option (list rtriplet * list nat * list nat) :=
    if Nat.ltb (length rhs) 2 then None
    else
      let p := scale (cconj e) (removelast (removelast rhs)) in
      if mostly_real e then
        match add_row (Some re) None (scale (creal (rdiv R (r1 R) (cre e))) p) with
        | Some l => Some (l ++ [(re, num_real + im, rdiv R (ropp R (cim e)) (cre e))], [re], [])
        | None => None
        end
      else
        match add_row (Some (num_real + im)) None (scale (creal (rdiv R (r1 R) (cim e))) p) with
        | Some l => Some (l ++ [(num_real + im, re, rdiv R (ropp R (cre e)) (cim e))], [], [im])
        | None => None
        end.
  Definition index_list (k : option nat) : list nat := match k with Some k => [k] | None => [] end.
  (** the body of the loop, moment_rulebook_to_basis.cpp:45-99.  Marking row -1 of a mask is undefined behaviour, unknown symbols
      throw: both are [None] *)
  Definition rule_rows (r : rule) : option (list rtriplet * list nat * list nat) :=
    let re := re_index t (ru_lhs r) in
    let im := im_index t (ru_lhs r) in
    if ru_partial r then
      if is_real (ru_dir r) then
        match re with
        | Some k => match add_row re None (ru_rhs r) with Some l => Some (l, [k], []) | None => None end
        | None => None
        end
      else if is_imaginary (ru_dir r) then
        match im with
        | Some k => match add_row None im (ru_rhs r) with Some l => Some (l, [], [k]) | None => None end
        | None => None
        end
      else match re, im with
           | Some a, Some b => mixed_rows a b (ru_dir r) (ru_rhs r)
           | _, _ => None
           end
    else match add_row re im (ru_rhs r) with Some l => Some (l, index_list re, index_list im) | None => None end.
  (** the loop over the rules, moment_rulebook_to_basis.cpp:38-100; a mask is the list of the rows set in it *)
  Fixpoint all_rows (rules : list rule) : option (list rtriplet * list nat * list nat) :=
    match rules with
    | [] => Some ([], [], [])
    | r :: rules' =>
        match rule_rows r, all_rows rules' with
        | Some (l, a, b), Some (l', a', b') => Some (l ++ l', a ++ a', b ++ b')
        | _, _ => None
        end
    end.
  (** iterating over a mask of [n] bits, or over its inverse; each row given gets a diagonal entry, 102-122 *)
  Definition bits (n : nat) (wanted : bool) (mask : list nat) : list nat :=
    filter (fun k => Bool.eqb (existsb (Nat.eqb k) mask) wanted) (seq 0 n).
  Definition diagonal (offset : nat) (w : R) (rows : list nat) : list rtriplet := map (fun k => (offset + k, offset + k, w)) rows.
  (** operator(), moment_rulebook_to_basis.cpp:30-128: the triplets given to setFromTriplets, which adds up entries with the same
      row and column *)
  Definition rulebook_matrix (mode : export_mode) (rules : list rule) : option (list rtriplet) :=
    match all_rows rules with
    | Some (l, a, b) =>
        Some (match mode with
              | Rewrite => l ++ diagonal 0 (r1 R) (bits num_real false a) ++ diagonal num_real (r1 R) (bits num_imag false b)
              | Homogeneous => l ++ diagonal 0 (ropp R (r1 R)) (bits num_real true a) ++ diagonal num_real (ropp R (r1 R)) (bits num_imag true b)
              end)
    | None => None
    end.
End Export.
