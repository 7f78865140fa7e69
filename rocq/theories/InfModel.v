(** Inflation scenarios: scenarios/inflation/{observable,causal_network,inflation_context,inflation_osg}.

    Operator numbers, observables, copies ("variants") and sources are natural numbers.  oper_name_t is int16_t: the conversions
    are exact while the numbers of operators, of copies and of source copies are below 2^15 (not checked by the code).  std::set is
    modelled by its ascending list of members, DynamicBitset by the ascending or unordered list of its set bits (see C35).  Reading
    a table outside its range (undefined behaviour) is modelled by a default value: the theorems only use words of existing
    operators. *)
From Coq Require Import List NArith ZArith Arith Bool.
From Verif Require Import CoreModel AlgModel EnumModel CombModel.
Import ListNotations.

(** * The causal network *)
(** Observable, observable.h:20-60 *)
Record observable := mk_obs { ob_outcomes : nat; ob_sources : list nat; ob_single : bool }.
(** projective, operators, observable.h:50-57; count_copies, count_operators, observable.cpp:17-23 *)
Definition projective (o : observable) : bool := negb (Nat.eqb (ob_outcomes o) 0).
Definition operators (o : observable) : nat := if projective o then ob_outcomes o - 1 else 1.
Definition count_copies (L : nat) (o : observable) : nat := if ob_single o then 1 else L ^ length (ob_sources o).
Definition count_operators (L : nat) (o : observable) : nat := operators o * count_copies L o.
(** flatten_index, observable.cpp:25-34 *)
Fixpoint flatten_from (L base : nat) (indices : list nat) : nat :=
  match indices with [] => 0 | i :: rest => i * base + flatten_from L (base * L) rest end.
Definition flatten_index (L : nat) (indices : list nat) : nat := flatten_from L 1 indices.
(** unflatten_index, observable.cpp:44-62 *)
Fixpoint unflatten (L count index : nat) : list nat :=
  match count with 0 => [] | S count' => index mod L :: unflatten L count' (index / L) end.
Definition unflatten_index (L count index : nat) : list nat := if Nat.eqb L 0 then repeat 0 count else unflatten L count index.

(** CausalNetwork, causal_network.h:44-53; the observables of the sources are only kept for printing *)
Record network := mk_net { nt_obs : list observable; nt_explicit : nat; nt_implicit : nat }.
(** reverse_observable_to_source, causal_network.cpp:57-79 (None: bad_source is thrown) *)
Definition sources_of (srcs : list (list nat)) (o : nat) : list nat :=
  filter (fun s => existsb (Nat.eqb o) (nth s srcs [])) (seq 0 (length srcs)).
Definition in_bounds (n : nat) (srcs : list (list nat)) : bool := forallb (forallb (fun o => o <? n)) srcs.
(** CausalNetwork::CausalNetwork, causal_network.cpp:15-55: observables without sources get implicit sources of their own *)
Fixpoint make_obs (srcs : list (list nat)) (o next_implicit : nat) (outcomes : list nat) : list observable * nat :=
  match outcomes with
  | [] => ([], next_implicit)
  | k :: rest =>
      match sources_of srcs o with
      | [] => let '(obs, next) := make_obs srcs (S o) (S next_implicit) rest in (mk_obs k [next_implicit] true :: obs, next)
      | ss => let '(obs, next) := make_obs srcs (S o) next_implicit rest in (mk_obs k ss false :: obs, next)
      end
  end.
Definition make_network (outcomes : list nat) (srcs : list (list nat)) : option network :=
  if in_bounds (length outcomes) srcs then
    let '(obs, next) := make_obs srcs 0 (length srcs) outcomes in Some (mk_net obs (length srcs) (next - length srcs))
  else None.
(** total_operator_count, causal_network.cpp:82-88; total_source_count, causal_network.h:80-84 *)
Definition total_operators (nt : network) (L : nat) : nat := fold_left (fun t o => t + count_operators L o) (nt_obs nt) 0.
Definition total_sources (nt : network) (L : nat) : nat := nt_explicit nt * L + nt_implicit nt.
(** source_variant_to_global_source, causal_network.h:118-125 *)
Definition global_source (nt : network) (L source copy : nat) : nat :=
  if nt_explicit nt <=? source then nt_explicit nt * L + (source - nt_explicit nt) else source * L + copy.
(** global_source_to_source_variant, causal_network.h:105-112; the first branch is computed modulo 2^64 *)
Definition source_copy (nt : network) (L global : nat) : nat * nat :=
  if nt_explicit nt * L <? global then
    (Z.to_nat ((Z.of_nat global + Z.of_nat (nt_explicit nt) * (1 - Z.of_nat L)) mod 2 ^ 64), 0)
  else (global / L, global mod L).
(** permute_variant (vector), causal_network.cpp:91-115 *)
Definition permute_copy (nt : network) (L : nat) (sources : list nat) (perm : list nat) (indices : list nat) : list nat :=
  map (fun x => let g := global_source nt L (fst x) (snd x) in
                let g' := nth g perm 0 in
                if Nat.eqb g g' then snd x else snd (source_copy nt L g')) (List.combine sources indices).

(** * The context *)
(** ICObservable::Variant, inflation_context.h:88-115, and make_variants, inflation_context.cpp:37-63 *)
Record copy := mk_copy { cp_offset : nat; cp_indices : list nat; cp_sources : list nat }.
Definition make_copy (nt : network) (L offset : nat) (o : observable) (v : nat) : copy :=
  let indices := unflatten_index L (length (ob_sources o)) v in
  mk_copy (offset + v * operators o) indices
          (map (fun x => global_source nt L (fst x) (snd x)) (List.combine (ob_sources o) indices)).
Definition make_copies (nt : network) (L offset : nat) (o : observable) : list copy :=
  map (make_copy nt L offset o) (seq 0 (count_copies L o)).
(** ICObservable, inflation_context.h:85-144; ICOperatorInfo, 34-82 *)
Record icobs := mk_icobs { io_obs : observable; io_offset : nat; io_copy_offset : nat; io_copies : list copy }.
Record opinfo := mk_opinfo { oi_obs : nat; oi_copy : nat; oi_outcome : nat; oi_proj : bool }.
Record ictx := mk_ictx { ic_net : network; ic_level : nat; ic_obs : list icobs; ic_ops : list opinfo; ic_index : list (nat * nat) }.
(** the loop of the constructor, inflation_context.cpp:121-138: observables, operators and global copy indices *)
Fixpoint inflate_from (nt : network) (L id next_op next_copy : nat) (obs : list observable) : list icobs * list opinfo * list (nat * nat) :=
  match obs with
  | [] => ([], [], [])
  | o :: rest =>
      let k := count_copies L o in
      let here := mk_icobs o next_op next_copy (make_copies nt L next_op o) in
      let ops := flat_map (fun v => map (fun a => mk_opinfo id v a (projective o)) (seq 0 (operators o))) (seq 0 k) in
      let '(ios, infos, index) := inflate_from nt L (S id) (next_op + length ops) (next_copy + k) rest in
      (here :: ios, ops ++ infos, map (fun v => (id, v)) (seq 0 k) ++ index)
  end.
Definition inflate (nt : network) (L : nat) : ictx :=
  let '(ios, infos, index) := inflate_from nt L 0 0 0 (nt_obs nt) in mk_ictx nt L ios infos index.

Definition no_obs : icobs := mk_icobs (mk_obs 0 [] true) 0 0 [].
Definition no_copy : copy := mk_copy 0 [] [].
Definition no_info : opinfo := mk_opinfo 0 0 0 false.
Section Context.
  Variable c : ictx.
  Let L := ic_level c.
  Let nt := ic_net c.
  Definition info (op : nat) : opinfo := nth op (ic_ops c) no_info.
  Definition obs_of (op : nat) : icobs := nth (oi_obs (info op)) (ic_obs c) no_obs.
  Definition copy_of (op : nat) : copy := nth (oi_copy (info op)) (io_copies (obs_of op)) no_copy.

  (** operator_number, inflation_context.cpp:542-552; obs_variant_to_index, 554-559; index_to_obs_variant, 561-565 *)
  Definition operator_number (o v a : nat) : nat :=
    io_offset (nth o (ic_obs c) no_obs) + v * operators (io_obs (nth o (ic_obs c) no_obs)) + a.
  Definition copy_index (o v : nat) : nat := io_copy_offset (nth o (ic_obs c) no_obs) + v.
  Definition index_copy (g : nat) : nat * nat := nth g (ic_index c) (0, 0).

  (** IsOrthogonal, inflation_context.h:62-71 *)
  Definition orthogonal (x y : nat) : bool :=
    if negb (Nat.eqb (oi_obs (info x)) (oi_obs (info y))) || negb (Nat.eqb (oi_copy (info x)) (oi_copy (info y))) then false
    else negb (Nat.eqb x y).
  (** std::sort *)
  Fixpoint insert (x : nat) (l : word) : word :=
    match l with [] => [x] | y :: l' => if x <=? y then x :: l else y :: insert x l' end.
  Definition sort_word (w : word) : word := fold_right insert [] w.
  Fixpoint any_orthogonal (w : word) : bool :=
    match w with x :: (y :: _) as w' => orthogonal x y || any_orthogonal w' | _ => false end.
  (** std::unique with the redundancy test, inflation_context.cpp:258-262: an element is dropped if it equals the last one kept *)
  Fixpoint unique_from (last : nat) (w : word) : word :=
    match w with
    | [] => []
    | y :: w' => if Nat.eqb last y && oi_proj (info last) then unique_from last w' else y :: unique_from y w'
    end.
  Definition unique (w : word) : word := match w with [] => [] | x :: w' => x :: unique_from x w' end.
  (** additional_simplification, inflation_context.cpp:241-265; None: the word is zero *)
  Definition simplify (w : word) : option word :=
    let s := sort_word w in if any_orthogonal s then None else Some (unique s).
  Fixpoint is_sorted (w : word) : bool := match w with x :: (y :: _) as w' => (x <=? y) && is_sorted w' | _ => true end.
  (** get_if_canonical, inflation_context.cpp:268-292 *)
  Fixpoint adjacent_ok (w : word) : bool :=
    match w with x :: (y :: _) as w' => negb (orthogonal x y) && negb (oi_proj (info x) && Nat.eqb x y) && adjacent_ok w' | _ => true end.
  Definition if_canonical (w : word) : option word := if is_sorted w then if adjacent_ok w then Some w else None else None.
  (** Context::multiply and conjugate: the constructor simplifies; conjugation reverses (context.cpp:33-50, 71-81) *)
  Definition inf_multiply (a b : word) : option word := simplify (a ++ b).
  Definition inf_conjugate (a : word) : option word := simplify (rev a).

  (** * Moments *)
  (** find_permutation, inflation_context.cpp:355-394.  [scratch] is what the thread-local vector held before; the state is
      next_free_source_variant, done_permutation, the permutation and non_trivial. *)
  Record pstate := mk_pstate { ps_free : list nat; ps_done : list nat; ps_perm : list nat; ps_nontrivial : bool }.
  Definition put (i x : nat) (l : list nat) : list nat := firstn i l ++ match skipn i l with [] => [] | _ :: r => x :: r end.
  Definition perm_source (st : pstate) (source copy : nat) : pstate :=
    let g := L * source + copy in
    if existsb (Nat.eqb g) (ps_done st) then st
    else
      let target := L * source + nth source (ps_free st) 0 in
      mk_pstate (put source (S (nth source (ps_free st) 0)) (ps_free st)) (g :: ps_done st) (put g target (ps_perm st))
                (ps_nontrivial st || negb (Nat.eqb g target)).
  Definition perm_op (st : pstate) (op : nat) : pstate :=
    if ob_single (io_obs (obs_of op)) then st
    else fold_left (fun st x => perm_source st (fst x) (snd x))
                   (rev (List.combine (ob_sources (io_obs (obs_of op))) (cp_indices (copy_of op)))) st.
  Definition find_permutation (scratch : list nat) (w : word) : bool * list nat :=
    let st := fold_left perm_op w (mk_pstate (repeat 0 (nt_explicit nt)) [] scratch false) in
    (ps_nontrivial st, ps_perm st).
  (** can_be_simplified_as_moment, inflation_context.cpp:312-353; can_have_aliases, inflation_context.h:204-206 *)
  Definition can_have_aliases : bool := (1 <? L) && (0 <? nt_explicit nt).
  Fixpoint shifts_source (st : list nat * list nat) (xs : list (nat * nat)) : option (list nat * list nat) :=
    match xs with
    | [] => Some st
    | (source, copy) :: xs' =>
        let g := L * source + copy in
        if existsb (Nat.eqb g) (snd st) then shifts_source st xs'
        else if negb (Nat.eqb g (L * source + nth source (fst st) 0)) then None
        else shifts_source (put source (S (nth source (fst st) 0)) (fst st), g :: snd st) xs'
    end.
  Fixpoint shifts (st : list nat * list nat) (w : word) : bool :=
    match w with
    | [] => false
    | op :: w' =>
        if ob_single (io_obs (obs_of op)) then shifts st w'
        else match shifts_source st (rev (List.combine (ob_sources (io_obs (obs_of op))) (cp_indices (copy_of op)))) with
             | None => true
             | Some st' => shifts st' w'
             end
    end.
  Definition can_be_simplified (w : word) : bool :=
    match w with [] => false | _ => if can_have_aliases then shifts (repeat 0 (nt_explicit nt), []) w else false end.
  (** apply_permutation, inflation_context.cpp:396-424 *)
  Definition permuted_op (perm : list nat) (op : nat) : nat :=
    if ob_single (io_obs (obs_of op)) then op
    else let indices := permute_copy nt L (ob_sources (io_obs (obs_of op))) perm (cp_indices (copy_of op)) in
         cp_offset (nth (flatten_index L indices) (io_copies (obs_of op)) no_copy) + oi_outcome (info op).
  (** simplify_as_moment, inflation_context.cpp:427-463; recursion through apply_permutation while the relabelled word is not sorted.  Zero is [None]. *)
  Fixpoint as_moment (fuel : nat) (scratch : list nat) (w : word) : res (option word) :=
    match fuel with
    | 0 => NoFuel
    | S fuel' =>
        match w with
        | [] => Ret (Some [])
        | _ =>
            let '(nontrivial, perm) := find_permutation scratch w in
            if nontrivial then
              let w' := map (permuted_op perm) w in
              if is_sorted w' then Ret (simplify w')
              else match simplify w' with None => Ret None | Some s => as_moment fuel' perm s end
            else Ret (Some w)
        end
    end.
  (** canonical_moment, inflation_context.h:255-261 *)
  Definition canonical_moment (fuel : nat) (scratch : list nat) (w : word) : res (option word) :=
    if can_have_aliases then as_moment fuel scratch w else Ret (Some w).

  (** * Factors *)
  Definition sources_meet (a b : list nat) : bool := existsb (fun s => existsb (Nat.eqb s) b) a.
  (** Variant::independent, inflation_context.cpp:72-82 *)
  Definition independent (x y : copy) : bool :=
    match cp_sources x with [] => negb (Nat.eqb (cp_offset x) (cp_offset y)) | _ => negb (sources_meet (cp_sources x) (cp_sources y)) end.
  (** the for loop of factorize, inflation_context.cpp:206-230: the first remaining operator that shares a source *)
  Fixpoint take_linked (included : list nat) (rest : word) : option (nat * word) :=
    match rest with
    | [] => None
    | op :: rest' =>
        if sources_meet included (cp_sources (copy_of op)) then Some (op, rest')
        else match take_linked included rest' with Some (x, r) => Some (x, op :: r) | None => None end
    end.
  (** the inner while loop: [fuel] bounds the operators left *)
  Fixpoint grow (fuel : nat) (opers : word) (included : list nat) (rest : word) : word * word :=
    match fuel with
    | 0 => (opers, rest)
    | S fuel' =>
        match take_linked included rest with
        | None => (opers, rest)
        | Some (op, rest') => grow fuel' (opers ++ [op]) (included ++ cp_sources (copy_of op)) rest'
        end
    end.
  Fixpoint split (fuel : nat) (rest : word) : list (option word) :=
    match fuel with
    | 0 => []
    | S fuel' =>
        match rest with
        | [] => []
        | op :: rest' => let '(opers, rest'') := grow (length rest') [op] (cp_sources (copy_of op)) rest' in
                         simplify opers :: split fuel' rest''
        end
    end.
  (** factorize, inflation_context.cpp:167-239: the checklist of positions is modelled by the operators at these positions *)
  Definition factorize (w : word) : list (option word) :=
    if length w <=? 1 then [Some w] else split (length w) w.

  (** * The dictionary *)
  (** InflationOperatorSequenceGenerator, inflation_osg.cpp:15-113.  In the completely projective case equal neighbours do not occur. *)
  Definition all_projective : bool := forallb (fun io => projective (io_obs io)) (ic_obs c).
  Fixpoint no_orthogonal (w : word) : bool := match w with x :: (y :: _) as w' => negb (orthogonal x y) && no_orthogonal w' | _ => true end.
  Definition words_of_length (fuel len : nat) : res (list word) :=
    if all_projective then
      match tri_run false fuel (length (ic_ops c)) len with Ret l => Ret (filter no_orthogonal l) | Err => Err | NoFuel => NoFuel end
    else
      match tri_run true fuel (length (ic_ops c)) len with Ret l => Ret (filter adjacent_ok l) | Err => Err | NoFuel => NoFuel end.
  Fixpoint inf_words (fuel : nat) (levels : list nat) : res (list word) :=
    match levels with
    | [] => Ret []
    | k :: ls => match words_of_length fuel k with
                 | Ret a => match inf_words fuel ls with Ret b => Ret (a ++ b) | e => e end
                 | e => e
                 end
    end.
  Definition inf_osg (fuel level : nat) : res (list word) :=
    match inf_words fuel (seq 1 level) with Ret l => Ret ([] :: l) | e => e end.

  (** * Joint outcomes *)
  (** flatten_outcome_index, inflation_context.cpp:499-540 (None: bad_observable is thrown); unflatten_outcome_index, 465-496.  An index is
      ((observable, copy), outcome).  The test of the observable in unflatten is [>] (kept): [None] for that exception, and an
      observable equal to the number of observables is read outside the table; a non-projective observable (no outcomes) divides by
      zero (both modelled: [Some None]). *)
  Fixpoint flatten_outcomes_from (stride acc : nat) (xs : list (nat * nat * nat)) : option nat :=
    match xs with
    | [] => Some acc
    | (o, v, a) :: xs' =>
        if length (ic_obs c) <=? o then None
        else if length (io_copies (nth o (ic_obs c) no_obs)) <=? v then None
        else if ob_outcomes (io_obs (nth o (ic_obs c) no_obs)) <=? a then None
        else flatten_outcomes_from (stride * ob_outcomes (io_obs (nth o (ic_obs c) no_obs))) (acc + stride * a) xs'
    end.
  Definition flatten_outcomes (xs : list (nat * nat * nat)) : option nat := flatten_outcomes_from 1 0 (rev xs).
  Fixpoint unflatten_outcomes_from (number : nat) (xs : list (nat * nat)) : list (nat * nat * nat) :=
    match xs with
    | [] => []
    | (o, v) :: xs' =>
        let k := ob_outcomes (io_obs (nth o (ic_obs c) no_obs)) in
        (o, v, number mod k) :: unflatten_outcomes_from (number / k) xs'
    end.
  Definition unflatten_outcomes (xs : list (nat * nat)) (number : nat) : option (option (list (nat * nat * nat))) :=
    if existsb (fun x => length (ic_obs c) <? fst x) xs then None
    else if existsb (fun x => length (ic_obs c) =? fst x) xs || existsb (fun x => ob_outcomes (io_obs (nth (fst x) (ic_obs c) no_obs)) =? 0) xs
    then Some None
    else Some (Some (rev (unflatten_outcomes_from number (rev xs)))).
End Context.
