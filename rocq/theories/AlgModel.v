(** Model of the algebraic scenario's rewriting engine:
    scenarios/algebraic/{operator_rule,operator_rulebook,algebraic_precontext,algebraic_context}. *)
From Coq Require Import List ZArith NArith Arith Bool.
From Verif Require Import CoreModel.
Import ListNotations.

(** Outcome of a C++ call: a value, an exception (or the undefined behaviour the exception's check is meant to catch),
    or "did not finish within the given number of loop iterations". *)
Inductive res (A : Type) := Ret (a : A) | Err | NoFuel.
Arguments Ret {A} a.
Arguments Err {A}.
Arguments NoFuel {A}.
Definition bind {A B} (x : res A) (f : A -> res B) : res B :=
  match x with Ret a => f a | Err => Err | NoFuel => NoFuel end.

(* ------------------------------------------------------------------------------------------------ precontext *)
(** AlgebraicPrecontext::ConjugateMode, algebraic_precontext.h:25-32 *)
Inductive conj_mode := SelfAdjoint | Bunched | Interleaved.
(** AlgebraicPrecontext, algebraic_precontext.h:16-44: raw_operators and the mode; num_operators is derived (h:39). *)
Record precontext := mk_pc { pc_raw : nat; pc_mode : conj_mode }.
Definition pc_num (pc : precontext) : nat := match pc_mode pc with SelfAdjoint => pc_raw pc | _ => 2 * pc_raw pc end.
(** hasher{num_operators}, algebraic_precontext.h:42 *)
Definition pc_radix (pc : precontext) : N := N.of_nat (pc_num pc).
Definition pc_hash (pc : precontext) (w : word) : N := hash (pc_radix pc) w.
(** op ^ 0x1 *)
Definition xor1 (o : nat) : nat := if Nat.even o then o + 1 else o - 1.
(** conjugate of one operator, algebraic_precontext.cpp:25, 31, 37 *)
Definition conj_op (pc : precontext) (o : nat) : nat :=
  match pc_mode pc with
  | SelfAdjoint => o
  | Bunched => (o + pc_raw pc) mod pc_num pc
  | Interleaved => xor1 o
  end.
(** AlgebraicPrecontext::conjugate(sequence_storage_t), algebraic_precontext.cpp:11-43 *)
Definition conj_word (pc : precontext) (w : word) : word := map (conj_op pc) (rev w).
(** AlgebraicPrecontext::conjugate(HashedSequence), algebraic_precontext.cpp:45-50 *)
Definition conj_hs (pc : precontext) (q : hseq) : hseq :=
  if hs_zero q then hseq_const true
  else hseq_make (pc_radix pc) (conj_word pc (hs_ops q)) (sconj (hs_sign q)).

(* ------------------------------------------------------------------------------------------------ OperatorRule *)
(** OperatorRule, operator_rule.h:44-48; delta is recomputed from the lengths. *)
Record rule := mk_rule0 { rl_lhs : hseq; rl_rhs : hseq; rl_trivial : bool; rl_zero : bool }.
Definition set_sign (q : hseq) (s : sign) : hseq := mk_hseq (hs_hash q) (hs_ops q) s.
(** rule_sign, operator_rule.h:93-95 *)
Definition rule_sign (rl : rule) : sign := hs_sign (rl_rhs rl).

(** OperatorRule::OperatorRule, operator_rule.cpp:70-88; [Err] = invalid_rule *)
Definition make_rule (l r : hseq) : res rule :=
  let r' := set_sign r (sdiff (hs_sign l) (hs_sign r)) in
  let l' := set_sign l SPos in
  let trivial := N.eqb (hs_hash l') (hs_hash r') && negb (hs_negated r') in
  if N.ltb (hs_hash l') (hs_hash r') then Err
  else Ret (mk_rule0 l' r' trivial (hs_zero r)).

(** OperatorRule::apply_match_with_hint, operator_rule.cpp:90-125.  [hint] is the offset of the iterator.
    [Err] = errors::bad_hint, or a hint so close to the end that hint + |LHS| passes the end (undefined behaviour). *)
Definition apply_match (rl : rule) (input : word) (hint : nat) : res word :=
  if rl_zero rl then Ret []
  else
    let new_size := (Z.of_nat (length input) + (Z.of_nat (length (hs_ops (rl_rhs rl))) - Z.of_nat (length (hs_ops (rl_lhs rl)))))%Z in
    if Z.leb new_size 0 then (if Z.ltb new_size 0 then Err else Ret [])
    else if Nat.ltb (length input) (hint + length (hs_ops (rl_lhs rl))) then Err
    else
      let output := firstn hint input ++ hs_ops (rl_rhs rl) ++ skipn (hint + length (hs_ops (rl_lhs rl))) input in
      if Z.eqb (Z.of_nat (length output)) new_size then Ret output else Err.

(** OperatorRule::combine, operator_rule.cpp:158-210; [Ret None] = nullopt *)
Definition combine (pc : precontext) (a b : rule) : res (option rule) :=
  let ov := suffix_prefix_overlap (hs_ops (rl_lhs a)) (hs_ops (rl_lhs b)) in
  if Nat.leb ov 0 then Ret None
  else
    let joined := firstn (length (hs_ops (rl_lhs a)) - ov) (hs_ops (rl_lhs a)) ++ hs_ops (rl_lhs b) in
    bind (apply_match a joined 0) (fun via_a =>
    let ha := if rl_zero a then 0%N else pc_hash pc via_a in
    bind (apply_match b joined (length joined - length (hs_ops (rl_lhs b)))) (fun via_b =>
    let hb := if rl_zero b then 0%N else pc_hash pc via_b in
    let made :=
      if N.ltb ha hb then
        if N.eqb ha 0 then make_rule (mk_hseq hb via_b SPos) (hseq_const true)
        else make_rule (mk_hseq hb via_b SPos) (mk_hseq ha via_a (sdiff (rule_sign b) (rule_sign a)))
      else
        if N.eqb hb 0 then make_rule (mk_hseq ha via_a SPos) (hseq_const true)
        else make_rule (mk_hseq ha via_a SPos) (mk_hseq hb via_b (sdiff (rule_sign a) (rule_sign b))) in
    bind made (fun rl => Ret (Some rl)))).

(** OperatorRule::conjugate, operator_rule.cpp:212-220 *)
Definition conj_rule (pc : precontext) (rl : rule) : res rule :=
  let l := conj_hs pc (rl_lhs rl) in
  let r := conj_hs pc (rl_rhs rl) in
  if hs_ltb l r then make_rule r l else make_rule l r.

(* ------------------------------------------------------------------------------------------------ OperatorRulebook *)
(** std::map<hash_t, OperatorRule> as a list sorted by key *)
Definition rulemap := list (N * rule).
(** std::map::find *)
Fixpoint map_find (k : N) (m : rulemap) : option rule :=
  match m with [] => None | (k', rl) :: m' => if N.eqb k k' then Some rl else map_find k m' end.
(** std::map::insert: keeps an existing entry *)
Fixpoint map_insert (k : N) (rl : rule) (m : rulemap) : rulemap :=
  match m with
  | [] => [(k, rl)]
  | (k', rl') :: m' => if N.ltb k k' then (k, rl) :: m
                       else if N.eqb k k' then m
                       else (k', rl') :: map_insert k rl m'
  end.
(** std::map::erase *)
Fixpoint map_erase (k : N) (m : rulemap) : rulemap :=
  match m with [] => [] | (k', rl') :: m' => if N.eqb k k' then m' else (k', rl') :: map_erase k m' end.

(** OperatorRulebook: precontext, rules and cached magnitude (operator_rulebook.h) *)
Record rulebook := mk_rb { rb_pc : precontext; rb_rules : rulemap; rb_mag : nat }.
Definition with_rules (rb : rulebook) (m : rulemap) : rulebook := mk_rb (rb_pc rb) m (rb_mag rb).

(** recalculate_magnitude, operator_rulebook.cpp:28-37 (double log2 replaced by the exact ceiling) *)
Definition magnitude (m : rulemap) : nat :=
  match length m with O => 0 | S O => 1 | n => N.to_nat (N.log2_up (N.of_nat n)) end.
Definition recalculate (rb : rulebook) : rulebook := mk_rb (rb_pc rb) (rb_rules rb) (magnitude (rb_rules rb)).

(** enum RawReductionResult, operator_rulebook.h *)
Inductive red := NoMatch | Match | SetToZero.

(** first rule (in key order) that matches somewhere, and where: operator_rulebook.cpp:254-277 *)
Fixpoint iterate_match (m : rulemap) (w : word) : option (rule * nat) :=
  match m with
  | [] => None
  | (_, rl) :: m' => match matches_anywhere (hs_ops (rl_lhs rl)) w with
                     | Some pos => Some (rl, pos)
                     | None => iterate_match m' w
                     end
  end.

(** first substring, in SubstringHashRange order, whose hash is a key: operator_rulebook.cpp:290-312.
    The range always terminates within |w|(|w|+1)/2 increments (C02). *)
Fixpoint search_list (m : rulemap) (l : list (nat * nat * N)) : option (rule * nat) :=
  match l with
  | [] => None
  | (i, _, h) :: l' => match map_find h m with Some rl => Some (rl, i) | None => search_list m l' end
  end.
Definition search_match (radix : N) (m : rulemap) (w : word) : option (rule * nat) :=
  match substring_hashes (length w * (length w + 1)) radix w with
  | Some l => search_list m l
  | None => None
  end.

(** The loop shared by reduce_via_iteration (operator_rulebook.cpp:251-282, [find] = iterate_match, [reset] = true) and
    reduce_via_search (operator_rulebook.cpp:284-321, [find] = search_match, [reset] = false): find a match, stop with
    SetToZero if the rule maps to zero, otherwise replace, multiply the sign and start again. *)
Fixpoint reduce_loop (fuel : nat) (find : word -> option (rule * nat)) (reset : bool)
         (w : word) (s : sign) (matched : bool) : res (red * word * sign) :=
  match find w with
  | None => Ret (if matched then Match else NoMatch, w, s)
  | Some (rl, pos) =>
      if hs_zero (rl_rhs rl) then Ret (SetToZero, w, if reset then SPos else s)
      else match fuel with
           | O => NoFuel
           | S f => bind (apply_match rl w pos) (fun w' => reduce_loop f find reset w' (smul s (rule_sign rl)) true)
           end
  end.

Definition reduce_via_iteration (fuel : nat) (rb : rulebook) (w : word) (s : sign) :=
  reduce_loop fuel (iterate_match (rb_rules rb)) true w s false.
Definition reduce_via_search (fuel : nat) (rb : rulebook) (w : word) (s : sign) :=
  reduce_loop fuel (search_match (pc_radix (rb_pc rb)) (rb_rules rb)) false w s false.

(** reduction_method, operator_rulebook.h:139-145: true = IterateRules *)
Definition use_iteration (rb : rulebook) (len : nat) : bool :=
  Nat.leb (length (rb_rules rb)) ((len + 1) * rb_mag rb / 2).

(** reduce_in_place(sequence_storage_t&, sign&), operator_rulebook.h:195-203 *)
Definition reduce_in_place (fuel : nat) (rb : rulebook) (w : word) (s : sign) : res (red * word * sign) :=
  match w, rb_rules rb with
  | [], _ => Ret (NoMatch, w, s)
  | _, [] => Ret (NoMatch, w, s)
  | _, _ => if use_iteration rb (length w) then reduce_via_iteration fuel rb w s else reduce_via_search fuel rb w s
  end.

(** reduce(HashedSequence), operator_rulebook.cpp:192-221 *)
Definition reduce_hs (fuel : nat) (rb : rulebook) (q : hseq) : res hseq :=
  match hs_ops q, rb_rules rb with
  | [], _ => Ret (hseq_const (hs_zero q))
  | _, [] => Ret q
  | w, _ =>
      bind (if use_iteration rb (length w) then reduce_via_iteration fuel rb w (hs_sign q)
            else reduce_via_search fuel rb w (hs_sign q)) (fun x =>
      match x with
      | (NoMatch, _, _) => Ret q
      | (Match, w', s') => Ret (hseq_make (pc_radix (rb_pc rb)) w' s')
      | (SetToZero, _, _) => Ret (hseq_const true)
      end)
  end.

(** reduce_in_place(HashedSequence&), operator_rulebook.cpp:224-249 *)
Definition reduce_in_place_hs (fuel : nat) (rb : rulebook) (q : hseq) : res (red * hseq) :=
  bind (reduce_in_place fuel rb (hs_ops q) (hs_sign q)) (fun x =>
  match x with
  | (NoMatch, _, _) => Ret (NoMatch, q)
  | (Match, w', s') => Ret (Match, hseq_make (pc_radix (rb_pc rb)) w' s')
  | (SetToZero, _, _) => Ret (SetToZero, mk_hseq 0 [] (hs_sign q))
  end).

(** reduce(OperatorRule), operator_rulebook.cpp:372-397 *)
Definition reduce_rule (fuel : nat) (rb : rulebook) (rl : rule) : res rule :=
  bind (reduce_hs fuel rb (rl_lhs rl)) (fun l =>
  bind (reduce_hs fuel rb (rl_rhs rl)) (fun r =>
  let rel := sdiff (hs_sign l) (hs_sign r) in
  if N.eqb (hs_hash l) (hs_hash r) && sign_eqb rel SNeg then make_rule (set_sign l SPos) (hseq_const true)
  else if N.ltb (hs_hash r) (hs_hash l) then make_rule (set_sign l SPos) (set_sign r rel)
  else make_rule (set_sign r SPos) (set_sign l (sconj rel)))).

(** can_reduce, operator_rulebook.cpp:399-423 *)
Definition can_reduce (rb : rulebook) (w : word) : bool :=
  match w, rb_rules rb with
  | [], _ => false
  | _, [] => false
  | _, m => if use_iteration rb (length w)
            then existsb (fun kr => match matches_anywhere (hs_ops (rl_lhs (snd kr))) w with Some _ => true | None => false end) m
            else match search_match (pc_radix (rb_pc rb)) m w with Some _ => true | None => false end
  end.

(** do_add_rule, operator_rulebook.cpp:58-150.  Returns the new map and the number reported as added. *)
Fixpoint do_add_rule (fuel : nat) (m : rulemap) (rl : rule) : res (rulemap * nat) :=
  match fuel with
  | O => NoFuel
  | S f =>
    if rl_trivial rl then Ret (m, 0)
    else
      let k := hs_hash (rl_lhs rl) in
      match map_find k m with
      | None =>
          if hs_zero (rl_rhs rl) && negb (sign_eqb (rule_sign rl) SPos)
          then bind (make_rule (rl_lhs rl) (rl_rhs rl)) (fun rl' => Ret (map_insert k rl' m, 1))
          else Ret (map_insert k rl m, 1)
      | Some pre =>
          if N.eqb (hs_hash (rl_rhs pre)) (hs_hash (rl_rhs rl)) then
            if sign_eqb (rule_sign rl) (rule_sign pre) then Ret (m, 0)
            else
              bind (make_rule (mk_hseq k (hs_ops (rl_lhs rl)) SPos) (hseq_const true)) (fun l0 =>
              bind (make_rule (mk_hseq (hs_hash (rl_rhs rl)) (hs_ops (rl_rhs rl)) SPos) (hseq_const true)) (fun r0 =>
              do_add_rule f (map_insert k l0 (map_erase k m)) r0))
          else if N.ltb (hs_hash (rl_rhs pre)) (hs_hash (rl_rhs rl)) then
            bind (make_rule (rl_rhs rl) (rl_rhs pre)) (fun b_to_a => do_add_rule f m b_to_a)
          else
            bind (make_rule (rl_rhs pre) (rl_rhs rl)) (fun b_to_a =>
            do_add_rule f (map_insert k rl (map_erase k m)) b_to_a)
      end
  end.

(** add_rules / constructor, operator_rulebook.cpp:21-48 (magnitude recalculated) *)
Fixpoint add_rules_loop (fuel : nat) (m : rulemap) (rules : list rule) (added : nat) : res (rulemap * nat) :=
  match rules with
  | [] => Ret (m, added)
  | rl :: rest => bind (do_add_rule fuel m rl) (fun x => add_rules_loop fuel (fst x) rest (added + snd x))
  end.
Definition add_rules (fuel : nat) (rb : rulebook) (rules : list rule) : res rulebook :=
  bind (add_rules_loop fuel (rb_rules rb) rules 0) (fun x =>
  let rb' := with_rules rb (fst x) in Ret (if Nat.eqb (snd x) 0 then rb' else recalculate rb')).
Definition make_rulebook (fuel : nat) (pc : precontext) (rules : list rule) : res rulebook :=
  bind (add_rules fuel (mk_rb pc [] 0) rules) (fun rb => Ret (recalculate rb)).

Definition rhs_changed (a b : rule) : bool :=
  negb (N.eqb (hs_hash (rl_lhs a)) (hs_hash (rl_lhs b))) || negb (hs_eqb (rl_rhs a) (rl_rhs b)).

(** One turn of the loop of reduce_ruleset, operator_rulebook.cpp:430-465, for the rule with key [k].  Returns the map
    and the increment of number_reduced. *)
Definition reduce_ruleset_step (fuel : nat) (rb : rulebook) (m : rulemap) (k : N) : res (rulemap * nat) :=
  match map_find k m with
  | None => Ret (m, 0)
  | Some isolated =>
      let m' := map_erase k m in
      bind (reduce_rule fuel (with_rules rb m') isolated) (fun reduced =>
      if rl_trivial reduced then Ret (m', 1)
      else Ret (map_insert (hs_hash (rl_lhs reduced)) reduced m', if rhs_changed isolated reduced then 1 else 0))
  end.
(** reduce_ruleset, operator_rulebook.cpp:426-467.  The iterator visits the keys present at the start, in order: a
    reduced rule is re-inserted at a key not above the erased one, i.e. before the iterator (comment at line 439). *)
Fixpoint reduce_ruleset_loop (fuel : nat) (rb : rulebook) (m : rulemap) (keys : list N) (n : nat) : res (rulemap * nat) :=
  match keys with
  | [] => Ret (m, n)
  | k :: ks => bind (reduce_ruleset_step fuel rb m k) (fun x => reduce_ruleset_loop fuel rb (fst x) ks (n + snd x))
  end.
Definition reduce_ruleset (fuel : nat) (rb : rulebook) : res (rulebook * nat) :=
  bind (reduce_ruleset_loop fuel rb (rb_rules rb) (map fst (rb_rules rb)) 0) (fun x =>
  Ret (with_rules rb (fst x), snd x)).

(** mock_conjugate, operator_rulebook.cpp:553-570 *)
Fixpoint mock_conjugate_loop (fuel : nat) (rb : rulebook) (m : rulemap) : res bool :=
  match m with
  | [] => Ret false
  | (_, rl) :: m' =>
      bind (conj_rule (rb_pc rb) rl) (fun c => bind (reduce_rule fuel rb c) (fun cr =>
      if rl_trivial cr then mock_conjugate_loop fuel rb m' else Ret true))
  end.
Definition mock_conjugate (fuel : nat) (rb : rulebook) : res bool := mock_conjugate_loop fuel rb (rb_rules rb).

(** inner loops of is_complete / try_new_combination, operator_rulebook.cpp:475-501 and 511-548: the first pair (in key
    order) of distinct rules whose combination reduces to a non-trivial rule *)
Fixpoint combine_inner (fuel : nat) (rb : rulebook) (ka : N) (a : rule) (m : rulemap) : res (option rule) :=
  match m with
  | [] => Ret None
  | (kb, b) :: m' =>
      if N.eqb ka kb then combine_inner fuel rb ka a m'
      else bind (combine (rb_pc rb) a b) (fun oc =>
           match oc with
           | None => combine_inner fuel rb ka a m'
           | Some c => bind (reduce_rule fuel rb c) (fun cr =>
                       if rl_trivial cr then combine_inner fuel rb ka a m' else Ret (Some cr))
           end)
  end.
Fixpoint combine_outer (fuel : nat) (rb : rulebook) (m : rulemap) : res (option rule) :=
  match m with
  | [] => Ret None
  | (ka, a) :: m' => bind (combine_inner fuel rb ka a (rb_rules rb)) (fun oc =>
                     match oc with Some c => Ret (Some c) | None => combine_outer fuel rb m' end)
  end.

(** is_complete, operator_rulebook.cpp:469-504 *)
Definition is_complete (fuel : nat) (rb : rulebook) (test_cc : bool) : res bool :=
  bind (if test_cc then mock_conjugate fuel rb else Ret false) (fun cc =>
  if cc then Ret false
  else bind (combine_outer fuel rb (rb_rules rb)) (fun oc => Ret (match oc with Some _ => false | None => true end))).

(** try_new_combination, operator_rulebook.cpp:507-551 *)
Definition try_new_combination (fuel : nat) (rb : rulebook) : res (rulebook * bool) :=
  bind (reduce_ruleset fuel rb) (fun x =>
  let rb1 := fst x in
  bind (combine_outer fuel rb1 (rb_rules rb1)) (fun oc =>
  match oc with
  | None => Ret (rb1, false)
  | Some c => bind (reduce_ruleset fuel (with_rules rb1 (map_insert (hs_hash (rl_lhs c)) c (rb_rules rb1)))) (fun y =>
              Ret (fst y, true))
  end)).

(** try_conjugation, operator_rulebook.cpp:591-613 *)
Definition try_conjugation (fuel : nat) (rb : rulebook) (rl : rule) : res (rulebook * bool) :=
  bind (conj_rule (rb_pc rb) rl) (fun c =>
  bind (reduce_rule fuel rb c) (fun cr =>
  if rl_trivial cr then Ret (rb, false)
  else bind (reduce_ruleset fuel (with_rules rb (map_insert (hs_hash (rl_lhs cr)) cr (rb_rules rb)))) (fun y =>
       Ret (fst y, true)))).

(** conjugate_ruleset, operator_rulebook.cpp:572-589.  The iterator is modelled by its position [i]; after a success it
    is set to begin() and then incremented all the same (lines 581-585), i.e. to position 1. [Err] = incrementing the
    end iterator of an empty map. *)
Fixpoint conjugate_ruleset_loop (turns fuel : nat) (rb : rulebook) (i added : nat) : res (rulebook * nat) :=
  match nth_error (rb_rules rb) i with
  | None => Ret (rb, added)
  | Some (_, rl) =>
      match turns with
      | O => NoFuel
      | S t => bind (try_conjugation fuel rb rl) (fun x =>
               if snd x then (match rb_rules (fst x) with
                              | [] => Err
                              | _ => conjugate_ruleset_loop t fuel (fst x) 1 (S added) end)
               else conjugate_ruleset_loop t fuel (fst x) (S i) added)
      end
  end.

(** Knuth-Bendix loop of complete, operator_rulebook.cpp:168-177: [Ret (rb, true)] = returned inside the loop *)
Fixpoint kb_loop (iters fuel : nat) (rb : rulebook) : res (rulebook * bool) :=
  match iters with
  | O => Ret (rb, false)
  | S n => bind (try_new_combination fuel rb) (fun x =>
           if snd x then kb_loop n fuel (fst x) else Ret (fst x, true))
  end.

(** complete, operator_rulebook.cpp:152-190.  Logging omitted. *)
Definition complete (turns fuel : nat) (rb : rulebook) (max_iterations : nat) : res (rulebook * bool) :=
  bind (match max_iterations with
        | O => bind (mock_conjugate fuel rb) (fun c => Ret (rb, if c then None else Some 0))
        | _ => bind (conjugate_ruleset_loop turns fuel rb 0 0) (fun x => Ret (fst x, Some (snd x)))
        end) (fun x =>
  match snd x with
  | None => Ret (rb, false)
  | Some iteration =>
      bind (kb_loop (max_iterations - iteration) fuel (fst x)) (fun y =>
      if snd y then Ret (recalculate (fst y), true)
      else bind (is_complete fuel (fst y) false) (fun c => Ret (recalculate (fst y), c)))
  end).

(** commutator_rules, operator_rulebook.cpp:615-630 *)
Definition commutator_pairs (n : nat) : list (nat * nat) :=
  flat_map (fun b => map (fun a => (b, a)) (rev (seq 0 b))) (rev (seq 1 (n - 1))).
Definition commutator_rules (pc : precontext) : list (res rule) :=
  if Nat.ltb (pc_num pc) 2 then []
  else map (fun ba => make_rule (hseq_make (pc_radix pc) [fst ba; snd ba] SPos) (hseq_make (pc_radix pc) [snd ba; fst ba] SPos))
           (commutator_pairs (pc_num pc)).
(** normal_rules, operator_rulebook.cpp:633-655 *)
Definition normal_rules (pc : precontext) : list (res rule) :=
  match pc_mode pc with
  | SelfAdjoint => []
  | Bunched => map (fun a => make_rule (hseq_make (pc_radix pc) [a + pc_raw pc; a] SPos)
                                       (hseq_make (pc_radix pc) [a; a + pc_raw pc] SPos)) (seq 0 (pc_raw pc))
  | Interleaved => map (fun i => make_rule (hseq_make (pc_radix pc) [2 * i + 1; 2 * i] SPos)
                                           (hseq_make (pc_radix pc) [2 * i; 2 * i + 1] SPos)) (seq 0 (pc_raw pc))
  end.

(* ------------------------------------------------------------------------------------------------ AlgebraicContext *)
Fixpoint insert_sorted (x : nat) (l : list nat) : list nat :=
  match l with [] => [x] | y :: l' => if Nat.leb x y then x :: l else y :: insert_sorted x l' end.
(** std::sort on operator names *)
Definition sort_word (w : word) : word := fold_right insert_sorted [] w.

(** AlgebraicContext: commutative flag and rulebook *)
Record acontext := mk_actx { ac_commutative : bool; ac_rules : rulebook }.

(** collect the rules of a list of make_rule calls *)
Fixpoint all_ret {A} (l : list (res A)) : res (list A) :=
  match l with [] => Ret [] | x :: l' => bind x (fun a => bind (all_ret l') (fun r => Ret (a :: r))) end.
(** AlgebraicContext::AlgebraicContext, algebraic_context.cpp:20-43 *)
Definition make_acontext (fuel : nat) (pc : precontext) (commute normal : bool) (rules : list rule) : res acontext :=
  bind (make_rulebook fuel pc rules) (fun rb0 =>
  bind (if commute then bind (all_ret (commutator_rules pc)) (add_rules fuel rb0) else Ret rb0) (fun rb1 =>
  bind (if normal then bind (all_ret (normal_rules pc)) (add_rules fuel rb1) else Ret rb1) (fun rb2 =>
  Ret (mk_actx commute rb2)))).

(** AlgebraicContext::get_if_canonical, algebraic_context.cpp:63-69 *)
Definition get_if_canonical (ctx : acontext) (w : word) : option hseq :=
  if can_reduce (ac_rules ctx) w then None else Some (hseq_make (pc_radix (rb_pc (ac_rules ctx))) w SPos).

(** OperatorSequence construction: AlgebraicContext::additional_simplification (algebraic_context.cpp:91-106) followed by
    OperatorSequence::to_canonical_form (operator_sequence.cpp:49-61). *)
Definition canonical_form (fuel : nat) (ctx : acontext) (w : word) (s : sign) : res hseq :=
  let w := if ac_commutative ctx then sort_word w else w in
  bind (reduce_in_place fuel (ac_rules ctx) w s) (fun x =>
  match x with
  | (SetToZero, _, _) => Ret (hseq_const true)
  | (_, w', s') => Ret (hseq_make (pc_radix (rb_pc (ac_rules ctx))) w' s')
  end).

(** Context::multiply, context.cpp:33-50 *)
Definition multiply (fuel : nat) (ctx : acontext) (a b : hseq) : res hseq :=
  if hs_zero a || hs_zero b then Ret (hseq_const true)
  else canonical_form fuel ctx (hs_ops a ++ hs_ops b) (smul (hs_sign a) (hs_sign b)).

(** Context::conjugate (context.cpp:71-81) when self-adjoint, AlgebraicContext::conjugate (algebraic_context.cpp:151-163)
    otherwise (whose constructor call passes no sign, so the sign defaults to Positive). *)
Definition conjugate (fuel : nat) (ctx : acontext) (q : hseq) : res hseq :=
  if hs_zero q then Ret (hseq_const true)
  else match pc_mode (rb_pc (ac_rules ctx)) with
       | SelfAdjoint => canonical_form fuel ctx (rev (hs_ops q)) (sconj (hs_sign q))
       | _ => canonical_form fuel ctx (conj_word (rb_pc (ac_rules ctx)) (hs_ops q)) SPos
       end.
