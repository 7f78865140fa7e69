(** Moment rules and rulebooks: symbolic/rules/moment_rule.{h,cpp}, moment_rulebook.{h,cpp}.  Coefficients are exact, so
    real_or_imaginary_if_close changes nothing and every "approximately" test is exact. *)
From Coq Require Import List NArith Arith Bool.
From Verif Require Import CoreModel FieldModel SymModel PolyModel.
Import ListNotations.

(** What the rules need: the polynomial factory (symbol table, comparison, std::sort of terms by it), std::sort of terms by
    symbol number, the test x > 0 on reals and std::sqrt on complex numbers ([None]: no root in the number system). *)
Record factory (R : rfield) := mk_factory {
  fa_table : table; fa_lt : mono R -> mono R -> bool; fa_sort : list (mono R) -> list (mono R);
  fa_idsort : list (mono R) -> list (mono R); fa_pos : R -> bool; fa_sqrt : cx R -> option (cx R) }.
Arguments mk_factory {R}. Arguments fa_table {R}. Arguments fa_lt {R}. Arguments fa_sort {R}. Arguments fa_idsort {R}.
Arguments fa_pos {R}. Arguments fa_sqrt {R}.

(** MomentRule, moment_rule.h:53-70 *)
Record rule (R : rfield) := mk_rule {
  ru_lhs : nat; ru_rhs : list (mono R); ru_partial : bool; ru_dir : cx R; ru_split : option (list (mono R)) }.
Arguments mk_rule {R}. Arguments ru_lhs {R}. Arguments ru_rhs {R}. Arguments ru_partial {R}. Arguments ru_dir {R}. Arguments ru_split {R}.
(** a rule is made; invalid_moment_rule is thrown; std::sqrt has no value in the number system; undefined behaviour *)
Inductive made (R : rfield) := Made (r : rule R) | Invalid | NoRoot | BadAccess.
Arguments Made {R}. Arguments Invalid {R}. Arguments NoRoot {R}. Arguments BadAccess {R}.
(** PolynomialDifficulty, moment_rule.h:37-51 *)
Inductive difficulty := Trivial | Contradiction | Simple | NeedsReorienting | NonorientableRule.

Section Rule.
  Context {R : rfield}.
  Notation mono := (mono R).
  Notation rule := (rule R).
  Variable F : factory R.
  Notation t := (fa_table F).
  Notation lt := (fa_lt F).
  (** factory(storage) *)
  Notation build := (make_poly t (fa_sort F)).

  (** Polynomial::last_id, polynomial.h:321-326 *)
  Definition last_id (p : list mono) : nat := match rev p with [] => 0 | x :: _ => m_id x end.
  (** pop_back_and_normalize, moment_rule.cpp:43-68 *)
  Definition pop_normalize (p : list mono) : nat * list mono :=
    match rev p with
    | [] => (0, [])
    | x :: _ =>
        let f := cdiv (copp c1) (m_f x) in
        let q := removelast p in
        let q := if ceqb f c1 then q else scale f q in
        (m_id x, if m_cj x then conjugate_poly t q else q)
    end.
  (** MomentRule::get_difficulty, moment_rule.cpp:132-163 *)
  Definition get_difficulty (p : list mono) : difficulty :=
    match rev p with
    | [] => Trivial
    | x :: l =>
        if Nat.eqb (m_id x) 1 then Contradiction
        else match l with
             | [] => Simple
             | y :: _ =>
                 if negb (Nat.eqb (m_id x) (m_id y)) then Simple
                 else if negb (r_eqb R (cnorm (m_f x)) (cnorm (m_f y))) then NeedsReorienting
                 else NonorientableRule
             end
    end.
  (** MomentRule::reorient_polynomial, moment_rule.cpp:167-176 *)
  Definition reorient (p : list mono) : list mono :=
    append lt (snd (pop_normalize p)) (scale (copp c1) (snd (pop_normalize (conjugate_poly t p)))).
  (** MomentRule::split_regular_rule, moment_rule.cpp:277-324: new right hand side and the split polynomial *)
  Definition split_regular (lhs : nat) (p : list mono) : list mono * option (list mono) :=
    if Nat.leb lhs 1 then (p, None)
    else if herm t lhs then
      if is_hermitian t p then (p, None) else (real_part t (fa_sort F) p, Some (imag_part t (fa_sort F) p))
    else if anti t lhs then
      if is_antihermitian t p then (p, None)
      else (scale ci (imag_part t (fa_sort F) p), Some (real_part t (fa_sort F) p))
    else (p, None).
  (** The direction in resolve_nonorientable_rule, moment_rule.cpp:197-213 *)
  Definition direction (z : cx R) : option (cx R) :=
    if is_real z then Some (if fa_pos F (cre z) then c1 else ci)
    else match fa_sqrt F z with
         | None => None
         | Some s => Some (if fa_pos F (ropp R (cim z)) then copp s else s)
         end.
  (** the free part 0.5 X - 0.5 e^2 X*, moment_rule.cpp:236-238 *)
  Definition free_part (lhs : nat) (e : cx R) : list mono :=
    make_plain (fa_idsort F) [mk_mono lhs false half; mk_mono lhs true (cmul (cmul (copp e) e) half)].
  (** MomentRule::resolve_nonorientable_rule, moment_rule.cpp:178-241 *)
  Definition resolve_nonorientable (p : list mono) : made R :=
    match rev p with
    | x1 :: x0 :: _ =>
        match direction (cdiv (m_f x1) (m_f x0)) with
        | None => NoRoot
        | Some e =>
            let q := removelast (removelast p) in
            let q := scale (cdiv (copp (cconj e)) (cmul (creal (radd R (r1 R) (r1 R))) (m_f x0))) q in
            let im := imag_part t (fa_sort F) q in
            let q' := match im with [] => q | _ => real_part t (fa_sort F) q end in
            Made (mk_rule (m_id x1) (append lt (scale e q') (free_part (m_id x1) e)) true e
                          (match im with [] => None | _ => Some im end))
        end
    | _ => BadAccess
    end.
  (** MomentRule(factory, rule) with set_up_rule, moment_rule.cpp:89-94, 103-130 *)
  Definition regular_rule (lhs : nat) (p : list mono) : made R :=
    let x := split_regular lhs (snd (pop_normalize p)) in Made (mk_rule lhs (fst x) false c0 (snd x)).
  Definition make_rule (p : list mono) : made R :=
    match get_difficulty p with
    | Trivial => Made (mk_rule (last_id p) [] false c0 None)
    | Contradiction => Invalid
    | Simple => regular_rule (last_id p) p
    | NeedsReorienting => regular_rule (last_id p) (reorient p)
    | NonorientableRule => resolve_nonorientable p
    end.
  (** MomentRule(factory, lhs, direction, replacement), moment_rule.cpp:71-86 *)
  Definition make_partial (lhs : nat) (e : cx R) (p : list mono) : rule :=
    mk_rule lhs (append lt (scale e p) (build [mk_mono lhs false half; mk_mono lhs true (cmul (cmul (copp half) e) e)])) true e None.
  (** MomentRule::merge_partial, moment_rule.cpp:244-264 *)
  Definition merge_partial (a b : rule) : rule :=
    mk_rule (ru_lhs a) (append lt (removelast (removelast (ru_rhs a))) (removelast (removelast (ru_rhs b)))) false c0 (ru_split a).
  (** MomentRule::split, moment_rule.cpp:266-275, leaves the rule without the split polynomial *)
  Definition unsplit (r : rule) : rule := mk_rule (ru_lhs r) (ru_rhs r) (ru_partial r) (ru_dir r) None.
  (** MomentRule::as_polynomial, moment_rule.cpp:327-336 *)
  Definition as_polynomial (r : rule) : list mono :=
    if Nat.eqb (ru_lhs r) 0 then [] else append lt (ru_rhs r) (poly_of_mono (mk_mono (ru_lhs r) false (copp c1))).

  (** MomentRule::append_transformed, moment_rule.h:186-203 *)
  Definition transformed (r : rule) (x : mono) : list mono :=
    if m_cj x then map (fun y => mk_mono (m_id y) (negb (m_cj y)) (cmul (m_f x) (cconj (m_f y)))) (ru_rhs r)
    else map (fun y => mk_mono (m_id y) (m_cj y) (cmul (m_f y) (m_f x))) (ru_rhs r).
  (** MomentRule::match_info, moment_rule.cpp:344-368: terms before the match, the match, the conjugate if it also matches, and
      the rest *)
  Fixpoint match_info (id : nat) (p : list mono) : option (list mono * mono * option mono * list mono) :=
    match p with
    | [] => None
    | x :: p' =>
        if Nat.eqb (m_id x) id then
          match p' with
          | y :: p'' => if Nat.eqb (m_id y) id then Some ([], x, Some y, p'') else Some ([], x, None, p')
          | [] => Some ([], x, None, [])
          end
        else match match_info id p' with
             | None => None
             | Some (pre, a, b, post) => Some (x :: pre, a, b, post)
             end
    end.
  (** MomentRule::reduce(polynomial) and reduce_with_hint, moment_rule.cpp:370-383, 425-454 *)
  Definition rule_reduce (r : rule) (p : list mono) : list mono :=
    match match_info (ru_lhs r) p with
    | None => p
    | Some (pre, a, b, post) =>
        build (pre ++ transformed r a ++ match b with Some y => transformed r y | None => [] end ++ post)
    end.
  (** MomentRule::reduce(monomial), moment_rule.cpp:385-395 *)
  Definition rule_reduce_mono (r : rule) (x : mono) : list mono :=
    if negb (Nat.eqb (m_id x) (ru_lhs r)) then poly_of_mono x else build (transformed r x).
  (** SymbolTools::make_canonical, symbol_tools.cpp:14-32 *)
  Definition make_canonical (x : mono) : mono := fix_term t (if Nat.eqb (m_id x) 0 then mk_mono 0 false c0 else x).
  (** MomentRule::reduce_monomial, moment_rule.cpp:397-423 *)
  Definition rule_reduce_monomial (r : rule) (x : mono) : mono :=
    if negb (Nat.eqb (ru_lhs r) (m_id x)) then x
    else match ru_rhs r with
         | [] => mk_mono 0 false c1
         | y :: _ => make_canonical (if m_cj x then mk_mono (m_id y) (negb (m_cj y)) (cmul (m_f x) (cconj (m_f y)))
                                     else mk_mono (m_id y) (m_cj y) (cmul (m_f x) (m_f y)))
         end.

  (** * Rulebooks.  The map of rules by symbol number and the map of rules by key hold the same rules: they are one list here, in
      order of the keys.  Keys are compared as terms (key(A) < key(B) iff less(A,B): C25_keys). *)
  Definition key_less (i j : nat) : bool := lt (mk_mono i false c1) (mk_mono j false c1).
  (** rules.find *)
  Definition find_rule (rules : list rule) (id : nat) : option rule := find (fun r => Nat.eqb (ru_lhs r) id) rules.
  (** MomentRulebook::reduce_in_place, moment_rulebook.cpp:319-348 *)
  Definition reduce_terms (rules : list rule) (p : list mono) : list mono :=
    flat_map (fun x => match find_rule rules (m_id x) with Some r => transformed r x | None => [x] end) p.
  Definition any_match (rules : list rule) (p : list mono) : bool :=
    existsb (fun x => match find_rule rules (m_id x) with Some _ => true | None => false end) p.
  Definition reduce (rules : list rule) (p : list mono) : list mono :=
    if any_match rules p then build (reduce_terms rules p) else p.
  (** MomentRulebook::reduce(monomial), moment_rulebook.cpp:373-382 *)
  Definition reduce_mono (rules : list rule) (x : mono) : list mono :=
    match find_rule rules (m_id x) with None => poly_of_mono x | Some r => rule_reduce_mono r x end.
  (** MomentRulebook::reduce_monomial, moment_rulebook.cpp:350-371; [None]: not_monomial is thrown *)
  Definition reduce_monomial (rules : list rule) (x : mono) : option mono :=
    match find_rule rules (m_id x) with
    | None => Some x
    | Some r => if Nat.leb (length (ru_rhs r)) 1 then Some (rule_reduce_monomial r x) else None
    end.
  (** MomentRulebook::match, moment_rulebook.cpp:307-316 *)
  Definition match_first (rules : list rule) (p : list mono) : option (rule * mono) :=
    match find (fun x => match find_rule rules (m_id x) with Some _ => true | None => false end) p with
    | None => None
    | Some x => match find_rule rules (m_id x) with Some r => Some (r, x) | None => None end
    end.

  (** The part of complete that enters a rule, moment_rulebook.cpp:160-221: rules, and how many were added *)
  Definition update_rule (n r : rule) : rule := mk_rule (ru_lhs r) (rule_reduce n (ru_rhs r)) (ru_partial r) (ru_dir r) (ru_split r).
  Fixpoint split_keys (id : nat) (rules : list rule) : list rule * list rule :=
    match rules with
    | [] => ([], [])
    | r :: rules' => if key_less (ru_lhs r) id then (r :: fst (split_keys id rules'), snd (split_keys id rules')) else ([], rules)
    end.
  Definition place (rules : list rule) (n : rule) : list rule * nat :=
    if match rev rules with [] => true | l :: _ => key_less (ru_lhs l) (ru_lhs n) end then (rules ++ [n], 1)
    else match split_keys (ru_lhs n) rules with
         | (lo, r :: hi) =>
             if negb (key_less (ru_lhs n) (ru_lhs r)) then
               let m := merge_partial r n in (lo ++ m :: map (update_rule m) hi, 0)
             else (lo ++ n :: map (update_rule n) (r :: hi), 1)
         | (lo, []) => (lo ++ [n], 1)
         end.
  (** What is left of a polynomial that has been moved from: terms on the heap are gone, a term in the object stays
      (polynomial.h:34, small_vector.h:120-136).  Simplified: a single term is taken not to be on the heap. *)
  Definition moved (p : list mono) : list mono := if Nat.leb (length p) 1 then p else [].
  (** The loop of complete, moment_rulebook.cpp:133-224.  [todo] are the raw rules from raw_rule_index on, [gone] those before it,
      last first. *)
  Inductive completion := Completed (rules : list rule) (added : nat) | Threw (rules : list rule) (raw : list (list mono))
    | Stuck | OutOfFuel.
  Fixpoint complete_loop (fuel : nat) (rules : list rule) (added : nat) (gone todo : list (list mono)) : completion :=
    match todo with
    | [] => Completed rules added
    | p :: todo' =>
        match fuel with
        | 0 => OutOfFuel
        | S fuel' =>
            match make_rule (reduce rules p) with
            | Invalid => Threw rules (rev gone ++ moved p :: todo')
            | NoRoot => Stuck
            | BadAccess => Stuck
            | Made r =>
                if Nat.eqb (ru_lhs r) 0 then complete_loop fuel' rules added (moved p :: gone) todo'
                else let x := place rules (unsplit r) in
                     complete_loop fuel' (fst x) (snd x + added) (moved p :: gone)
                       (todo' ++ match ru_split r with Some q => [q] | None => [] end)
            end
        end
    end.

  (** MomentRulebook, moment_rulebook.h:88-136 *)
  Record rulebook := mk_rulebook {
    rb_raw : list (list mono); rb_rules : list rule; rb_mono : bool; rb_herm : bool; rb_safe : bool; rb_uses : nat; rb_expand : bool }.
  (** Result and rulebook afterwards; exception and rulebook afterwards; no square root; out of fuel *)
  Inductive rbout := RDone (b : rulebook) (n : nat) | RThrow (b : rulebook) | RStuck | RFuel.
  (** MomentRulebook(system, allow_safe_updates), moment_rulebook.cpp:34-36 *)
  Definition new_rulebook (safe : bool) : rulebook := mk_rulebook [] [] true true safe 0 false.
  (** the guard of every function that writes rules, e.g. moment_rulebook.cpp:39-41 *)
  Definition locked (b : rulebook) : bool := negb (rb_expand b) && Nat.ltb 0 (rb_uses b).
  Definition set_raw (b : rulebook) (raw : list (list mono)) : rulebook :=
    mk_rulebook raw (rb_rules b) (rb_mono b) (rb_herm b) (rb_safe b) (rb_uses b) (rb_expand b).
  (** add_raw_rules(vector), add_raw_rule, moment_rulebook.cpp:38-50, 83-89 *)
  Definition add_raw_rules (b : rulebook) (raw : list (list mono)) : rbout :=
    if locked b then RThrow b else RDone (set_raw b (rb_raw b ++ raw)) 0.
  (** add_raw_rules(map to double), moment_rulebook.cpp:52-65 *)
  Definition real_equation (x : nat * R) : list mono :=
    if r_eqb R (snd x) (r0 R) then poly_of_mono (mk_mono (fst x) false c1)
    else make_plain (fa_idsort F) [mk_mono (fst x) false c1; mk_mono 1 false (creal (ropp R (snd x)))].
  Definition add_raw_map (b : rulebook) (raw : list (nat * R)) : rbout := add_raw_rules b (map real_equation raw).
  (** add_raw_rules(map to complex), moment_rulebook.cpp:67-81 *)
  Definition complex_equation (x : nat * cx R) : list mono :=
    if ceqb (snd x) c0 then poly_of_mono (mk_mono (fst x) false c1)
    else build [mk_mono (fst x) false c1; mk_mono 1 false (copp (snd x))].
  Definition add_raw_complex_map (b : rulebook) (raw : list (nat * cx R)) : rbout := add_raw_rules b (map complex_equation raw).
  (** complete, moment_rulebook.cpp:121-243.  [psrt] is std::sort of polynomials. *)
  Definition all_monomial (rules : list rule) : bool := forallb (fun r => Nat.leb (length (ru_rhs r)) 1) rules.
  Definition all_hermitian (rules : list rule) : bool := forallb (fun r => negb (herm t (ru_lhs r)) || is_hermitian t (ru_rhs r)) rules.
  Definition complete (psrt : list (list mono) -> list (list mono)) (fuel : nat) (b : rulebook) : rbout :=
    if locked b then RThrow b
    else match rb_raw b with
         | [] => RDone b 0
         | _ =>
             match complete_loop fuel (rb_rules b) 0 [] (psrt (rb_raw b)) with
             | Completed rules n => RDone (mk_rulebook [] rules (all_monomial rules) (all_hermitian rules) (rb_safe b) (rb_uses b) (rb_expand b)) n
             | Threw rules raw => RThrow (mk_rulebook raw rules (rb_mono b) (rb_herm b) (rb_safe b) (rb_uses b) (rb_expand b))
             | Stuck => RStuck
             | OutOfFuel => RFuel
             end
         end.
  (** inject, moment_rulebook.cpp:91-119: [n] is 1 if the rule was added *)
  Fixpoint insert_key (n : rule) (rules : list rule) : list rule :=
    match rules with
    | [] => [n]
    | r :: rules' => if key_less (ru_lhs r) (ru_lhs n) then r :: insert_key n rules' else n :: rules
    end.
  Definition inject (b : rulebook) (n : rule) : rbout :=
    if locked b then RThrow b
    else
      let m := rb_mono b && Nat.leb (length (ru_rhs n)) 1 in
      let h := rb_herm b && (negb (herm t (ru_lhs n)) || is_hermitian t (ru_rhs n)) in
      match find_rule (rb_rules b) (ru_lhs n) with
      | Some _ => RDone (mk_rulebook (rb_raw b) (rb_rules b) m h (rb_safe b) (rb_uses b) (rb_expand b)) 0
      | None => RDone (mk_rulebook (rb_raw b) (insert_key n (rb_rules b)) m h (rb_safe b) (rb_uses b) (rb_expand b)) 1
      end.
  (** iteration over the map of rules: by symbol number *)
  Fixpoint insert_id (n : rule) (rules : list rule) : list rule :=
    match rules with
    | [] => [n]
    | r :: rules' => if Nat.leb (ru_lhs n) (ru_lhs r) then n :: rules else r :: insert_id n rules'
    end.
  Definition by_id (rules : list rule) : list rule := fold_right insert_id [] rules.
  (** combine_and_complete, moment_rulebook.cpp:245-305 *)
  Definition combine_and_complete (psrt : list (list mono) -> list (list mono)) (fuel : nat) (b other : rulebook) : rbout :=
    if locked b || Nat.ltb 0 (rb_uses other) then RThrow b
    else match rb_raw b, rb_raw other with
         | [], [] =>
             match rb_rules b, rb_rules other with
             | [], rules => RDone (mk_rulebook [] rules (rb_mono other) (rb_herm other) (rb_safe b) (rb_uses b) (rb_expand b)) (length rules)
             | _, [] => RDone b 0
             | old, rules =>
                 match complete psrt fuel (set_raw b (map as_polynomial (by_id rules))) with
                 | RThrow b' => RThrow (mk_rulebook [] old (rb_mono b') (rb_herm b') (rb_safe b') (rb_uses b') (rb_expand b'))
                 | x => x
                 end
             end
         | _, _ => RThrow b
         end.
  (** create_substituted_matrix counts uses, moment_rulebook.cpp:386-391; enable_expansion, disable_expansion,
      moment_rulebook.h:318-332 *)
  Definition use (b : rulebook) : rulebook := mk_rulebook (rb_raw b) (rb_rules b) (rb_mono b) (rb_herm b) (rb_safe b) (S (rb_uses b)) (rb_expand b).
  Definition enable_expansion (b : rulebook) : rulebook :=
    mk_rulebook (rb_raw b) (rb_rules b) (rb_mono b) (rb_herm b) (rb_safe b) (rb_uses b) (rb_safe b || rb_expand b).
  Definition disable_expansion (b : rulebook) : rulebook :=
    mk_rulebook (rb_raw b) (rb_rules b) (rb_mono b) (rb_herm b) (rb_safe b) (rb_uses b) false.

  (** first_noncontained_rule, moment_rulebook.cpp:405-430 *)
  Definition first_noncontained (a b : list rule) : option rule :=
    match by_id b with
    | [] => None
    | r :: _ =>
        match a with
        | [] => Some r
        | _ => find (fun x => match reduce a (as_polynomial x) with [] => false | _ => true end) (by_id b)
        end
    end.
  (** compare_rulebooks, moment_rulebook.cpp:432-454 *)
  Inductive comparison_result := AEqualsB | BContainsA (in_b : rule) | AContainsB (in_a : rule) | Disjoint (in_a in_b : rule).
  Definition compare_rulebooks (a b : list rule) : comparison_result :=
    match first_noncontained b a, first_noncontained a b with
    | None, None => AEqualsB
    | None, Some y => BContainsA y
    | Some x, None => AContainsB x
    | Some x, Some y => Disjoint x y
    end.
End Rule.
Arguments rb_raw {R}. Arguments rb_rules {R}. Arguments rb_mono {R}. Arguments rb_herm {R}. Arguments rb_safe {R}. Arguments rb_uses {R}. Arguments rb_expand {R}.
