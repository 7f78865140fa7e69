(** What moment rules mean. *)
From Coq Require Import List NArith Arith Bool Permutation.
From Verif Require Import CoreModel FieldModel SymModel SymSpec PolyModel PolySpec RuleModel.
Import ListNotations.

Section Rule.
  Context {R : rfield}.
  Notation mono := (mono R).
  Notation rule := (rule R).
  Notation rulebook := (rulebook (R := R)).
  (** Polynomial factories whose symbol table starts with zero and one, whose ordering of terms puts the identity before the other
      symbols, which sort, and whose numbers have a sign test right on 1 and -1 and a square root that preserves norm 1. *)
  Record factory_ok (F : factory R) : Prop := mk_factory_ok {
    fo_order : term_order (fa_table F) (fa_lt F);
    fo_first : forall x y, in_table (fa_table F) x -> in_table (fa_table F) y -> m_id x = 1 -> 1 < m_id y -> fa_lt F x y = true;
    fo_sort : sorts (fa_table F) (fa_lt F) (fa_sort F);
    fo_idsort : sorts (fa_table F) id_less (fa_idsort F);
    fo_starts : starts (fa_table F);
    fo_null : no_null (fa_table F);
    fo_pos : fa_pos F (r1 R) = true /\ fa_pos F (ropp R (r1 R)) = false;
    fo_sqrt : forall z s, fa_sqrt F z = Some s -> cmul s s = z /\ (cnorm z = r1 R -> cnorm s = r1 R) }.
  (** the numbers have all the square roots needed *)
  Definition has_roots (F : factory R) : Prop := forall z, cnorm z = r1 R -> fa_sqrt F z <> None.
  (** [v] makes all polynomials zero *)
  Definition solves (v : nat -> cx R) (ps : list (list mono)) : Prop := forall p, In p ps -> value v p = c0.
  (** [v] makes both sides of all rules equal *)
  Definition obeys (v : nat -> cx R) (rules : list rule) : Prop := forall r, In r rules -> v (ru_lhs r) = value v (ru_rhs r).
  (** the rulebook determines the symbol: there is a rule for it that is not a partial one *)
  Definition determined (rules : list rule) (id : nat) : Prop := exists r, In r rules /\ ru_lhs r = id /\ ru_partial r = false.
  (** The form of completed rules: one rule for each symbol, never for 0 or 1; right hand sides are canonical, mention no determined
      symbol, and mention only symbols that come before the left hand side; a partial rule also mentions the symbol itself. *)
  Record tidy_rules (F : factory R) (rules : list rule) : Prop := mk_tidy {
    tr_once : NoDup (map ru_lhs rules);
    tr_lhs : forall r, In r rules -> 1 < ru_lhs r /\ ru_lhs r < length (t_syms (fa_table F));
    tr_canonical : forall r, In r rules -> canonical (fa_table F) (fa_lt F) (ru_rhs r);
    tr_free : forall r x, In r rules -> In x (ru_rhs r) -> ~ determined rules (m_id x);
    tr_before : forall r x, In r rules -> In x (ru_rhs r) ->
      fa_lt F x (mk_mono (ru_lhs r) false c1) = true \/ (ru_partial r = true /\ m_id x = ru_lhs r) }.
  (** Rulebooks made by a sequence of operations that throw no exception, and the equations they were given.  [psrt] is the sorting
      of polynomials; it may do anything but lose polynomials. *)
  Inductive session (F : factory R) (psrt : list (list mono) -> list (list mono)) : rulebook -> list (list mono) -> Prop :=
  | s_new safe : session F psrt (new_rulebook safe) []
  | s_add b eqs ps b' n : session F psrt b eqs -> Forall (canonical (fa_table F) (fa_lt F)) ps -> add_raw_rules b ps = RDone b' n ->
      session F psrt b' (eqs ++ ps)
  | s_complete b eqs fuel b' n : session F psrt b eqs -> complete F psrt fuel b = RDone b' n -> session F psrt b' eqs
  | s_combine b eqs other eqs' fuel b' n : session F psrt b eqs -> session F psrt other eqs' ->
      combine_and_complete F psrt fuel b other = RDone b' n -> session F psrt b' (eqs ++ eqs')
  | s_failed b eqs other eqs' fuel b' : session F psrt b eqs -> session F psrt other eqs' ->
      combine_and_complete F psrt fuel b other = RThrow b' -> session F psrt b' eqs
  | s_use b eqs : session F psrt b eqs -> session F psrt (use b) eqs
  | s_enable b eqs : session F psrt b eqs -> session F psrt (enable_expansion b) eqs
  | s_disable b eqs : session F psrt b eqs -> session F psrt (disable_expansion b) eqs.
End Rule.
