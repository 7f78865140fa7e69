(** What a factor table is for: every symbol is the product of its factors, which do not factor further. *)
From Coq Require Import List ZArith Arith Bool Sorted Permutation.
From Verif Require Import CoreModel FieldModel AlgModel InfModel InfSpec TreeModel SymModel PolyModel PolySpec RuleModel RuleSpec FTabModel.
Import ListNotations.

Section Factors.
  Variables (outcomes : list nat) (srcs : list (list nat)) (nt : network) (L : nat).
  Notation c := (inflate nt L).
  (** with enough fuel the result is [x]; with less it may run out of fuel, but there is no other result *)
  Definition settles {A} (f : nat -> list nat -> fout A) (x : A) : Prop :=
    (exists k, forall fuel scratch, k <= fuel -> length scratch = total_sources nt L -> f fuel scratch = FOk x) /\
    (forall fuel scratch, length scratch = total_sources nt L -> f fuel scratch = FOk x \/ f fuel scratch = FFuel).
  (** [r] is the canonical moment of [w] (C54) *)
  Definition moment_of (w r : word) : Prop :=
    exists k, forall fuel scratch, k <= fuel -> length scratch = total_sources nt L -> canonical_moment c fuel scratch w = Ret (Some r).
  (** the sequence of a symbol *)
  Definition symbol_seq (t : ftab) (k : nat) (q : option word) : Prop := nth_error (ft_syms t) k = Some (Some q).
  (** sequences that do not factor: zero, the identity and connected words *)
  Definition unfactorable (q : option word) : Prop := match q with None => True | Some w => connected srcs (map (label_of c) w) end.
  (** the factors of a sequence, as canonical moments: those of its unconnected parts *)
  Definition factors_of (q : option word) (qs : list (option word)) : Prop :=
    match q with
    | None => qs = [None]
    | Some w => exists fs rs, factorize c w = map Some fs /\ Forall2 moment_of fs rs /\ qs = map Some rs
    end.
  Record sound_entries (t : ftab) : Prop := mk_sound_entries {
    se_zero : symbol_seq t 0 None;
    se_one : symbol_seq t 1 (Some []);
    (* each sequence has one symbol; words are canonical moments *)
    se_once : forall i j q, symbol_seq t i q -> symbol_seq t j q -> i = j;
    se_words : forall k w, symbol_seq t k (Some w) -> simplified c w /\ can_be_simplified c w = false;
    se_id : forall k e, nth_error (ft_entries t) k = Some e -> fe_id e = k /\ k < length (ft_syms t);
    (* the factors of an entry are symbols whose sequences do not factor *)
    se_factors : forall e, In e (ft_entries t) ->
      exists ks, Permutation ks (fe_syms e) /\ Forall2 (fun k q => symbol_seq t k q /\ unfactorable q) ks (fe_seqs e);
    (* the entry of a symbol with a sequence lists the factors of the sequence *)
    se_entry : forall k q e, symbol_seq t k q -> nth_error (ft_entries t) k = Some e -> factors_of q (fe_seqs e) /\ StronglySorted le (fe_syms e);
    (* other entries list at least two factors; lists are sorted and without the identity, unless they contain zero, which then comes first *)
    se_created : forall k e, nth_error (ft_syms t) k = Some None -> nth_error (ft_entries t) k = Some e -> 2 <= length (fe_syms e);
    se_shape : forall e, In e (ft_entries t) -> (StronglySorted le (fe_syms e) /\ ~ In 0 (fe_syms e) /\ (In 1 (fe_syms e) -> fe_syms e = [1])) \/ (exists l, fe_syms e = 0 :: l);
    (* entries are found by their factors, and nothing else is *)
    se_tree : exists h, ft_tree t = t_eval h;
    se_found : forall ks k, find_factors t ks = Some k -> exists e, nth_error (ft_entries t) k = Some e /\ fe_syms e = ks;
    se_listed : forall e, In e (ft_entries t) -> find_factors t (fe_syms e) <> None }.
  (** every symbol has an entry *)
  Definition sound_table (t : ftab) : Prop := sound_entries t /\ length (ft_entries t) = length (ft_syms t).
  (** words that may be given new symbols *)
  Definition new_words (t : ftab) (ws : list word) : Prop :=
    NoDup ws /\ forall w, In w ws -> simplified c w /\ can_be_simplified c w = false /\ forall k, ~ symbol_seq t k (Some w).
  (** lists of factors: of symbols whose sequences do not factor; sorted and without the identity, or starting with zero *)
  Definition factor_list (t : ftab) (ks : list nat) : Prop :=
    ks <> [] /\ ((StronglySorted le ks /\ ~ In 0 ks /\ (In 1 ks -> ks = [1])) \/ (exists l, ks = 0 :: l)) /\
    forall k, In k ks -> exists q, symbol_seq t k q /\ unfactorable q.

  (** * Values of symbols, in an explanation of the scenario *)
  Variables (R : rfield) (M : explanation R).
  Definition product (v : nat -> R) (ks : list nat) : R := fold_right (fun k acc => rmul R (v k) acc) (r1 R) ks.
  (** symbols with a sequence have its expectation value; symbols created for a product are products *)
  Record meaning (t : ftab) (v : nat -> R) : Prop := mk_meaning {
    mn_word : forall k q, symbol_seq t k q ->
      v k = match q with None => r0 R | Some w => expectation outcomes srcs L R M (map (label_of c) w) end;
    mn_product : forall k e, nth_error (ft_syms t) k = Some None -> nth_error (ft_entries t) k = Some e -> v k = product v (fe_syms e) }.
End Factors.

(** a table to which symbols and entries have been added *)
Definition grows (t t' : ftab) : Prop := exists ms me, ft_syms t' = ft_syms t ++ ms /\ ft_entries t' = ft_entries t ++ me.
(** the factors of symbol [k]; and of several symbols *)
Definition factors (t : ftab) (k : nat) (l : list nat) : Prop := exists e, nth_error (ft_entries t) k = Some e /\ fe_syms e = l.
Definition all_factors (t : ftab) (ks l : list nat) : Prop := exists ls, Forall2 (factors t) ks ls /\ l = concat ls.
Definition without_one (l : list nat) : list nat := filter (fun x => negb (x =? 1)) l.
Definition cproduct {R : rfield} (v : nat -> cx R) (ks : list nat) : cx R := fold_right (fun k acc => cmul (v k) acc) c1 ks.
(** Assignments of numbers to symbols for which every symbol is the product of its factors *)
Definition multiplicative {R : rfield} (t : ftab) (v : nat -> cx R) : Prop :=
  v 0 = c0 /\ v 1 = c1 /\ forall k e, nth_error (ft_entries t) k = Some e -> v k = cproduct v (fe_syms e).
(** there is no symbol for the product of two symbols *)
Definition no_product (t : ftab) (a b : nat) : Prop :=
  a <> 0 /\ b <> 0 /\ forall l e, all_factors t [a; b] l -> ~ In 0 l -> In e (ft_entries t) -> ~ Permutation (fe_syms e) (without_one l).
(** the polynomial factory and the factor table have the same symbols, all of them Hermitian *)
Definition same_symbols {R : rfield} (F : factory R) (t : ftab) : Prop :=
  length (t_syms (fa_table F)) = length (ft_syms t) /\ forall id, id < length (t_syms (fa_table F)) -> herm (fa_table F) id = true.
(** the polynomial a rulebook gives for a symbol *)
Definition rule_value {R : rfield} (v : nat -> cx R) (rules : list (rule R)) (k : nat) : cx R :=
  match find_rule rules k with Some r => value v (ru_rhs r) | None => v k end.
(** a product of several symbols, to at least one of which a rule applies *)
Definition affected {R : rfield} (rules : list (rule R)) (e : fentry) : Prop :=
  2 <= length (fe_seqs e) /\ exists k, In k (fe_syms e) /\ find_rule rules k <> None.
