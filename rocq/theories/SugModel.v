(** Suggestion of extensions: ExtensionSuggester, scenarios/inflation/extension_suggester.{h,cpp}.

    Simplifications: bitsets are lists of the numbers in them, in ascending order where the order matters (bitsets: C33); reading a bit out of
    range does not happen, as all numbers are those of symbols; the matrix is given by the numbers of its symbols (a std::set, in ascending
    order) and by the words of its generator. *)
From Coq Require Import List Arith Bool.
From Verif Require Import CoreModel AlgModel InfModel TreeModel FTabModel.
Import ListNotations.

(** extension_suggester.h:33 *)
Definition max_extensions : nat := 100.
Definition among (x : nat) (l : list nat) : bool := existsb (Nat.eqb x) l.
(** nonfundamental_symbols, extension_suggester.cpp:96-105; factor_table.h:66, 99 *)
Fixpoint nonfundamental (t : ftab) (included : list nat) : fout (list nat) :=
  match included with
  | [] => FOk []
  | k :: r => fbind (entry_of t k) (fun e => fbind (nonfundamental t r) (fun l => FOk (if fundamental e then l else k :: l)))
  end.
(** get_symbol_to_test, 107-123; [None] is -1 *)
Definition first_untested (tested ks : list nat) : option nat := find (fun k => negb (among k tested)) ks.
Fixpoint to_test (t : ftab) (necessary tested : list nat) : fout (option nat) :=
  match necessary with
  | [] => FOk None
  | s :: r => fbind (entry_of t s) (fun e => match first_untested tested (fe_syms e) with Some k => FOk (Some k) | None => to_test t r tested end)
  end.
Section Suggest.
  Variable c : ictx.
  Variables (fuel : nat) (scratch : list nat).
  Variable t : ftab.
  (** the body of the loop over prefixes, 63-84; an unknown prefix is looked up out of range *)
  Definition try_prefix (x : nat) (necessary : list nat) (g : word) : fout (list nat * bool) :=
    fbind (canonical_seq c fuel scratch (Some g)) (fun q =>
    match find_seq q (ft_syms t) with
    | None => FUndef
    | Some k =>
        fbind (entry_of t k) (fun e =>
        match find_factors t (combine_factors (fe_syms e) [x]) with
        | None => FOk (necessary, false)
        | Some s => if among s necessary then FOk (filter (fun k => negb (Nat.eqb k s)) necessary, true) else FOk (necessary, false)
        end)
    end).
  (** 62-84 *)
  Fixpoint try_prefixes (x : nat) (necessary : list nat) (any : bool) (gens : list word) : fout (list nat * bool) :=
    match gens with
    | [] => FOk (necessary, any)
    | g :: r => fbind (try_prefix x necessary g) (fun a => try_prefixes x (fst a) (any || snd a) r)
    end.
  (** the loop, 53-92; [n] is what is left of max_extensions *)
  Fixpoint suggest_loop (n : nat) (gens : list word) (necessary tested chosen : list nat) : fout (list nat) :=
    match n, necessary with
    | 0, _ | _, [] => FOk chosen
    | S n', _ =>
        fbind (to_test t necessary tested) (fun o =>
        match o with
        | None => FOk chosen
        | Some x => fbind (try_prefixes x necessary false gens) (fun a => suggest_loop n' gens (fst a) (x :: tested) (if snd a then x :: chosen else chosen))
        end)
    end.
  (** operator(), 31-94 *)
  Definition suggest (included : list nat) (gens : list word) : fout (list nat) :=
    fbind (nonfundamental t included) (fun necessary => fbind (suggest_loop max_extensions gens necessary [] []) (fun l => FOk (nsort l))).
End Suggest.
