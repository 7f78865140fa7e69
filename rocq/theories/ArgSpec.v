(** What the arguments of a command say. *)
From Coq Require Import List String Arith Bool.
From Verif Require Import ArgModel.
Import ListNotations.
Local Open Scope string_scope.

Section Spec.
  Context {A : Type}.
  Variable text : A -> option string.
  (** arguments come as: a name and its value, a flag, or a value *)
  Inductive item := Named (a v : A) | Flag (a : A) | Plain (x : A).
  Definition written (items : list item) : list A := flat_map (fun i => match i with Named a v => [a; v] | Flag a => [a] | Plain x => [x] end) items.
  Definition fits (params flags : list string) (i : item) : Prop :=
    match i with
    | Named a _ => exists n, text a = Some n /\ In n params
    | Flag a => exists n, text a = Some n /\ ~ In n params /\ In n flags
    | Plain x => forall n, text x = Some n -> ~ In n params /\ ~ In n flags
    end.
  (** the value given to a name: the first one *)
  Fixpoint given (items : list item) (n : string) : option A :=
    match items with
    | [] => None
    | Named a v :: r => match text a with Some m => if String.eqb m n then Some v else given r n | None => given r n end
    | _ :: r => given r n
    end.
  Definition flagged (items : list item) (n : string) : Prop := exists a, In (Flag a) items /\ text a = Some n.
  Definition plains (items : list item) : list A := flat_map (fun i => match i with Plain x => [x] | _ => [] end) items.
  Definition no_names (items : list item) : Prop := forall a v, ~ In (Named a v) items.

  (** the names of what a command needs, in the order in which they are given without names *)
  Definition keys (c : command) : list string :=
    "reference_id" ::
    match c with
    | Raw => ["index"] | Moment => ["level"] | Localizing | Commutator => ["level"; "word"] | Extended => ["level"; "extensions"] | Values => ["data"] | Substituted => ["matrix"; "rules"]
    end.
  Definition well (c : command) (items : list item) : Prop := Forall (fits (param_names c) (flag_names c)) items.
  (** [by_name] gives [vals] by name, [in_order] gives them in order, and they agree on everything else *)
  Record same_call (c : command) (vals : list A) (by_name in_order : list item) : Prop := {
    sc_well : well c by_name /\ well c in_order;
    sc_plain : plains by_name = [] /\ plains in_order = vals;
    sc_count : List.length vals = List.length (keys c);
    sc_named : forall k n, nth_error (keys c) k = Some n -> given by_name n = nth_error vals k /\ given in_order n = None;
    sc_other : forall n, ~ In n (keys c) -> given by_name n = given in_order n;
    sc_flags : forall n, flagged by_name n <-> flagged in_order n }.

  (** two names exclude each other, in some list of names that do *)
  Definition excluded (pairs : list (string * string)) (a b : string) : Prop := In (a, b) pairs \/ In (b, a) pairs.
  Definition used (flags params : list string) (n : string) : Prop := In n flags \/ In n params.
  (** the flags for the output, OutputMode in operator_matrix.h:36-53 *)
  Definition modes : list (nat * string) := [(1, "masks"); (2, "monomial"); (3, "name"); (4, "polynomial"); (5, "properties"); (6, "sequence_string"); (7, "symbol_string")].
  (** flags of which at most one may be used *)
  Definition choices (c : command) : list (list string) :=
    map snd modes :: match c with
                     | Localizing => [["symbols"; "operators"]; ["zero_indexing"; "matlab_indexing"]]
                     | Commutator => [["symbols"; "operators"]; ["anticommutator"; "commutator"]]
                     | _ => []
                     end.
  Definition alternatives (c : command) (a b : string) : Prop := a <> b /\ exists g, In g (choices c) /\ In a g /\ In b g.
End Spec.
Arguments item : clear implicits.
