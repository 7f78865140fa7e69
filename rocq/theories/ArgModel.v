(** Arguments of commands given to the toolkit: mex_functions/mex_main.cpp:203-280, utilities/io_parameters.cpp, and the commands that ask for a matrix,
    functions/operator_matrix/*.cpp.  Texts are Coq strings (UTF-16 code units below 256: all names are ASCII).  Other contents of arrays are abstract. *)
From Coq Require Import List String Arith Bool.
From Verif Require Import AlgModel TensorModel UtilModel.
Import ListNotations.
Local Open Scope string_scope.

(** * Sets of names, std::set<std::u16string>: ascending *)
Fixpoint set_add (n : string) (s : list string) : list string :=
  match s with
  | [] => [n]
  | m :: s' => if String.ltb n m then n :: s else if String.ltb m n then m :: set_add n s' else s
  end.
Definition set_of_names (l : list string) : list string := fold_left (fun s n => set_add n s) l [].
Definition mem (n : string) (s : list string) : bool := existsb (String.eqb n) s.

(** * Names that exclude each other *)
(** MutuallyExclusiveParams::add_mutex of two names, io_parameters.cpp:22-28 *)
Definition exclude (a b : string) : string * string := if String.ltb a b then (a, b) else (b, a).
(** add_mutex of a list or set, 108-145 *)
Fixpoint exclude_all (l : list string) : list (string * string) := match l with [] => [] | a :: l' => map (exclude a) l' ++ exclude_all l' end.
Section Validate.
  Variables (pairs : list (string * string)) (flags params : list string).
  (** 41-63, 76-98: excluded by [n] and used *)
  Definition clashes (n : string) : list string :=
    set_of_names (filter (fun m => mem m flags || mem m params) (map snd (filter (fun p => String.eqb (fst p) n) pairs))).
  Fixpoint first_clash (names : list string) : option (string * string) :=
    match names with
    | [] => None
    | n :: names' => match clashes n with [] => first_clash names' | m :: _ => Some (n, m) end
    end.
  (** MutuallyExclusiveParams::validate, 30-106 *)
  Definition validate : option (string * string) := match first_clash flags with Some c => Some c | None => first_clash (set_of_names params) end.
End Validate.

(** * Sorting the arguments *)
Section Args.
  Context {A : Type}.
  (** read_as_utf16 *)
  Variable text : A -> option string.
  (** SortedInputs, io_parameters.h:113-128.  The map of parameters is a list in order of arrival (the order is not used). *)
  Record sorted := mk_sorted { so_params : list (string * A); so_flags : list string; so_inputs : list A }.
  Definition lookup (n : string) (m : list (string * A)) : option A := option_map snd (find (fun p => String.eqb (fst p) n) m).
  (** std::map::emplace: nothing happens if the name is there *)
  Definition emplace (n : string) (v : A) (m : list (string * A)) : list (string * A) := match lookup n m with Some _ => m | None => m ++ [(n, v)] end.
  Definition add_param n v s := mk_sorted (emplace n v (so_params s)) (so_flags s) (so_inputs s).
  Definition add_flag n s := mk_sorted (so_params s) (set_add n (so_flags s)) (so_inputs s).
  Definition add_input x s := mk_sorted (so_params s) (so_flags s) (so_inputs s ++ [x]).
  (** MexMain::clean_inputs, mex_main.cpp:203-256.  [cursor] does not count the data of named parameters.  Undefined: *input_iter at the end *)
  Fixpoint clean (params flags : list string) (size cursor : nat) (l : list A) (s : sorted) : tout sorted :=
    match l with
    | [] => Value s
    | x :: r =>
        match text x with
        | None => clean params flags size (S cursor) r (add_input x s)
        | Some n =>
            if mem n params then
              if Nat.leb size (cursor + 1) then Throws
              else match r with [] => Undefined | d :: r' => clean params flags size (S cursor) r' (add_param n d s) end
            else if mem n flags then clean params flags size (S cursor) r (add_flag n s)
            else clean params flags size (S cursor) r (add_input x s)
        end
    end.
  Definition clean_inputs (params flags : list string) (args : list A) : tout sorted := clean params flags (List.length args) 0 args (mk_sorted [] [] []).

  (** * Commands that ask for a matrix *)
  Inductive command := Raw | Moment | Localizing | Commutator | Extended | Values | Substituted.
  (** output_mode_names, operator_matrix.cpp:58-60 *)
  Definition mode_names : list string := set_of_names ["masks"; "monomial"; "name"; "properties"; "polynomial"; "sequence_string"; "symbol_string"].
  (** param_names: operator_matrix.h:146-147, moment_matrix.cpp:25-27, localizing_matrix.cpp:111-114, commutator_matrix.cpp:122-127, extended_matrix.cpp:95-97,
      value_matrix.cpp:96-100, substituted_matrix.cpp:48-49 *)
  Definition param_names (c : command) : list string :=
    match c with
    | Raw => ["reference_id"; "index"]
    | Moment => ["reference_id"; "level"; "neighbours"]
    | Localizing | Commutator => ["reference_id"; "level"; "word"; "neighbours"]
    | Extended => ["reference_id"; "level"; "extensions"]
    | Values => ["reference_id"; "data"; "label"]
    | Substituted => ["reference_id"; "index"; "matrix"; "rules"]
    end.
  (** flag_names: operator_matrix.h:141-143, localizing_matrix.cpp:116-122, commutator_matrix.cpp:129-136 *)
  Definition own_flags (c : command) : list string :=
    match c with
    | Localizing => ["symbols"; "operators"; "zero_indexing"; "matlab_indexing"]
    | Commutator => ["symbols"; "operators"; "anticommutator"; "commutator"]
    | _ => []
    end.
  (** with the flags of all commands, mex_main.cpp:207-209 *)
  Definition flag_names (c : command) : list string := ["quiet"; "verbose"; "debug"; "debug_preprocess"] ++ mode_names ++ own_flags c.
  (** mutex_params: operator_matrix.h:150, localizing_matrix.cpp:118, 122, commutator_matrix.cpp:131, 136 *)
  Definition exclusions (c : command) : list (string * string) :=
    exclude_all mode_names ++
    match c with
    | Localizing => [exclude "symbols" "operators"; exclude "zero_indexing" "matlab_indexing"]
    | Commutator => [exclude "symbols" "operators"; exclude "anticommutator" "commutator"]
    | _ => []
    end.
  (** max_inputs; inputs_required is the same number *)
  Definition inputs_required (c : command) : nat := match c with Raw | Moment | Values => 2 | _ => 3 end.

  (** how the contents of arrays are read; [None]: BadParameter is thrown *)
  Context {K E X D L : Type}.
  Inductive etype := OperatorSequence | SymbolCell | OperatorCell.
  Record readers := mk_readers {
    rd_key : A -> option K;                                 (* MatrixSystemId::parse_input *)
    rd_nat : A -> option nat;                               (* read_positive_integer, at least 0 *)
    rd_expr : option bool -> etype -> A -> option E;        (* read_localizing_expression, after set_matlab_indexing if any *)
    rd_ext : A -> option X;                                 (* read_extension_argument *)
    rd_data : A -> option D;                                (* load_numeric_array *)
    rd_label : A -> option L }.                             (* read_as_utf8, which does not throw *)
  Variable rd : readers.
  (** what is asked for *)
  Inductive request :=
  | WantIndex (index : nat) | WantMoment (level neighbours : nat) | WantLocalizing (level neighbours : nat) (e : E) | WantCommutator (anti : bool) (level neighbours : nat) (e : E)
  | WantExtended (level : nat) (x : X) | WantValues (d : D) (label : option L) | WantSubstituted (matrix rules : nat).
  Definition bind {P Q} (o : option P) (f : P -> option Q) : option Q := match o with Some x => f x | None => None end.
  (** find_or_throw, io_parameters.cpp:149-155 *)
  Definition named {P} (s : sorted) (n : string) (read : A -> option P) : option P := bind (lookup n (so_params s)) read.
  (** inputs[k]; the number of inputs has been checked *)
  Definition input {P} (s : sorted) (k : nat) (read : A -> option P) : option P := bind (nth_error (so_inputs s) k) read.
  (** find_and_parse of "neighbours", default 0 *)
  Definition neighbours (s : sorted) : option nat := match lookup "neighbours" (so_params s) with Some a => rd_nat rd a | None => Some 0 end.
  Definition label (s : sorted) : option L := bind (lookup "label" (so_params s)) (rd_label rd).
  Definition indexing (s : sorted) : option bool := if mem "matlab_indexing" (so_flags s) then Some true else if mem "zero_indexing" (so_flags s) then Some false else None.
  Definition expr_type (s : sorted) : etype := if mem "symbols" (so_flags s) then SymbolCell else if mem "operators" (so_flags s) then OperatorCell else OperatorSequence.
  (** any_param_set: operator_matrix.cpp:109-111, 126-129, moment_matrix.cpp:59-62, localizing_matrix.cpp:94-98, commutator_matrix.cpp:103-107, extended_matrix.cpp:45-49, value_matrix.cpp:52-55,
      substituted_matrix.cpp:39-43 *)
  Definition is_set (s : sorted) (n : string) : bool := match lookup n (so_params s) with Some _ => true | None => false end.
  Definition any_param_set (c : command) (s : sorted) : bool :=
    match c with
    | Raw => is_set s "index"
    | Moment => is_set s "level"
    | Localizing | Commutator => is_set s "level" || is_set s "word"
    | Extended => is_set s "level" || is_set s "extensions"
    | Values => is_set s "data"
    | Substituted => is_set s "matrix" || is_set s "rules"
    end || is_set s "reference_id".
  (** extra_parse_params: operator_matrix.cpp:113-119, moment_matrix.cpp:33-42, localizing_matrix.cpp:36-65, commutator_matrix.cpp:29-57 (the level goes to hierarchy_level of the parameters,
      which nothing reads; that of the importer stays 0), extended_matrix.cpp:21-32, value_matrix.cpp:26-34, substituted_matrix.cpp:20-30 *)
  Definition extra_parse_params (c : command) (s : sorted) : option request :=
    match c with
    | Raw => bind (named s "index" (rd_nat rd)) (fun i => Some (WantIndex i))
    | Moment => bind (named s "level" (rd_nat rd)) (fun l => bind (neighbours s) (fun n => Some (WantMoment l n)))
    | Localizing => bind (named s "level" (rd_nat rd)) (fun l => bind (named s "word" (rd_expr rd (indexing s) (expr_type s))) (fun e => bind (neighbours s) (fun n => Some (WantLocalizing l n e))))
    | Commutator =>
        bind (named s "level" (rd_nat rd)) (fun _ => bind (named s "word" (rd_expr rd (indexing s) (expr_type s))) (fun e => bind (neighbours s) (fun n =>
          Some (WantCommutator (mem "anticommutator" (so_flags s)) 0 n e))))
    | Extended => bind (named s "level" (rd_nat rd)) (fun l => bind (named s "extensions" (rd_ext rd)) (fun x => Some (WantExtended l x)))
    | Values => bind (named s "data" (rd_data rd)) (fun d => Some (WantValues d (label s)))
    | Substituted =>
        bind (named s "matrix" (rd_nat rd)) (fun m => bind (lookup "rules" (so_params s)) (fun _ => bind (named s "matrix" (rd_nat rd)) (fun r => Some (WantSubstituted m r))))
    end.
  (** extra_parse_inputs: operator_matrix.cpp:121-124, moment_matrix.cpp:44-50, localizing_matrix.cpp:67-92, commutator_matrix.cpp:59-87, extended_matrix.cpp:34-44, value_matrix.cpp:36-42,
      substituted_matrix.cpp:32-37 *)
  Definition extra_parse_inputs (c : command) (s : sorted) : option request :=
    match c with
    | Raw => bind (input s 1 (rd_nat rd)) (fun i => Some (WantIndex i))
    | Moment => bind (input s 1 (rd_nat rd)) (fun l => bind (neighbours s) (fun n => Some (WantMoment l n)))
    | Localizing => bind (input s 1 (rd_nat rd)) (fun l => bind (input s 2 (rd_expr rd (indexing s) (expr_type s))) (fun e => bind (neighbours s) (fun n => Some (WantLocalizing l n e))))
    | Commutator =>
        bind (input s 1 (rd_nat rd)) (fun l => bind (input s 2 (rd_expr rd (indexing s) (expr_type s))) (fun e => bind (neighbours s) (fun n =>
          Some (WantCommutator (mem "anticommutator" (so_flags s)) l n e))))
    | Extended => bind (input s 1 (rd_nat rd)) (fun l => bind (input s 2 (rd_ext rd)) (fun x => Some (WantExtended l x)))
    | Values => bind (input s 1 (rd_data rd)) (fun d => Some (WantValues d (label s)))
    | Substituted => bind (input s 1 (rd_nat rd)) (fun m => bind (input s 2 (rd_nat rd)) (fun r => Some (WantSubstituted m r)))
    end.
  (** the output mode: position in the names, from 1; Properties (5) by default *)
  Definition output_mode (s : sorted) : nat := match first_intersection_index String.ltb (so_flags s) mode_names with Some i => i + 1 | None => 5 end.
  (** OperatorMatrixParams::parse, operator_matrix.cpp:62-106 *)
  Definition parse (c : command) (s : sorted) : option (nat * K * request) :=
    if any_param_set c s then
      match so_inputs s with
      | [] => bind (named s "reference_id" (rd_key rd)) (fun k => bind (extra_parse_params c s) (fun r => Some (output_mode s, k, r)))
      | _ :: _ => None
      end
    else if Nat.eqb (List.length (so_inputs s)) (inputs_required c)
         then bind (input s 0 (rd_key rd)) (fun k => bind (extra_parse_inputs c s) (fun r => Some (output_mode s, k, r)))
         else None.
  (** MexMain::operator(), mex_main.cpp:112-147, up to the execution of the command; validate_inputs, 258-277.  (With debug_preprocess the request is printed and not carried out.) *)
  Definition call (c : command) (args : list A) : tout (nat * K * request) :=
    match clean_inputs (param_names c) (flag_names c) args with
    | Value s =>
        if Nat.ltb (inputs_required c) (List.length (so_inputs s)) then Throws
        else match validate (exclusions c) (so_flags s) (map fst (so_params s)) with
             | Some _ => Throws
             | None => match parse c s with Some r => Value r | None => Throws end
             end
    | Throws => Throws
    | Undefined => Undefined
    end.
End Args.
Arguments request : clear implicits.
Arguments readers : clear implicits.
Arguments sorted : clear implicits.
