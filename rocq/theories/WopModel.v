(** The commands that simplify and conjugate words of operators: mex_functions/functions/algebraic/{simplify.cpp, conjugate.cpp}. *)
From Coq Require Import List NArith ZArith Arith Bool.
From Verif Require Import CoreModel AlgModel TextModel.
Import ListNotations.
Local Open Scope list_scope.
Local Open Scope nat_scope.

(** The second input: an array of integers, a cell array of such, strings (or characters, each a string), or something else.  Arrays of real numbers are cast
    in the same way when they hold integers that fit; see StgModel for others. *)
Inductive wgiven := WNumbers (l : list Z) | WCells (shape : list nat) (l : list (list Z)) | WNames (l : list text) | WOther.
(** BadParameter; std::terminate or out of fuel when a word is made *)
Inductive wout (A : Type) := WOk (a : A) | WErr | WDie.
Arguments WOk {A}. Arguments WErr {A}. Arguments WDie {A}.
Definition wbind {A B} (x : wout A) (f : A -> wout B) : wout B := match x with WOk a => f a | WErr => WErr | WDie => WDie end.
Fixpoint weach {A B} (f : A -> wout B) (l : list A) : wout (list B) :=
  match l with [] => WOk [] | a :: r => wbind (f a) (fun b => wbind (weach f r) (fun bs => WOk (b :: bs))) end.
Definition of_res {A} (x : res A) : wout A := match x with Ret a => WOk a | _ => WDie end.
(** The three outputs for a word: operators, sign (as a complex number; here the sign itself), hash *)
Record shown := mk_shown { x_ops : list nat; x_sign : sign; x_hash : N }.
Inductive answer := XOne (r : shown) | XMany (shape : list nat) (l : list shown).

(** static_cast<int16_t>, read_as_vector.cpp:68, integer_types.h:41 *)
Definition cast16 (z : Z) : Z := ((z + 2 ^ 15) mod 2 ^ 16 - 2 ^ 15)%Z.
(** simplify.cpp:117-122 and conjugate.cpp:38-43 *)
Definition from_matlab (z : Z) : wout nat := if (cast16 z <? 1)%Z then WErr else WOk (Z.to_nat (cast16 z - 1)).
(** export_operator_sequence, export/export_operator_sequence.cpp:14-27, sign and hash *)
Definition show (q : hseq) : shown := mk_shown (map S (hs_ops q)) (hs_sign q) (hs_hash q).
(** scalar_input, conjugate.cpp:59-61 *)
Definition scalar_shape (s : list nat) : bool := match s with [a; b] => (a =? 1) && (b =? 1) | _ => false end.
Definition answered (shape : list nat) (rs : list shown) : wout answer :=
  if scalar_shape shape then match rs with r :: _ => WOk (XOne r) | [] => WDie end else WOk (XMany shape rs).

Section Commands.
  (** the number of operators of the context, its construction of a sequence from operators, and OperatorSequence::conjugate *)
  Variable n : nat.
  Variable make : word -> res hseq.
  Variable conj : hseq -> res hseq.
  (** the operators' names, in algebraic scenarios *)
  Variable named : option names.
  (** strings read as integers, read_as_vector.cpp:86-113 *)
  Variable scan : text -> option Z.
  (** simplify.cpp:52-64, conjugate.cpp:160-173 *)
  Definition in_range (w : word) : bool := forallb (fun o => o <? n) w.
  Definition simplified (w : word) : wout shown := wbind (of_res (make w)) (fun q => WOk (show q)).
  Definition conjugated (w : word) : wout shown := if in_range w then wbind (of_res (make w)) (fun q => wbind (of_res (conj q)) (fun c => WOk (show c))) else WErr.
  (** Simplify::operator(), simplify.cpp:189-288, with parse_as_operators, 83-177, and process_input_string, 28-79 *)
  Definition simplify_words (g : wgiven) : wout answer :=
    match g with
    | WNumbers l => wbind (weach from_matlab l) (fun w => if in_range w then wbind (simplified w) (fun r => WOk (XOne r)) else WErr)
    | WCells shape ls => wbind (weach (weach from_matlab) ls) (fun ws => if forallb in_range ws then wbind (weach simplified ws) (answered shape) else WErr)
    | WNames l =>
        match named with
        | None => WErr
        | Some t => wbind (weach (fun x => match find_operator t x with Some o => WOk o | None => WErr end) l) (fun w => wbind (simplified w) (fun r => WOk (XOne r)))
        end
    | WOther => WErr
    end.
  (** Conjugate::operator(), conjugate.cpp:71-158, with ConjugateParams, 23-57.  Characters are not modelled here. *)
  Definition conjugate_words (g : wgiven) : wout answer :=
    match g with
    | WNumbers l => wbind (weach from_matlab l) (fun w => wbind (conjugated w) (fun r => WOk (XOne r)))
    | WCells shape ls => wbind (weach (weach from_matlab) ls) (fun ws => wbind (weach conjugated ws) (answered shape))
    | WNames l => wbind (weach (fun x => match scan x with Some z => from_matlab z | None => WErr end) l) (fun w => wbind (conjugated w) (fun r => WOk (XOne r)))
    | WOther => WErr
    end.
End Commands.
