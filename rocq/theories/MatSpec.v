(** Specification of parallel matrix generation. *)
From Coq Require Import List Arith Bool.
From Verif Require Import ParModel MatModel.
Import ListNotations.

(** the command at position (thread, number) *)
Definition cmd_at {A} (ths : list (list (cmd A))) (p : nat * nat) : option (cmd A) :=
  match nth_error ths (fst p) with Some l => nth_error l (snd p) | None => None end.
(** no data race, in the sense of C++: of two conflicting accesses by different threads one happens before the other *)
Definition race_free {A} (cj sm : A -> A) (numel : nat) (ths : list (list (cmd A))) : Prop :=
  forall a b x y l, cmd_at ths a = Some x -> cmd_at ths b = Some y -> fst a <> fst b ->
    In l (writes x) -> In l (writes y) \/ In l (reads numel y) ->
    hb (map (map (instr_of cj sm)) ths) a b \/ hb (map (map (instr_of cj sm)) ths) b a.
(** the matrix whose (row, column) entry, stored column by column, is the functor of row and column *)
Definition generated {A} (f : A -> A -> A) (rows cols m : list A) : Prop :=
  length m = length rows * length cols /\
  forall r c x y, nth_error rows r = Some x -> nth_error cols c = Some y -> nth_error m (c * length rows + r) = Some (f x y).
(** the functor makes a Hermitian matrix: swapping row and column conjugates *)
Definition hermitian_by {A} (f : A -> A -> A) (cj : A -> A) (rows cols : list A) : Prop :=
  forall r c xr yr xc yc, nth_error rows r = Some xr -> nth_error cols r = Some yr -> nth_error rows c = Some xc -> nth_error cols c = Some yc ->
    f xc yr = cj (f xr yc).
