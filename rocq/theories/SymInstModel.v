(** Contexts as the symbol table sees them. *)
From Coq Require Import List NArith Arith Bool.
From Verif Require Import CoreModel AlgModel PauliModel LocModel SymModel.
Import ListNotations.

(** A conjugation that throws or does not return has no model here; [lawful] is only claimed where it returns. *)
Definition or_self (q : hseq) (r : res hseq) : hseq := match r with Ret x => x | _ => q end.
(** LocalityContext: context.cpp:71-95 (no aliases; simplify_as_moment is the identity there) *)
Definition loc_sctx (sc : scenario) (osg : nat -> list hseq) : sctx :=
  mk_sctx (fun q => or_self q (loc_conjugate sc q)) false (fun q => q) (fun _ => false) osg.
(** PauliContext without translational symmetry; conjugate is pauli_context.cpp:354-357 *)
Definition pauli_sctx (osg : nat -> list hseq) : sctx := mk_sctx pauli_conjugate false (fun q => q) (fun _ => false) osg.
(** AlgebraicContext: algebraic_context.cpp:151-163 *)
Definition alg_sctx (fuel : nat) (ctx : acontext) (osg : nat -> list hseq) : sctx :=
  mk_sctx (fun q => or_self q (conjugate fuel ctx q)) false (fun q => q) (fun _ => false) osg.
