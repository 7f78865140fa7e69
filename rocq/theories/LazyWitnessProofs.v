(** A concrete matrix, whose coefficients are complex: no basis of real type, as in matrix_basis.cpp:161-176. *)
From Coq Require Import List Arith Bool Lia.
From Verif Require Import LazyModel LazySpec LazyProofs LazyRunProofs.
Import ListNotations.

Definition make3 (dense cplx : bool) : option (nat * nat) := if cplx then Some (if dense then (1, 2) else (3, 4)) else None.
Definition infer3 (dense cplx : bool) (v : nat * nat) : nat * nat := (fst v + 10, snd v + 10).
Definition dm : bkind := mk_bk true true true.
Definition dc : bkind := mk_bk true true false.
Definition dr : bkind := mk_bk true false true.
Definition progs3 : list (list bkind) := [[dm; dc]; [dc; dr]; [dm; dm]].
Fixpoint robin (k n : nat) : list nat := match k with 0 => [] | S k' => seq 0 n ++ robin k' n end.
Definition mid : bstate nat := brun nat make3 infer3 (robin 12 3) (bstart nat progs3).
Definition fin : bstate nat := brun nat make3 infer3 (robin 60 3) (bstart nat progs3).
Lemma fin_log : map bt_log (bs_threads fin) =
  [[(dm, Some (Some 11, Some 12)); (dc, Some (Some 1, Some 2))]; [(dc, Some (Some 1, Some 2)); (dr, None)]; [(dm, Some (Some 11, Some 12)); (dm, Some (Some 11, Some 12))]].
Proof. vm_compute. reflexivity. Qed.
