(** What a bank of objects promises. *)
From Coq Require Import List NArith Arith Bool.
From Verif Require Import LockModel StorageModel.
Import ListNotations.

Section Bank.
  Context {A : Type}.
  (** state of a new bank after a history *)
  Definition after (sig : N) (h : list (bank_op A)) : bank A := fst (bank_run sig h new_bank).
  (** result of an operation performed after a history *)
  Definition result (sig : N) (h : list (bank_op A)) (op : bank_op A) : bank_out A := snd (bank_run1 sig op (after sig h)).
  (** objects stored since the bank was last cleared *)
  Definition stored (h : list (bank_op A)) : N := fold_left (fun n op => match op with Store _ _ => n + 1 | Clear => 0 | _ => n end)%N h 0%N.
  (** [x], stored under key [k] at some moment of the history, was neither released nor cleared since *)
  Definition alive (sig : N) (h : list (bank_op A)) (k : N) (x : A) : Prop :=
    exists h1 h2 s, h = h1 ++ Store s x :: h2 /\ result sig h1 (Store s x) = BKey k /\ ~ In (Release k) h2 /\ ~ In Clear h2.
  (** keys are 64-bit, signatures 32-bit *)
  Definition bits (n : N) (x : N) : Prop := (x < 2 ^ n)%N.
  Definition key_op (op : bank_op A) : Prop := match op with Release k | Get k => bits 64 k | _ => True end.
End Bank.
