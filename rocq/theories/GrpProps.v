(** C62: generation of a finite group of symmetries from generators. *)
From Coq Require Import List Arith Bool Permutation ZArith.
From Verif Require Import CoreModel AlgModel GrpModel GrpSpec GrpDiminoProofs GrpFinalProofs GrpWitnessProofs.
Import ListNotations.

(** The generators generate the finite group whose members are listed in G, and the first has order at most max + 1: every member is made exactly once,
    the identity first, and nothing else; as many steps as there are members suffice. *)
Theorem C62_generates : forall (E : Type) (mul : E -> E -> E) (one one1 : E) (eqb : E -> E -> bool) (G : list E),
  NoDup G -> group mul one G -> (forall x y, In x G -> In y G -> (eqb x y = true <-> x = y)) ->
  forall (max : nat) (g : E) (rest : list E),
  incl (g :: rest) G -> (forall x, In x G -> generated mul one (g :: rest) x) -> (exists k, 1 <= k <= S max /\ power mul one g k = one) ->
  exists els, Permutation els G /\ hd_error els = Some one /\
    (forall fuel, length G <= fuel -> dimino mul eqb one one1 fuel max (g :: rest) = Ret (Some els)) /\
    (forall fuel, dimino mul eqb one one1 fuel max (g :: rest) = Ret (Some els) \/ dimino mul eqb one one1 fuel max (g :: rest) = NoFuel).
Proof. exact f_generates. Qed.
Print Assumptions C62_generates.
Example C62_generates_case : NoDup s3 /\ group comp id3 s3 /\ (forall x y, In x s3 -> In y s3 -> (leqb x y = true <-> x = y)) /\
  incl [swap01; swap12] s3 /\ (forall x, In x s3 -> generated comp id3 [swap01; swap12] x) /\ (exists k, 1 <= k <= S 10 /\ power comp id3 swap01 k = id3) /\
  dimino comp leqb id3 [0] 6 10 [swap01; swap12] = Ret (Some [[0; 1; 2]; [1; 0; 2]; [0; 2; 1]; [1; 2; 0]; [2; 0; 1]; [2; 1; 0]]).
Proof. exact (conj s3_nodup (conj s3_group (conj (fun x y _ _ => leqb_eq x y) (conj s3_gens (conj s3_generated (conj (ex_intro _ 2 (conj (conj (le_S 1 1 (le_n 1)) (le_S _ _ (le_S _ _ (le_S _ _ (le_S _ _ (le_S _ _ (le_S _ _ (le_S _ _ (le_S _ _ (le_S _ _ (le_n 2))))))))))) eq_refl)) s3_case)))))). Qed.

(** Without generators: the trivial group (of 1x1 matrices, as nothing tells the dimension). *)
Theorem C62_no_generators : forall (E : Type) (mul : E -> E -> E) (one : E) (eqb : E -> E -> bool) fuel max,
  exists els, dimino mul eqb one one fuel max [] = Ret (Some els) /\ NoDup els /\ forall x, In x els <-> generated mul one [] x.
Proof. exact f_none. Qed.
Print Assumptions C62_no_generators.
Example C62_no_generators_case : dimino comp leqb id3 id3 0 10 [] = Ret (Some [id3]). Proof. exact eq_refl. Qed.

(** An exception when the first generator does not return to the identity in max + 1 steps. *)
Theorem C62_throws : forall (E : Type) (mul : E -> E -> E) (one one1 : E) (eqb : E -> E -> bool),
  (forall x, mul one x = x) -> (forall x y, eqb x y = true <-> x = y) ->
  forall max g rest fuel, (forall k, 1 <= k <= S max -> power mul one g k <> one) -> dimino mul eqb one one1 fuel max (g :: rest) = Ret None.
Proof. exact dimino_throws. Qed.
Print Assumptions C62_throws.
Example C62_throws_case : (forall x, dmul d1 x = x) /\ (forall x y, deqb x y = true <-> x = y) /\ (forall k, 1 <= k <= S 20 -> power dmul d1 (1%Z, false) k <> d1) /\
  dimino dmul deqb d1 d1 5 20 [(1%Z, false); da] = Ret None.
Proof. exact f_shift. Qed.

(** The limit does not bound the group: with generators of order two that generate an infinite group, the program never stops. *)
Theorem C62_limit_refuted : exists (E : Type) (mul : E -> E -> E) (eqb : E -> E -> bool) (one : E) (gens : list E) (max : nat),
  (forall x y, eqb x y = true <-> x = y) /\ (forall x y z, mul x (mul y z) = mul (mul x y) z) /\ (forall x, mul one x = x /\ mul x one = x) /\ (forall x, exists y, mul x y = one /\ mul y x = one) /\
  (forall g, In g gens -> mul g g = one) /\ max = 1000 /\ forall one1 fuel, dimino mul eqb one one1 fuel max gens = NoFuel.
Proof. exact f_endless. Qed.
Print Assumptions C62_limit_refuted.
