(** C83: trees of objects addressed by paths of indices. *)
From Coq Require Import ZArith Arith Bool List Lia.
From Verif Require Import RecModel RecSpec RecProofs RecFinalProofs.
Import ListNotations.
Local Open Scope list_scope.

(** Writing is possible exactly where there is an object ... *)
Theorem C83_set_defined : forall T p x (t : rtree T), (exists t', set p x t = Some t') <-> (exists y, object_at t p = Some y).
Proof. exact set_defined. Qed.
Print Assumptions C83_set_defined.
(** ... what was written is there afterwards ... *)
Theorem C83_set_same : forall T p x (t t' : rtree T), set p x t = Some t' -> object_at t' p = Some x.
Proof. exact set_same. Qed.
Print Assumptions C83_set_same.
(** ... and nothing else has changed. *)
Theorem C83_set_other : forall T p x (t t' : rtree T) q, Forall word64 p -> Forall word64 q -> p <> q -> set p x t = Some t' -> object_at t' q = object_at t q.
Proof. exact set_other. Qed.
Print Assumptions C83_set_other.
Example C83_set_nonvacuous : set [1; 3]%Z 9 tree0 = Some tree1 /\ object_at tree1 [1; 3]%Z = Some 9 /\ object_at tree1 [0; 3]%Z = Some 7 /\ object_at tree1 [1; 0]%Z = None.
Proof. split; [exact tree1_set|exact tree1_at]. Qed.

(** A visitor sees every object, with its path, ... *)
Theorem C83_visit_all : forall T (t : rtree T) p x, modest t -> (In (p, x) (visit t) <-> Forall word64 p /\ object_at t p = Some x).
Proof. exact visit_all. Qed.
Print Assumptions C83_visit_all.
(** ... once. *)
Theorem C83_visit_once : forall T (t : rtree T), modest t -> NoDup (map fst (visit t)).
Proof. exact visit_once. Qed.
Print Assumptions C83_visit_once.
Example C83_visit_nonvacuous : modest tree0 /\ length (visit tree0) = 14.
Proof. split; [exact tree0_modest|exact tree0_visit]. Qed.

(** A tree by width and depth has an object for every path up to that depth of indices below the width. *)
Theorem C83_wide : forall T w d (x : T) p, (Z.of_nat w < 2 ^ 63)%Z -> Forall word64 p ->
  (object_at (wide w d x) p = Some x <-> length p <= d /\ Forall (fun i => (i < Z.of_nat w)%Z) p) /\ (object_at (wide w d x) p = Some x \/ object_at (wide w d x) p = None).
Proof. exact wide_at. Qed.
Print Assumptions C83_wide.
Example C83_wide_nonvacuous : object_at (wide 3 2 7) [2; 0]%Z = Some 7 /\ object_at (wide 3 2 7) [3]%Z = None /\ object_at (wide 3 2 7) [0; 0; 0]%Z = None.
Proof. repeat split. Qed.
(** A tree by chunks has an object for every path, up to the depth, that takes at most one index of each chunk, from left to right. *)
Theorem C83_chunks : forall T d (x : T) cs l, (Z.of_nat (total cs) < 2 ^ 63)%Z -> Forall (fun i => word64 (Z.of_nat i)) l ->
  (object_at (chunky d cs x 0) (map Z.of_nat l) = Some x <-> length l <= d /\ monotonic cs l) /\
  (object_at (chunky d cs x 0) (map Z.of_nat l) = Some x \/ object_at (chunky d cs x 0) (map Z.of_nat l) = None).
Proof. exact @chunks_at. Qed.
Print Assumptions C83_chunks.
Example C83_chunks_nonvacuous : object_at (chunky 2 [2; 1; 2] 7 0) (map Z.of_nat [1; 3]) = Some 7 /\ object_at (chunky 2 [2; 1; 2] 7 0) (map Z.of_nat [0; 1]) = None
  /\ object_at (chunky 2 [2; 1; 2] 7 0) (map Z.of_nat [0; 2; 3]) = None.
Proof. repeat split. Qed.
(** Such trees, and what writing makes of them, meet the condition on visitors. *)
Theorem C83_modest_wide : forall T w d (x : T), (Z.of_nat w <= 2 ^ 61)%Z -> modest (wide w d x).
Proof. exact @wide_modest. Qed.
Print Assumptions C83_modest_wide.
Theorem C83_modest_chunks : forall T d (x : T) cs, (Z.of_nat (total cs) <= 2 ^ 61)%Z -> modest (chunky d cs x 0).
Proof. exact @chunky_modest. Qed.
Print Assumptions C83_modest_chunks.
Theorem C83_modest_set : forall T p (x : T) t t', modest t -> set p x t = Some t' -> modest t'.
Proof. exact @set_modest. Qed.
Print Assumptions C83_modest_set.
Example C83_modest_nonvacuous : (Z.of_nat (total [2; 1; 2]%nat) <= 2 ^ 61)%Z /\ modest tree1.
Proof. split; [cbn; lia|]. exact (set_modest [1; 3]%Z 9 tree0 tree1 tree0_modest tree1_set). Qed.

(** The reference to the object of the node itself can be read; the reference returned for a path never can. *)
Theorem C83_access_here_partial : forall T (t : rtree T), deref access_here t = object_at t [].
Proof. exact @here_object. Qed.
Print Assumptions C83_access_here_partial.
Theorem C83_access_refuted : forall T p (t : rtree T) y, object_at t p = Some y -> exists r, access p t = Some r /\ forall t' : rtree T, deref r t' = None.
Proof. exact @access_gone. Qed.
Print Assumptions C83_access_refuted.
Example C83_access_nonvacuous : object_at tree0 [1; 3]%Z = Some 7. Proof. reflexivity. Qed.
