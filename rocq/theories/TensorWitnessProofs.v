(** Examples and counterexamples for tensors. *)
From Coq Require Import List NArith Arith Bool Lia.
From Verif Require Import CoreModel CoreSpec AlgModel EnumModel EnumSpec TensorModel TensorSpec TensorProofs TensorFinalProofs SquareModel SquareSpec.
Import ListNotations.
Local Open Scope nat_scope.
Ltac small_dims := unfold small; vm_compute; reflexivity.
Ltac idx := unfold index_of, between; repeat constructor.
Lemma offset_example : index_of [3; 4; 5] [2; 0; 4] /\ small [3; 4; 5] /\
  position true [3; 4; 5] [2; 0; 4] = 50 /\ position false [3; 4; 5] [2; 0; 4] = 44.
Proof. split; [idx|]. split; [small_dims|]. split; reflexivity. Qed.
Lemma bad_index_example : ~ index_of [3; 4] [2; 4] /\ ~ index_of [3; 4] [2].
Proof. unfold index_of. split; intro H; inversion H as [|? ? ? ? ? R]; subst; inversion R; subst; lia. Qed.
Lemma round_trip_example : small [3; 4; 5] /\ (50 < N.of_nat (volume [3; 4; 5]%nat))%N /\
  offset_to_index true [3; 4; 5] 50 = Value [2; 0; 4] /\ offset_to_index false [3; 4; 5] 44 = Value [2; 0; 4].
Proof. repeat split. Qed.
Lemma bad_offset_example : small [3; 4; 5] /\ (N.of_nat (volume [3; 4; 5]%nat) <= 60)%N /\ element_count [3; 4; 5] = 60%N.
Proof. split; [small_dims|]. split; [vm_compute; discriminate|reflexivity]. Qed.
Lemma iterator_example : volume [2; 2] <= 4 /\
  index_iterator 4 true [2; 2] = Ret [([0; 0], 0); ([1; 0], 1); ([0; 1], 2); ([1; 1], 3)] /\
  index_iterator 4 false [2; 2] = Ret [([0; 0], 0); ([0; 1], 1); ([1; 0], 2); ([1; 1], 3)].
Proof. split; [vm_compute; lia|]. split; reflexivity. Qed.
Lemma range_example : corners [3; 4] [1; 2] [3; 4] /\ volume [3; 4] <= 12 /\
  mdoi_run 12 true [1; 2] [3; 4] = Ret [([1; 2], 0); ([2; 2], 1); ([1; 3], 2); ([2; 3], 3)].
Proof. split; [unfold corners; repeat split; idx|]. split; [vm_compute; lia|reflexivity]. Qed.
Lemma flattener_example : small [3; 4] /\ Forall2 (fun d l => Forall (fun i => i < d) l) [3; 4] [[2; 0]; [1; 3; 1]] /\
  small (index_sizes [[2; 0]; [1; 3; 1]]) /\ volume (index_sizes [[2; 0]; [1; 3; 1]]) <= 6 /\
  flatten_all 6 [3; 4] [[2; 0]; [1; 3; 1]] = Ret (Value [5; 3; 11; 9; 5; 3]%N).
Proof. split; [small_dims|]. split; [repeat constructor|]. split; [small_dims|]. split; [vm_compute; lia|reflexivity]. Qed.
Lemma no_dimensions_witness : exists index, index_of [] index /\ small [] /\
  exists o, index_to_offset true [] index = Value o /\ offset_to_index true [] o = Throws.
Proof. exists []. split; [idx|]. split; [small_dims|]. exists 0%N. split; reflexivity. Qed.
Definition big_dim : nat := Nat.pow 2 16.
Lemma huge_witness : exists dims index o, dims <> [] /\ index_of dims index /\
  index_to_offset true dims index = Value o /\ offset_to_index true dims o = Throws.
Proof.
  exists [big_dim; big_dim; big_dim; big_dim], [1; 0; 0; 0], 1%N. split; [discriminate|].
  assert (B : 1 < big_dim) by (apply Nat.ltb_lt; vm_compute; reflexivity).
  assert (Z : 0 < big_dim) by (apply Nat.ltb_lt; vm_compute; reflexivity).
  split; [unfold index_of; exact (Forall2_cons _ _ B (Forall2_cons _ _ Z (Forall2_cons _ _ Z (Forall2_cons _ _ Z (Forall2_nil _)))))|].
  split; vm_compute; reflexivity.
Qed.
Lemma triangle_example : triangle_run 9 true false (mk_square 3 (seq 0 9)) =
    Ret [(0, 1, 3, Some 3); (0, 2, 6, Some 6); (1, 2, 7, Some 7)] /\
  triangle_run 9 false true (mk_square 2 (seq 0 4)) = Ret [(0, 0, 0, Some 0); (1, 0, 1, Some 1); (1, 1, 3, Some 3)] /\
  triangle_run 9 false false (mk_square 1 [0]) = Ret [] /\ triangle_run 9 true true (mk_square 0 (@nil nat)) = Ret [].
Proof. repeat split. Qed.
Lemma pad_example : full_matrix 2 [1; 2; 3; 4] /\ transpose_run 4 (mk_square 2 [1; 2; 3; 4]) = Ret [Some 1; Some 3; Some 2; Some 4] /\
  sq_data (sq_pad (mk_square 2 [1; 2; 3; 4]) 1 0) = [1; 2; 0; 3; 4; 0; 0; 0; 0].
Proof. repeat split. Qed.
Lemma storage_example : small [2; 3] /\ volume [2; 3] <= 6 /\ corners [2; 3] [1; 0] [2; 3] /\
  (exists t, tensor_make (fun i => i) 6 6 None [2; 3] = Ret t /\ tn_storage t = Explicit) /\
  (exists t, tensor_make (fun i => i) 6 5 None [2; 3] = Ret t /\ tn_storage t = Virtual /\
     splice_run (fun i => i) 6 t [1; 0] [2; 3] =
       Ret (Value [([1; 0], 1%N, [1; 0], 0); ([1; 1], 3%N, [1; 1], 1); ([1; 2], 5%N, [1; 2], 2)])).
Proof.
  split; [small_dims|]. split; [vm_compute; lia|]. split; [unfold corners; repeat split; idx|]. split.
  - eexists. split; reflexivity.
  - eexists. split; [reflexivity|]. split; reflexivity.
Qed.
Lemma no_dimensions_storage : exists t1 t2, tensor_make (fun i => i) 1 1 (Some Explicit) [] = Ret t1 /\
  tensor_make (fun i => i) 1 1 (Some Virtual) [] = Ret t2 /\
  elem (fun i => i) t1 [] = Undefined /\ elem (fun i => i) t2 [] = Value [].
Proof. eexists. eexists. split; [reflexivity|]. split; [reflexivity|]. split; reflexivity. Qed.
