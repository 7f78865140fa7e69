(** C40: the iterators over subsets, multisets, partitions and compositions list exactly what they describe, in order. *)
From Coq Require Import List NArith Arith Bool.
From Verif Require Import CoreModel CoreSpec AlgModel EnumModel EnumSpec CombModel CombSpec CombFinalProofs.
Import ListNotations.

Theorem C40_combinations : forall n k, k <= n -> exists l,
  (forall fuel, length l <= fuel -> comb_run false fuel n k = Ret l) /\
  lists_in_order colex_lt (subset_of n k) l /\ length l = binomial n k.
Proof. exact combinations_listed. Qed.
Print Assumptions C40_combinations.
(** the hypothesis holds for 2 out of 4, and the list is not trivial *)
Example C40_combinations_nonvacuous : 2 <= 4 /\ comb_run false 6 4 2 = Ret [[0;1];[0;2];[1;2];[0;3];[1;3];[2;3]].
Proof. split; [repeat constructor|vm_compute; reflexivity]. Qed.

Theorem C40_multisets : forall n k, 0 < n \/ k = 0 -> exists l,
  (forall fuel, length l <= fuel -> comb_run true fuel n k = Ret l) /\
  lists_in_order lex_lt (multiset_of n k) l /\ length l = binomial (n + k - 1) k.
Proof. exact multisets_listed. Qed.
Print Assumptions C40_multisets.
Example C40_multisets_nonvacuous : (0 < 3 \/ 2 = 0) /\ comb_run true 6 3 2 = Ret [[0;0];[0;1];[0;2];[1;1];[1;2];[2;2]].
Proof. split; [left; repeat constructor|vm_compute; reflexivity]. Qed.

Theorem C40_partitions : forall n k, k <= n -> exists l,
  (forall fuel, length l <= fuel -> parts_run fuel n k = Ret (map (fun x => (x, complement_of n x, membership n x)) l)) /\
  lists_in_order colex_lt (subset_of n k) l /\ length l = binomial n k.
Proof. exact partitions_listed. Qed.
Print Assumptions C40_partitions.
Example C40_partitions_nonvacuous : 2 <= 3 /\ parts_run 3 3 2 =
  Ret [([0;1], [2], [true;true;false]); ([0;2], [1], [true;false;true]); ([1;2], [0], [false;true;true])].
Proof. split; [repeat constructor|vm_compute; reflexivity]. Qed.

Theorem C40_ordered_permutations : forall n k, 0 < n -> exists l,
  (forall fuel, length l <= fuel -> operm_run fuel n k = Ret l) /\
  lists_in_order lex_lt (multiset_of n k) l /\ length l = binomial (n + k - 1) k.
Proof. exact ordered_listed. Qed.
Print Assumptions C40_ordered_permutations.
Example C40_ordered_permutations_nonvacuous : 0 < 2 /\ operm_run 4 2 3 = Ret [[0;0;0];[0;0;1];[0;1;1];[1;1;1]].
Proof. split; [repeat constructor|vm_compute; reflexivity]. Qed.

Theorem C40_triangular_unique : forall n k, 0 < k -> exists l,
  (forall fuel, length l <= fuel -> tri_run false fuel n k = Ret l) /\
  lists_in_order lex_lt (subset_of n k) l /\ length l = binomial n k.
Proof. exact unique_triangular_listed. Qed.
Print Assumptions C40_triangular_unique.
Example C40_triangular_unique_nonvacuous : 0 < 2 /\ tri_run false 6 4 2 = Ret [[0;1];[0;2];[0;3];[1;2];[1;3];[2;3]].
Proof. split; [repeat constructor|vm_compute; reflexivity]. Qed.

Theorem C40_triangular_duplicates : forall n k, 0 < k -> exists l,
  (forall fuel, length l <= fuel -> tri_run true fuel n k = Ret l) /\
  lists_in_order lex_lt (multiset_of n k) l /\ length l = binomial (n + k - 1) k.
Proof. exact duplicate_triangular_listed. Qed.
Print Assumptions C40_triangular_duplicates.
Example C40_triangular_duplicates_nonvacuous : 0 < 2 /\ tri_run true 6 3 2 = Ret [[0;0];[0;1];[0;2];[1;1];[1;2];[2;2]].
Proof. split; [repeat constructor|vm_compute; reflexivity]. Qed.

Theorem C40_triangular_empty_word : forall dup n fuel, tri_run dup fuel n 0 = Ret [].
Proof. exact empty_triangular. Qed.
Print Assumptions C40_triangular_empty_word.
(* no hypotheses *)

Theorem C40_multipartitions : forall s k, 0 < k -> exists l,
  (forall fuel, length l <= fuel -> mpi_run_fwd fuel s k = Ret l /\ mpi_run_rev fuel s k = Ret (rev l)) /\
  lists_in_order lex_lt (composition s k) l /\ length l = binomial (s + (k - 1)) (k - 1).
Proof. exact multipartitions_listed. Qed.
Print Assumptions C40_multipartitions.
Example C40_multipartitions_nonvacuous : 0 < 2 /\ mpi_run_fwd 4 3 2 = Ret [[0;3];[1;2];[2;1];[3;0]] /\ mpi_run_rev 4 3 2 = Ret [[3;0];[2;1];[1;2];[0;3]].
Proof. split; [repeat constructor|split; vm_compute; reflexivity]. Qed.

Theorem C40_count : forall n k, k <= n -> (N.of_nat (binomial n k) * N.of_nat (fact k) < word64)%N ->
  combination_count (comb_start false n k) = Some (N.of_nat (binomial n k)).
Proof. exact count_right. Qed.
Print Assumptions C40_count.
Example C40_count_nonvacuous : 4 <= 9 /\ (N.of_nat (binomial 9 4) * N.of_nat (fact 4) < word64)%N /\ combination_count (comb_start false 9 4) = Some 126%N.
Proof. split; [repeat constructor|split; vm_compute; reflexivity]. Qed.

Theorem C40_count_wrap_refuted : exists n k, k <= n /\ combinations n k <> Some (N.of_nat (binomial n k)).
Proof. exact count_wrap_refuted. Qed.
Print Assumptions C40_count_wrap_refuted.
(* an existence statement: the witness is in the proof *)

Theorem C40_count_undefined_refuted : exists n k, k <= n /\ combinations n k = None.
Proof. exact count_undefined_refuted. Qed.
Print Assumptions C40_count_undefined_refuted.
(* an existence statement: the witness is in the proof *)

Theorem C40_count_inclusive_refuted : exists n k l, comb_run true 10 n k = Ret l /\
  combination_count (comb_start true n k) <> Some (N.of_nat (length l)).
Proof. exact count_inclusive_refuted. Qed.
Print Assumptions C40_count_inclusive_refuted.
(* an existence statement: the witness is in the proof *)

Theorem C40_inclusive_empty_refuted : exists k l x, comb_run true 10 0 k = Ret l /\ In x l /\ ~ multiset_of 0 k x.
Proof. exact inclusive_empty_refuted. Qed.
Print Assumptions C40_inclusive_empty_refuted.
(* an existence statement: the witness is in the proof *)
