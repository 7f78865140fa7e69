(** Property C42: small utilities. *)
From Coq Require Import List ZArith Arith Bool Sorted.
From Verif Require Import AlgModel TensorModel UtilModel UtilSpec UtilProofs.
Import ListNotations.

(** Integer power of an unsigned type of [w] bits: the power, wrapped; for every base and exponent. *)
Theorem C42_ipow_unsigned : forall w fuel base exp, (1 <= w)%Z -> fits false w base -> (0 <= exp)%Z -> (exp < 2 ^ Z.of_nat fuel)%Z ->
  ipow fuel false w base exp = Ret (Value (base ^ exp mod 2 ^ w)%Z).
Proof. exact ipow_unsigned. Qed.
Print Assumptions C42_ipow_unsigned.
(** ... of a signed type: the power, whenever it fits and is not the least value. *)
Theorem C42_ipow_signed : forall w fuel base exp, (2 <= w)%Z -> fits true w base -> (0 <= exp)%Z -> (exp < 2 ^ Z.of_nat fuel)%Z ->
  (- 2 ^ (w - 1) < base ^ exp < 2 ^ (w - 1))%Z -> ipow fuel true w base exp = Ret (Value (base ^ exp)%Z).
Proof. exact ipow_signed. Qed.
Print Assumptions C42_ipow_signed.
Example C42_ipow_example : fits false 64 3 /\ fits true 64 (-3) /\ (- 2 ^ 63 < (-3) ^ 39 < 2 ^ 63)%Z /\ ipow 64 true 64 (-3) 39 = Ret (Value (-4052555153018976267)%Z).
Proof. vm_compute. repeat split; discriminate. Qed.
(** The least value itself is refused: the sign is put on at the end. *)
Theorem C42_ipow_least_refuted : exists base exp, fits true 64 base /\ fits true 64 (base ^ exp) /\ (0 <= exp)%Z /\ ipow 64 true 64 base exp = Ret Undefined.
Proof. exact ipow_least_refuted. Qed.
Print Assumptions C42_ipow_least_refuted.

(** The least rotation: no rotation is less than the chosen one, and the first of equal ones is chosen. *)
Theorem C42_least_rotation : forall data, data <> [] -> let i := least_rotation data in i < length data /\
  (forall j, j < length data -> ~ list_less (rotation data j) (rotation data i)) /\ (forall j, j < i -> list_less (rotation data i) (rotation data j)).
Proof. exact least_rotation_spec. Qed.
Print Assumptions C42_least_rotation.
Example C42_least_rotation_example : least_rotation [2; 1; 3; 1; 2; 1; 3; 1]%Z = 3.
Proof. vm_compute. reflexivity. Qed.

(** First common element of two ascending ranges: its index in the second range, or none exactly if there is none. *)
Theorem C42_first_intersection : forall (A : Type) (less : A -> A -> bool), weak_order less -> forall test, ascending less test ->
  forall candidates, ascending less candidates ->
  match first_intersection_index less test candidates with
  | Some i => exists k b, i = 0 + k /\ nth_error candidates k = Some b /\ in_test less test b /\
                forall j c, j < k -> nth_error candidates j = Some c -> ~ in_test less test c
  | None => forall c, In c candidates -> ~ in_test less test c
  end.
Proof. exact (fun A less WO test ST m SM => intersection_spec less WO test ST m 0 SM). Qed.
Print Assumptions C42_first_intersection.
Example C42_first_intersection_example : weak_order Z.ltb /\ ascending Z.ltb [2; 4; 6]%Z /\ ascending Z.ltb [1; 3; 4; 6]%Z /\
  first_intersection_index Z.ltb [2; 4; 6]%Z [1; 3; 4; 6]%Z = Some 2.
Proof.
  split; [exact ltb_weak|]. split; [repeat constructor|]. split; [repeat constructor|]. reflexivity.
Qed.

(** Merging maps: all keys of both, in order, the left value where both have one; for signed and unsigned keys. *)
Theorem C42_merge : forall (V : Type) (signed : bool) fuel (l r : list (Z * V)), keys_ascend l -> one_type signed l -> keys_ascend r -> one_type signed r ->
  (length r + 1) * (length l + length r + 1) <= fuel ->
  exists m, linear_map_merge fuel l r = Ret m /\ keys_ascend m /\ forall x, find_key x m = match find_key x l with Some v => Some v | None => find_key x r end.
Proof. exact @merge_spec. Qed.
Print Assumptions C42_merge.
Example C42_merge_example : let l := [(-2, 10); (3, 11)]%Z in let r := [(-5, 20); (3, 21); (7, 22)]%Z in
  keys_ascend l /\ one_type true l /\ keys_ascend r /\ one_type true r /\ linear_map_merge 30 l r = Ret [(-5, 20); (-2, 10); (3, 11); (7, 22)]%Z.
Proof. cbv zeta. unfold keys_ascend, one_type, fits. cbn [map fst]. repeat split; repeat constructor; try discriminate; vm_compute; try reflexivity; discriminate. Qed.

(** Chunks: one for each starting point, up to the next one; together all data from the first starting point. *)
Theorem C42_chunks : forall (A : Type) (data : list A) indices, starts_ok data indices -> indices <> [] ->
  exists l, all_chunks data indices = Value l /\ length l = length indices /\ concat l = skipn (hd 0 indices) data /\
    forall i, i < length indices -> nth i l [] = slice data (nth i indices 0) (if Nat.ltb (S i) (length indices) then nth (S i) indices 0 else length data).
Proof. exact @chunks_spec. Qed.
Print Assumptions C42_chunks.
Example C42_chunks_example : starts_ok [10; 11; 12; 13] [0; 1; 1] /\ all_chunks [10; 11; 12; 13] [0; 1; 1] = Value [[10]; []; [11; 12; 13]].
Proof. split; [split; repeat constructor|reflexivity]. Qed.

(** Kronecker powers by squaring: the power, for every matrix and exponent. *)
Theorem C42_kronecker_power : forall (T : Type) (mul : T -> T -> T) (one : T), (forall a b c, mul a (mul b c) = mul (mul a b) c) ->
  (forall a, mul one a = a) -> (forall a, mul a one = a) -> forall fuel base p, (0 <= p < 2 ^ Z.of_nat fuel)%Z ->
  exists r, kronecker_power (kronecker mul) (unit_matrix one) fuel base p = Ret r /\ same_matrix r (tensor_power mul one base (Z.to_nat p)).
Proof. exact @kronecker_power_spec. Qed.
Print Assumptions C42_kronecker_power.
Example C42_kronecker_example :
  let base := mk_matrix 2 2 (fun i j => Z.of_nat (2 * i + j)) in
  match kronecker_power (kronecker Z.mul) (unit_matrix 1%Z) 4 base 5 with Ret r => mx_rows r = 32 /\ mx_entry r 25 31 = 27%Z | _ => False end.
Proof. vm_compute. split; reflexivity. Qed.
