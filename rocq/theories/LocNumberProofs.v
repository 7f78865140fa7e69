(** Operator numbering of locality scenarios. *)
From Coq Require Import List NArith Arith Bool Lia.
From Verif Require Import CoreModel CoreSpec AlgModel AlgSpec LocModel LocSpec.
Import ListNotations.

Lemma list_sum_cons x l : list_sum (x :: l) = x + list_sum l.
Proof. reflexivity. Qed.
Local Arguments list_sum : simpl never.
Lemma list_sum_nil : list_sum [] = 0.
Proof. reflexivity. Qed.
Ltac cs := cbn in *; rewrite ?list_sum_cons, ?list_sum_nil in *.
Lemma fold_add_sum {A} (f : A -> nat) l : forall a, fold_left (fun acc m => acc + f m) l a = a + list_sum (map f l).
Proof. induction l as [|x l IH]; intro a; cbn [fold_left map]; [cs; lia|]. rewrite IH, list_sum_cons. lia. Qed.
Lemma count_ops_fold p : fold_left (fun acc m => acc + num_operators m) p 0 = count_opers p.
Proof. rewrite fold_add_sum. reflexivity. Qed.
Lemma party_size_spec p : party_size p = count_opers p.
Proof. apply count_ops_fold. Qed.
Lemma operator_count_spec sc : operator_count sc = total_opers sc.
Proof.
  unfold operator_count. rewrite fold_add_sum. cs. unfold total_opers. f_equal. apply map_ext. intro p. apply party_size_spec.
Qed.
Lemma op_offsets_spec sc : forall a p, p < length sc -> nth p (op_offsets a sc) 0 = a + list_sum (map count_opers (firstn p sc)).
Proof.
  induction sc as [|x sc IH]; intros a p H; cbn in H; [lia|]. destruct p; cs; [lia|]. rewrite IH by lia. rewrite party_size_spec. lia.
Qed.
Lemma mmt_offsets_spec p : forall a m, m < length p -> nth m (mmt_offsets a p) 0 = a + count_opers (firstn m p).
Proof.
  induction p as [|x p IH]; intros a m H; cbn in H; [lia|]. destruct m; cs; [unfold count_opers; cs; lia|].
  rewrite IH by lia. unfold count_opers, num_operators. cs. lia.
Qed.
Lemma mmt_global_offsets_spec sc : forall a p, p < length sc ->
  nth p (mmt_global_offsets a sc) 0 = a + list_sum (map (@length nat) (firstn p sc)).
Proof.
  induction sc as [|x sc IH]; intros a p H; cbn in H; [lia|]. destruct p; cs; [lia|]. rewrite IH by lia. lia.
Qed.
Lemma op_party_table_spec sc : forall i p j, p < length sc -> j < count_opers (nth p sc []) ->
  nth_error (op_party_table i sc) (list_sum (map count_opers (firstn p sc)) + j) = Some (i + p).
Proof.
  induction sc as [|x sc IH]; intros i p j Hp Hj; cbn in Hp; [lia|]. cbn [op_party_table]. rewrite count_ops_fold. destruct p; cs.
  - rewrite nth_error_app1 by (rewrite repeat_length; lia). rewrite nth_error_repeat by lia. f_equal. lia.
  - rewrite nth_error_app2 by (rewrite repeat_length; lia). rewrite repeat_length.
    replace (count_opers x + list_sum (map count_opers (firstn p sc)) + j - count_opers x) with (list_sum (map count_opers (firstn p sc)) + j) by lia.
    rewrite IH by lia. f_equal. lia.
Qed.
Lemma mmt_party_table_spec sc : forall i p m, p < length sc -> m < length (nth p sc []) ->
  nth_error (mmt_party_table i sc) (list_sum (map (@length nat) (firstn p sc)) + m) = Some (i + p).
Proof.
  induction sc as [|x sc IH]; intros i p j Hp Hj; cbn in Hp; [lia|]. cbn [mmt_party_table]. destruct p; cs.
  - rewrite nth_error_app1 by (rewrite repeat_length; lia). rewrite nth_error_repeat by lia. f_equal. lia.
  - rewrite nth_error_app2 by (rewrite repeat_length; lia). rewrite repeat_length.
    match goal with |- nth_error _ ?k = _ => replace k with (list_sum (map (@length nat) (firstn p sc)) + j) by lia end.
    rewrite IH by lia. f_equal. lia.
Qed.
Lemma mmt_table_spec p : forall i m o, m < length p -> S o < nth m p 0 ->
  nth_error (mmt_table i p) (count_opers (firstn m p) + o) = Some (i + m).
Proof.
  induction p as [|x p IH]; intros i m o Hm Ho; cbn in Hm; [lia|]. cbn [mmt_table]. unfold num_operators, count_opers in *. destruct m; cs.
  - rewrite nth_error_app1 by (rewrite repeat_length; lia). rewrite nth_error_repeat by lia. f_equal. lia.
  - rewrite nth_error_app2 by (rewrite repeat_length; lia). rewrite repeat_length.
    match goal with |- nth_error _ ?k = _ => replace k with (list_sum (map (fun m => m - 1) (firstn m p)) + o) by lia end.
    rewrite IH by lia. f_equal. lia.
Qed.
Lemma local_mmts_length pi p : forall mi, length (local_mmts pi mi p) = count_opers p.
Proof. induction p as [|x p IH]; intro mi; cs; [reflexivity|]. rewrite app_length, map_length, seq_length, IH. reflexivity. Qed.
Lemma local_mmts_spec pi p : forall mi m o, m < length p -> S o < nth m p 0 ->
  nth_error (local_mmts pi mi p) (count_opers (firstn m p) + o) = Some (pi, mi + m, o).
Proof.
  induction p as [|x p IH]; intros mi m o Hm Ho; cbn in Hm; [lia|]. cbn [local_mmts]. unfold num_operators, count_opers in *. destruct m; cs.
  - rewrite nth_error_app1 by (rewrite map_length, seq_length; lia). rewrite nth_error_map.
    rewrite (nth_error_nth' _ 0) by (rewrite seq_length; lia). rewrite seq_nth by lia. cs. rewrite Nat.add_0_r. reflexivity.
  - rewrite nth_error_app2 by (rewrite map_length, seq_length; lia). rewrite map_length, seq_length.
    match goal with |- nth_error _ ?k = _ => replace k with (list_sum (map (fun m => m - 1) (firstn m p)) + o) by lia end.
    rewrite IH by lia. replace (S mi + m) with (mi + S m) by lia. reflexivity.
Qed.
Lemma local_table_length sc : forall i, length (local_table i sc) = total_opers sc.
Proof. induction sc as [|x sc IH]; intro i; cs; [reflexivity|]. rewrite app_length, local_mmts_length, IH. reflexivity. Qed.

Lemma firstn_count_lt p : forall m o, m < length p -> S o < nth m p 0 -> count_opers (firstn m p) + o < count_opers p.
Proof.
  induction p as [|x p IH]; intros m o Hm Ho; cbn in Hm; [lia|]. unfold count_opers in *. destruct m; cs; [lia|].
  specialize (IH m o ltac:(lia) Ho). lia.
Qed.
Lemma firstn_total_lt sc : forall p j, p < length sc -> j < count_opers (nth p sc []) ->
  list_sum (map count_opers (firstn p sc)) + j < total_opers sc.
Proof.
  induction sc as [|x sc IH]; intros p j Hp Hj; cbn in Hp; [lia|]. unfold total_opers in *. destruct p; cs; [lia|].
  specialize (IH p j ltac:(lia) Hj). lia.
Qed.
Lemma local_table_spec sc : forall i p m o, p < length sc -> m < length (nth p sc []) -> S o < nth m (nth p sc []) 0 ->
  nth_error (local_table i sc) (list_sum (map count_opers (firstn p sc)) + count_opers (firstn m (nth p sc [])) + o) = Some (i + p, m, o).
Proof.
  induction sc as [|x sc IH]; intros i p m o Hp Hm Ho; cbn in Hp; [lia|]. cbn [local_table]. destruct p; cs.
  - rewrite nth_error_app1 by (rewrite local_mmts_length; apply firstn_count_lt; assumption). cbn [Nat.add]. rewrite local_mmts_spec by assumption.
    rewrite Nat.add_0_r. reflexivity.
  - rewrite nth_error_app2 by (rewrite local_mmts_length; lia). rewrite local_mmts_length.
    match goal with |- nth_error _ ?k = _ => replace k with (list_sum (map count_opers (firstn p sc)) + count_opers (firstn m (nth p sc [])) + o) by lia end.
    rewrite IH by (try assumption; lia). replace (S i + p) with (i + S p) by lia. reflexivity.
Qed.

(* ---------------------------------------------------------------- the bijection *)
Lemma op_number_table sc x : valid_oper sc x -> nth_error (local_table 0 sc) (op_number sc x) = Some x.
Proof.
  destruct x as [[p m] o]. intros (H1 & H2 & H3). cs. unfold op_number. cs. apply (local_table_spec sc 0); assumption.
Qed.
Lemma op_number_lt sc x : valid_oper sc x -> op_number sc x < total_opers sc.
Proof.
  intro H. rewrite <- (local_table_length sc 0). apply nth_error_Some. rewrite op_number_table by exact H. discriminate.
Qed.
Lemma op_number_inj sc x y : valid_oper sc x -> valid_oper sc y -> op_number sc x = op_number sc y -> x = y.
Proof. intros Hx Hy E. apply (op_number_table sc) in Hx, Hy. rewrite E in Hx. congruence. Qed.
Lemma count_surj p : forall j, j < count_opers p -> exists m o, m < length p /\ S o < nth m p 0 /\ j = count_opers (firstn m p) + o.
Proof.
  induction p as [|x p IH]; intros j Hj; unfold count_opers in *; cs; [lia|].
  destruct (lt_dec j (x - 1)) as [C|C].
  - exists 0, j. cs. repeat split; lia.
  - destruct (IH (j - (x - 1)) ltac:(lia)) as (m & o & A & B & E). exists (S m), o. cs. repeat split; try assumption; lia.
Qed.
Lemma total_surj sc : forall k, k < total_opers sc -> exists p j, p < length sc /\ j < count_opers (nth p sc []) /\
  k = list_sum (map count_opers (firstn p sc)) + j.
Proof.
  induction sc as [|x sc IH]; intros k Hk; unfold total_opers in *; cs; [lia|].
  destruct (lt_dec k (count_opers x)) as [C|C].
  - exists 0, k. cs. repeat split; lia.
  - destruct (IH (k - count_opers x) ltac:(lia)) as (p & j & A & B & E). exists (S p), j. cs. repeat split; try assumption; lia.
Qed.
Lemma op_number_surj sc k : k < total_opers sc -> exists x, valid_oper sc x /\ op_number sc x = k.
Proof.
  intro H. destruct (total_surj sc k H) as (p & j & Hp & Hj & E). destruct (count_surj _ j Hj) as (m & o & Hm & Ho & E').
  exists (p, m, o). split; [repeat split; assumption|]. unfold op_number. cs. lia.
Qed.

Lemma party_local sc x : valid_oper sc x ->
  count_opers (firstn (op_mmt x) (nth (op_party x) sc [])) + op_outcome x < count_opers (nth (op_party x) sc []).
Proof. intros (H1 & H2 & H3). apply firstn_count_lt; assumption. Qed.
Lemma party_of_number sc x : valid_oper sc x -> party_of_op sc (op_number sc x) = op_party x.
Proof.
  intro H. pose proof (party_local sc x H) as L. destruct H as (H1 & H2 & H3). unfold party_of_op, op_number.
  apply nth_error_nth. rewrite <- Nat.add_assoc. rewrite (op_party_table_spec sc 0) by assumption. reflexivity.
Qed.
Lemma op_offset_spec sc p : p < length sc -> op_offset sc p = list_sum (map count_opers (firstn p sc)).
Proof. intro H. unfold op_offset. rewrite op_offsets_spec by exact H. reflexivity. Qed.
Lemma mmt_of_number sc x : valid_oper sc x ->
  nth (op_number sc x - op_offset sc (op_party x)) (mmt_table 0 (the_party sc (op_party x))) 0 = op_mmt x.
Proof.
  intros (H1 & H2 & H3). rewrite op_offset_spec by exact H1. unfold op_number, the_party.
  match goal with |- nth ?k _ _ = _ => replace k with (count_opers (firstn (op_mmt x) (nth (op_party x) sc [])) + op_outcome x) by lia end.
  apply nth_error_nth. rewrite (mmt_table_spec _ 0) by assumption. reflexivity.
Qed.
Lemma measurement_outcome_spec sc p m o : p < length sc ->
  measurement_outcome sc p m o = if Nat.ltb m (length (nth p sc [])) && Nat.ltb (S o) (nth m (nth p sc []) 0) then Ret (op_number sc (p, m, o)) else Err.
Proof.
  intro Hp. unfold measurement_outcome, the_party, num_operators.
  destruct (Nat.leb_spec (length (nth p sc [])) m) as [C|C], (Nat.ltb_spec m (length (nth p sc []))) as [D|D]; try lia; cbn [andb]; [reflexivity|].
  destruct (Nat.leb_spec (nth m (nth p sc []) 0 - 1) o) as [E|E], (Nat.ltb_spec (S o) (nth m (nth p sc []) 0)) as [F|F]; try lia; [reflexivity|].
  rewrite op_offset_spec, mmt_offsets_spec by assumption. reflexivity.
Qed.
Lemma measurement_of_spec sc x : valid_oper sc x -> measurement_of sc (op_party x) (op_number sc x) = Ret (op_mmt x).
Proof.
  intro H. pose proof (party_local sc x H) as L. unfold measurement_of. rewrite mmt_of_number by exact H.
  destruct H as (H1 & H2 & H3). rewrite op_offset_spec, party_size_spec by exact H1. unfold the_party, op_number.
  destruct (Nat.ltb_spec (list_sum (map count_opers (firstn (op_party x) sc)) + count_opers (firstn (op_mmt x) (nth (op_party x) sc [])) + op_outcome x)
    (list_sum (map count_opers (firstn (op_party x) sc)))) as [C|C]; [lia|].
  cbn [orb]. match goal with |- (if ?a <=? ?b then _ else _) = _ => destruct (Nat.leb_spec a b) as [D|D]; [lia|reflexivity] end.
Qed.
Lemma party_op_spec sc p i : p < length sc ->
  party_op sc p i = if Nat.ltb i (count_opers (nth p sc [])) then Ret (list_sum (map count_opers (firstn p sc)) + i) else Err.
Proof.
  intro Hp. unfold party_op, party_operators, the_party. rewrite party_size_spec, op_offset_spec by exact Hp.
  destruct (Nat.leb_spec (count_opers (nth p sc [])) i) as [C|C], (Nat.ltb_spec i (count_opers (nth p sc []))) as [D|D]; try lia; [reflexivity|].
  rewrite seq_nth by lia. reflexivity.
Qed.
(** local operator numbers of a party are its operators *)
Lemma party_op_number sc x : valid_oper sc x ->
  party_op sc (op_party x) (count_opers (firstn (op_mmt x) (nth (op_party x) sc [])) + op_outcome x) = Ret (op_number sc x).
Proof.
  intro H. pose proof (party_local sc x H) as L. destruct H as (H1 & H2 & H3). rewrite party_op_spec by exact H1.
  rewrite (proj2 (Nat.ltb_lt _ _) L). unfold op_number. f_equal. lia.
Qed.

(** measurement numbers *)
Lemma PM_ok sc p m : p < length sc -> m < length (nth p sc []) ->
  PM_to_global_index sc p m = Ret (list_sum (map (@length nat) (firstn p sc)) + m).
Proof.
  intros Hp Hm. unfold PM_to_global_index, the_party. rewrite mmt_global_offsets_spec by exact Hp.
  match goal with |- (if ?a then _ else _) = _ => destruct a eqn:E end.
  { exfalso. apply Nat.leb_le in E. exact (Nat.lt_irrefl _ (Nat.lt_le_trans _ _ _ Hp E)). }
  match goal with |- (if ?a then _ else _) = _ => destruct a eqn:E2 end.
  { exfalso. apply Nat.leb_le in E2. exact (Nat.lt_irrefl _ (Nat.lt_le_trans _ _ _ Hm E2)). }
  reflexivity.
Qed.
Lemma PM_inverse sc p m : p < length sc -> m < length (nth p sc []) ->
  global_index_to_PM sc (list_sum (map (@length nat) (firstn p sc)) + m) = (p, m).
Proof.
  intros Hp Hm. unfold global_index_to_PM. rewrite (nth_error_nth _ _ 0 (mmt_party_table_spec sc 0 p m Hp Hm)). cbn [Nat.add].
  rewrite mmt_global_offsets_spec by exact Hp. f_equal. cbn [Nat.add]. rewrite Nat.add_comm. apply Nat.add_sub.
Qed.
Lemma PM_range sc : forall p m, p < length sc -> m < length (nth p sc []) ->
  list_sum (map (@length nat) (firstn p sc)) + m < list_sum (map (@length nat) sc).
Proof.
  induction sc as [|x sc IH]; intros p m Hp Hm; cs; [lia|]. destruct p; cs; [lia|]. specialize (IH p m ltac:(lia) Hm). lia.
Qed.
Lemma PM_surj sc : forall g, g < list_sum (map (@length nat) sc) ->
  exists p m, p < length sc /\ m < length (nth p sc []) /\ g = list_sum (map (@length nat) (firstn p sc)) + m.
Proof.
  induction sc as [|x sc IH]; intros g H; cs; [lia|]. destruct (lt_dec g (length x)) as [C|C].
  - exists 0, g. cs. repeat split; lia.
  - destruct (IH (g - length x) ltac:(lia)) as (p & m & A & B & E). exists (S p), m. cs. repeat split; try assumption; lia.
Qed.
Lemma global_mmt_roundtrip sc p m : p < length sc -> m < length (nth p sc []) ->
  exists g, PM_to_global_index sc p m = Ret g /\ global_index_to_PM sc g = (p, m) /\ g < list_sum (map (@length nat) sc).
Proof.
  intros Hp Hm. exists (list_sum (map (@length nat) (firstn p sc)) + m). split; [apply PM_ok|split; [apply PM_inverse|apply PM_range]]; assumption.
Qed.
Lemma global_mmt_inverse sc g : g < list_sum (map (@length nat) sc) ->
  exists p m, global_index_to_PM sc g = (p, m) /\ p < length sc /\ m < length (nth p sc []) /\ PM_to_global_index sc p m = Ret g.
Proof.
  intro H. destruct (PM_surj sc g H) as (p & m & Hp & Hm & ->). exists p, m.
  split; [apply PM_inverse; assumption|split; [assumption|split; [assumption|apply PM_ok; assumption]]].
Qed.
