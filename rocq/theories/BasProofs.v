(** Proofs about numeric bases of symbolic matrices. *)
From Coq Require Import List NArith ZArith Arith Bool Sorted Permutation Lia Ring Field.
From Verif Require Import CoreModel FieldModel FieldProofs SymModel SymSpec PolyModel PolySpec PolyProofs PolyBasisModel PolyBasisProofs PolyFinalProofs BasModel BasSpec.
Import ListNotations.

(** ** lists *)
Lemma filter_flat_map {A B} (p : B -> bool) (g : A -> list B) l : filter p (flat_map g l) = flat_map (fun x => filter p (g x)) l.
Proof. induction l as [|a l IH]; [reflexivity|]. cbn [flat_map]. now rewrite filter_app, IH. Qed.
Lemma flat_map_one {A B} (g : A -> list B) x l : NoDup l -> In x l -> (forall y, In y l -> y <> x -> g y = []) -> flat_map g l = g x.
Proof.
  induction 1 as [|a l Na ND IH]; [easy|]. intros [->|I] H; cbn [flat_map].
  - enough (flat_map g l = []) as -> by apply app_nil_r. clear IH ND. induction l as [|b l IH]; [reflexivity|]. cbn [flat_map].
    rewrite (H b (or_intror (or_introl eq_refl))), IH; [reflexivity|intro; apply Na; now right|intros y [E|I] N; apply H; auto; [now left|now right; right]|intros ->; apply Na; now left].
  - rewrite (H a (or_introl eq_refl)) by (intros ->; contradiction). cbn [app]. apply IH; [exact I|]. intros y Iy. apply H. now right.
Qed.
Lemma nth_update_length {A} (f : A -> A) : forall n l, length (nth_update n f l) = length l.
Proof. induction n as [|n IH]; intros [|x l]; cbn; auto. Qed.
Lemma nth_update_nth {A} (f : A -> A) d : forall n l k, n < length l -> nth k (nth_update n f l) d = if Nat.eqb k n then f (nth k l d) else nth k l d.
Proof. induction n as [|n IH]; intros [|x l] [|k] L; cbn in L; try lia; cbn; auto. apply IH. lia. Qed.
Lemma nodup_pairs (f : nat -> list nat) l : NoDup l -> (forall x, In x l -> NoDup (f x)) -> NoDup (flat_map (fun col => map (fun row => (row, col)) (f col)) l).
Proof.
  induction 1 as [|a l Na ND IH]; intro H; cbn [flat_map]; [constructor|].
  assert (G : forall (x y : list (nat * nat)), NoDup x -> NoDup y -> (forall z, In z x -> ~ In z y) -> NoDup (x ++ y)).
  { clear. induction x as [|z x IH]; intros y Nx Ny D; [exact Ny|]. inversion Nx; subst. cbn. constructor.
    - rewrite in_app_iff. intros [I|I]; [contradiction|]. now apply (D z (or_introl eq_refl)).
    - apply IH; auto. intros w I. apply D. now right. }
  apply G.
  - apply FinFun.Injective_map_NoDup; [intros x y E; congruence|]. apply H. now left.
  - apply IH. intros x I. apply H. now right.
  - intros [r c] I J. apply in_map_iff in I. destruct I as [r' [E _]]. injection E as _ <-. apply in_flat_map in J. destruct J as [c' [Ic J]]. apply in_map_iff in J. destruct J as [r2 [E _]]. injection E as _ ->. contradiction.
Qed.
Lemma in_pairs (f : nat -> list nat) l r c : In (r, c) (flat_map (fun col => map (fun row => (row, col)) (f col)) l) <-> In c l /\ In r (f c).
Proof.
  rewrite in_flat_map. split.
  - intros [x [I J]]. apply in_map_iff in J. destruct J as [y [E K]]. injection E as -> ->. auto.
  - intros [I J]. exists c. split; [exact I|]. apply in_map_iff. now exists r.
Qed.
Lemma upper_nodup d : NoDup (upper d). Proof. apply (nodup_pairs (fun c => seq 0 (S c))); [apply seq_NoDup|intros; apply seq_NoDup]. Qed.
Lemma lower_nodup d : NoDup (lower d). Proof. apply (nodup_pairs (fun c => seq c (d - c))); [apply seq_NoDup|intros; apply seq_NoDup]. Qed.
Lemma everywhere_nodup d : NoDup (everywhere d). Proof. apply (nodup_pairs (fun c => seq 0 d)); [apply seq_NoDup|intros; apply seq_NoDup]. Qed.
Lemma upper_in d r c : In (r, c) (upper d) <-> r <= c < d. Proof. unfold upper. rewrite (in_pairs (fun c => seq 0 (S c))), !in_seq. lia. Qed.
Lemma lower_in d r c : In (r, c) (lower d) <-> c <= r < d. Proof. unfold lower. rewrite (in_pairs (fun c => seq c (d - c))), !in_seq. lia. Qed.
Lemma everywhere_in d r c : In (r, c) (everywhere d) <-> r < d /\ c < d. Proof. unfold everywhere. rewrite (in_pairs (fun c => seq 0 d)), !in_seq. lia. Qed.

Section Bas.
  Variable R : rfield.
  Add Field Rf : (r_field R).
  Add Field Cf : (cx_field R).
  Notation mono := (mono R).

  (** ** what is written at one entry of one basis matrix *)
  Definition at_pos (r c : nat) (x : deposit R) : bool := Nat.eqb (d_row x) r && Nat.eqb (d_col x) c.
  Definition at_key (imag : bool) (k : nat) (x : deposit R) : bool := Bool.eqb (d_imag x) imag && Nat.eqb (d_index x) k.
  Definition vals (imag : bool) (k r c : nat) (l : list (deposit R)) : list (cx R) := map (@d_value R) (filter (at_key imag k) (filter (at_pos r c) l)).
  Definition csum (l : list (cx R)) : cx R := fold_right cadd c0 l.
  Lemma frame_gen imag k r c : forall l s,
    fold_left (fun s (x : deposit R) => if Bool.eqb (d_imag x) imag && Nat.eqb (d_index x) k && Nat.eqb (d_row x) r && Nat.eqb (d_col x) c then cadd s (d_value x) else s) l s = cadd s (csum (vals imag k r c l)).
  Proof.
    induction l as [|x l IH]; intro s; [cbn; apply cx_ext; cbn; ring|]. cbn [fold_left]. rewrite IH. unfold vals. cbn [filter].
    assert (E : Bool.eqb (d_imag x) imag && Nat.eqb (d_index x) k && Nat.eqb (d_row x) r && Nat.eqb (d_col x) c = at_key imag k x && at_pos r c x) by (unfold at_key, at_pos; now rewrite <- !andb_assoc).
    rewrite E. clear E. destruct (at_pos r c x); [|now rewrite andb_false_r]. rewrite andb_true_r. cbn [filter].
    destruct (at_key imag k x); [|reflexivity]. cbn [map csum fold_right]. change (fold_right cadd c0) with csum. ring.
  Qed.
  Lemma from_frame_spec imag k l r c : from_frame imag k l r c = csum (vals imag k r c l).
  Proof. unfold from_frame. rewrite frame_gen. ring. Qed.
  (** what assigning or adding gives *)
  Definition result (adding : bool) (l : list (cx R)) (s : cx R) : cx R := fold_left (fun s x => if adding then cadd s x else x) l s.
  Lemma result_adding l : forall s, result true l s = cadd s (csum l).
  Proof. unfold result. induction l as [|x l IH]; intro s; cbn [fold_left csum fold_right]; [ring|]. rewrite IH. fold (csum l). ring. Qed.
  Lemma result_one adding l : length l <= 1 -> result adding l c0 = csum l.
  Proof. intro L. destruct l as [|x [|y l]]; cbn in L; [reflexivity| |lia]. unfold result, csum. cbn [fold_left fold_right]. destruct adding; ring. Qed.
  Definition part (imag : bool) (b : basis R) : list (dmat R) := if imag then b_imag b else b_real b.
  Lemma write_part adding b x imag k r c : d_index x < length (part (d_imag x) b) ->
    nth k (part imag (write adding b x)) zero_matrix r c =
    if at_pos r c x && at_key imag k x then (if adding then cadd (nth k (part imag b) zero_matrix r c) (d_value x) else d_value x) else nth k (part imag b) zero_matrix r c.
  Proof.
    intro L. unfold write, at_key, at_pos, part in *. destruct (d_imag x), imag; cbn [b_real b_imag Bool.eqb andb] in *; try now rewrite andb_false_r.
    - rewrite nth_update_nth by exact L. rewrite (Nat.eqb_sym (d_index x)). destruct (Nat.eqb k (d_index x)); [|now rewrite andb_false_r]. rewrite andb_true_r.
      unfold add_entry, set_entry. destruct adding; reflexivity.
    - rewrite nth_update_nth by exact L. rewrite (Nat.eqb_sym (d_index x)). destruct (Nat.eqb k (d_index x)); [|now rewrite andb_false_r]. rewrite andb_true_r.
      unfold add_entry, set_entry. destruct adding; reflexivity.
  Qed.
  Lemma write_length adding b (x : deposit R) imag : length (part imag (write adding b x)) = length (part imag b).
  Proof. unfold write, part. destruct (d_imag x), imag; cbn; now rewrite ?nth_update_length. Qed.
  Lemma writes_spec adding imag k r c : forall l b, Forall (fun x => d_index x < length (part (d_imag x) b)) l ->
    nth k (part imag (fold_left (write adding) l b)) zero_matrix r c = result adding (vals imag k r c l) (nth k (part imag b) zero_matrix r c) /\
    forall i, length (part i (fold_left (write adding) l b)) = length (part i b).
  Proof.
    induction l as [|x l IH]; intros b F; [split; reflexivity|]. inversion F as [|? ? Fx Fl]; subst. cbn [fold_left]. destruct (IH (write adding b x)) as [A B].
    { eapply Forall_impl; [|exact Fl]. intros y. cbn. now rewrite write_length. }
    split; [|intro i; rewrite B; apply write_length]. rewrite A, write_part by exact Fx. unfold vals. cbn [filter]. destruct (at_pos r c x); [|reflexivity]. cbn [filter andb].
    destruct (at_key imag k x); reflexivity.
  Qed.
  Lemma zeros_nth n k r c : nth k (repeat (@zero_matrix R) n) zero_matrix r c = c0.
  Proof. assert (E : nth k (repeat (@zero_matrix R) n) zero_matrix = zero_matrix) by (revert k; induction n as [|n IH]; intros [|k]; cbn; auto). now rewrite E. Qed.
  Definition ok_dep (t : table) (x : deposit R) : Prop := d_index x < length (if d_imag x then t_imag t else t_real t).
  Lemma in_range_ok t l : forallb (in_range (length (t_real t)) (length (t_imag t))) l = true <-> Forall (ok_dep t) l.
  Proof. rewrite forallb_forall, Forall_forall. unfold in_range, ok_dep. split; intros H x I; specialize (H x I); destruct (d_imag x); now apply Nat.ltb_lt. Qed.
  Lemma dense_spec adding t l : Forall (ok_dep t) l -> exists b, dense adding t l = Some b /\ length (b_real b) = length (t_real t) /\ length (b_imag b) = length (t_imag t) /\
    forall imag k r c, nth k (part imag b) zero_matrix r c = result adding (vals imag k r c l) c0.
  Proof.
    intro F. unfold dense. rewrite (proj2 (in_range_ok t l) F). eexists. split; [reflexivity|]. set (b0 := mk_basis (repeat zero_matrix (length (t_real t))) (repeat zero_matrix (length (t_imag t))) : basis R).
    assert (FF : Forall (fun x : deposit R => d_index x < length (part (d_imag x) b0)) l).
    { eapply Forall_impl; [|exact F]. intros x H. unfold ok_dep in H. unfold part, b0. destruct (d_imag x); cbn; now rewrite repeat_length. }
    split; [|split].
    - etransitivity; [exact (proj2 (writes_spec adding false 0 0 0 l b0 FF) false)|]. apply repeat_length.
    - etransitivity; [exact (proj2 (writes_spec adding false 0 0 0 l b0 FF) true)|]. apply repeat_length.
    - intros imag k r c. rewrite (proj1 (writes_spec adding imag k r c l b0 FF)). f_equal. unfold part, b0. destruct imag; apply zeros_nth.
  Qed.
  Lemma vals_beyond t (imag : bool) k r c l : Forall (ok_dep t) l -> length (if imag then t_imag t else t_real t) <= k -> vals imag k r c l = [].
  Proof.
    intros F L. unfold vals. induction F as [|x l Fx F IH]; [reflexivity|]. cbn [filter]. destruct (at_pos r c x); [|exact IH]. cbn [filter]. unfold at_key at 1.
    destruct (Bool.eqb (d_imag x) imag) eqn:E; [|exact IH]. apply Bool.eqb_prop in E. unfold ok_dep in Fx. rewrite E in Fx. destruct (Nat.eqb_spec (d_index x) k); [lia|exact IH].
  Qed.
  Lemma nth_map_seq {A : Type} (f : nat -> A) (d : A) (n k : nat) : nth k (map f (seq 0 n)) d = if Nat.ltb k n then f k else d.
  Proof.
    destruct (Nat.ltb_spec k n) as [L|L].
    - rewrite (nth_indep _ d (f 0)) by now rewrite map_length, seq_length. rewrite map_nth, seq_nth by exact L. reflexivity.
    - apply nth_overflow. now rewrite map_length, seq_length.
  Qed.
  Lemma sparse_spec t m l : Forall (ok_dep t) l -> (sm_cbasis m = false -> Forall (fun x : deposit R => d_imag x = false) l) ->
    exists b, BasModel.sparse t m l = Some b /\ length (b_real b) = length (t_real t) /\ length (b_imag b) = length (t_imag t) /\
    forall imag k r c, nth k (part imag b) zero_matrix r c = csum (vals imag k r c l).
  Proof.
    intros F HC. unfold BasModel.sparse. rewrite (proj2 (in_range_ok t l) F). eexists. split; [reflexivity|]. cbn [b_real b_imag]. split; [now rewrite map_length, seq_length|]. split.
    { destruct (sm_cbasis m); [now rewrite map_length, seq_length|apply repeat_length]. }
    intros imag k r c. unfold part. destruct imag; cbn [b_real b_imag].
    - destruct (sm_cbasis m).
      + rewrite nth_map_seq. destruct (Nat.ltb_spec k (length (t_imag t))) as [L|L]; [apply from_frame_spec|]. now rewrite (vals_beyond t true) by auto.
      + rewrite zeros_nth. specialize (HC eq_refl). unfold vals. assert (E : filter (at_key true k) (filter (at_pos r c) l) = []); [|now rewrite E].
        clear F. induction HC as [|x l Hx HC IH]; [reflexivity|]. cbn [filter]. destruct (at_pos r c x); [|exact IH]. cbn [filter]. unfold at_key at 1. rewrite Hx. exact IH.
    - rewrite nth_map_seq. destruct (Nat.ltb_spec k (length (t_real t))) as [L|L]; [apply from_frame_spec|]. now rewrite (vals_beyond t false) by auto.
  Qed.

  (** ** weighted sums of basis matrices are weighted sums of deposits *)
  Definition elem (t : table) (v : nat -> cx R) (x : deposit R) : R := if d_imag x then imag_elem t v (d_index x) else real_elem t v (d_index x).
  Definition total (t : table) (v : nat -> cx R) (l : list (deposit R)) : cx R := fold_right (fun x s => cadd (cmul (creal (elem t v x)) (d_value x)) s) c0 l.
  Lemma total_app t v l l' : total t v (l ++ l') = cadd (total t v l) (total t v l').
  Proof. induction l as [|x l IH]; cbn [app total fold_right]; [unfold total; cbn; ring|]. change (fold_right _ c0 ?a) with (total t v a). rewrite IH. ring. Qed.
  Definition keyed (imag : bool) (l : list (deposit R)) : list (deposit R) := filter (fun x => Bool.eqb (d_imag x) imag) l.
  Definition wsum (n : nat) (a : nat -> R) (f : nat -> cx R) : cx R := fold_right (fun k s => cadd (cmul (creal (a k)) (f k)) s) c0 (seq 0 n).
  Lemma wsum_ext n a (f g : nat -> cx R) : (forall k, k < n -> f k = g k) -> wsum n a f = wsum n a g.
  Proof.
    intro H. unfold wsum. assert (G : forall k, In k (seq 0 n) -> f k = g k) by (intros k I; apply in_seq in I; apply H; lia). clear H.
    induction (seq 0 n) as [|k l IH]; [reflexivity|]. cbn [fold_right]. rewrite IH by (intros; apply G; now right). now rewrite (G k (or_introl eq_refl)).
  Qed.
  Lemma wsum_add n a (f g : nat -> cx R) : wsum n a (fun k => cadd (f k) (g k)) = cadd (wsum n a f) (wsum n a g).
  Proof. unfold wsum. induction (seq 0 n) as [|k l IH]; cbn [fold_right]; [ring|]. rewrite IH. ring. Qed.
  Lemma wsum_zero n a : wsum n a (fun _ => c0) = (c0 : cx R).
  Proof. unfold wsum. induction (seq 0 n) as [|k l IH]; cbn [fold_right]; [reflexivity|]. rewrite IH. ring. Qed.
  Lemma wsum_one n (a : nat -> R) k (w : cx R) : k < n -> wsum n a (fun j => if Nat.eqb k j then w else c0) = cmul (creal (a k)) w.
  Proof.
    intro L. unfold wsum. assert (G : forall s, fold_right (fun j s => cadd (cmul (creal (a j)) (if Nat.eqb k j then w else c0)) s) c0 (seq s n) = if Nat.leb s k && Nat.ltb k (s + n) then cmul (creal (a k)) w else c0).
    { clear L. induction n as [|n IH]; intro s; cbn [seq fold_right].
      - destruct (Nat.leb_spec s k), (Nat.ltb_spec k (s + 0)); cbn [andb]; try reflexivity; lia.
      - rewrite IH. destruct (Nat.eqb_spec k s) as [->|N].
        + destruct (Nat.leb_spec (S s) s), (Nat.leb_spec s s), (Nat.ltb_spec s (S s + n)), (Nat.ltb_spec s (s + S n)); cbn [andb]; try lia; ring.
        + destruct (Nat.leb_spec (S s) k), (Nat.leb_spec s k), (Nat.ltb_spec k (S s + n)), (Nat.ltb_spec k (s + S n)); cbn [andb]; try lia; ring. }
    rewrite G. destruct (Nat.leb_spec 0 k), (Nat.ltb_spec k (0 + n)); cbn [andb]; try reflexivity; lia.
  Qed.
  Lemma wsum_keys t v (imag : bool) l : Forall (ok_dep t) l ->
    wsum (length (if imag then t_imag t else t_real t)) (if imag then imag_elem t v else real_elem t v) (fun k => csum (map (@d_value R) (filter (at_key imag k) l))) = total t v (keyed imag l).
  Proof.
    induction 1 as [|x l Fx F IH]; [apply wsum_zero|]. unfold keyed. cbn [filter]. fold (keyed imag l).
    rewrite (wsum_ext _ _ _ (fun k => cadd (if Bool.eqb (d_imag x) imag then if Nat.eqb (d_index x) k then d_value x else c0 else c0) (csum (map (@d_value R) (filter (at_key imag k) l))))).
    2: { intros k _. unfold at_key at 1. destruct (Bool.eqb (d_imag x) imag); cbn [andb]; [|ring]. destruct (Nat.eqb (d_index x) k); cbn [map csum fold_right]; [reflexivity|ring]. }
    rewrite wsum_add, IH. destruct (Bool.eqb (d_imag x) imag) eqn:E.
    - rewrite wsum_one. 2: { unfold ok_dep in Fx. apply Bool.eqb_prop in E. now rewrite <- E. }
      cbn [total fold_right]. change (fold_right _ c0 ?a) with (total t v a). f_equal. apply Bool.eqb_prop in E. unfold elem. rewrite E. now destruct imag.
    - rewrite wsum_zero. ring.
  Qed.
  Lemma total_split t v l : total t v l = cadd (total t v (keyed false l)) (total t v (keyed true l)).
  Proof.
    induction l as [|x l IH]; [unfold total; cbn; ring|]. unfold keyed in *. cbn [filter total fold_right]. change (fold_right _ c0 ?a) with (total t v a). rewrite IH.
    destruct (d_imag x); cbn [Bool.eqb total fold_right]; change (fold_right _ c0 ?a) with (total t v a); ring.
  Qed.
  Lemma filter_ok t (p : deposit R -> bool) l : Forall (ok_dep t) l -> Forall (ok_dep t) (filter p l).
  Proof. intro F. apply Forall_forall. intros x I. apply filter_In in I. rewrite Forall_forall in F. now apply F. Qed.
  Lemma combination_total t v (b : basis R) l r c : Forall (ok_dep t) l -> (forall imag k, nth k (part imag b) zero_matrix r c = csum (vals imag k r c l)) ->
    combination t v b r c = total t v (filter (at_pos r c) l).
  Proof.
    intros F H. unfold combination, weighted. rewrite (total_split t v (filter (at_pos r c) l)). pose proof (filter_ok t (at_pos r c) l F) as F'.
    rewrite <- (wsum_keys t v false _ F'), <- (wsum_keys t v true _ F'). cbn iota. f_equal; apply wsum_ext; intros k _; [apply (H false k)|apply (H true k)].
  Qed.
End Bas.
