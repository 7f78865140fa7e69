(** Transforming a matrix: the theorems, and a computation that loses an exception. *)
From Coq Require Import List Arith Bool Lia.
From Verif Require Import TransModel TransSpec TransProofs.
Import ListNotations.

Section Runs.
  Context {A B : Type}.
  Variables (f : A -> option B) (fresh : B) (dim : nat) (input : list A) (m : nat) (st : tstate (B := B)).
  Hypothesis C : computation f fresh dim input m st.
  Lemma threads_some : dim <> 0 -> 0 < num_threads dim m.
  Proof. destruct C as (_ & Hm & _). unfold num_threads. lia. Qed.
  Lemma state_inv : inv f fresh dim input (num_threads dim m) st.
  Proof. pose proof C as (L & Hm & sched & E). rewrite E. apply run_inv; [exact L|exact threads_some|]. apply start_inv; [exact L|exact threads_some]. Qed.
  Lemma full_input : length input = dim * dim.
  Proof. now destruct C. Qed.
  Lemma same_as_one l : never_throws f input -> join st = Some l -> transform_st f input = Some l /\ elementwise f input l.
  Proof.
    intros N J. assert (E : elementwise f input l) by exact (joined_right f fresh dim input _ full_input threads_some st l state_inv J N).
    split; [now apply st_elementwise|exact E].
  Qed.
  Lemma in_bounds_once : NoDup (map snd (ts_writes st)) /\ (forall k o, In (k, o) (ts_writes st) -> o < dim * dim) /\ (forall w, In w (ts_work st) -> w_stat w <> OutOfBounds).
  Proof.
    pose proof state_inv as V. split; [exact (v_once _ _ _ _ _ _ V)|]. split.
    - intros k o H. destruct (v_writes _ _ _ _ _ _ V k o H) as (c & r & _ & -> & Hc & Hr & _). now apply cell_lt.
    - intros w Hw. apply In_nth_error in Hw. destruct Hw as (k & Hk). now destruct (v_pos _ _ _ _ _ _ V k w Hk) as (_ & _ & _ & H & _).
  Qed.
  Lemma right_or_fresh : forall o x, nth_error input o = Some x ->
    (f x = None -> nth_error (ts_out st) o = Some fresh) /\ (nth_error (ts_out st) o = Some fresh \/ exists y, f x = Some y /\ nth_error (ts_out st) o = Some y).
  Proof.
    intros o x H. split; [exact (cells_fail f fresh dim input _ full_input threads_some st state_inv o x H)|exact (cells_right f fresh dim input _ full_input threads_some st state_inv o x H)].
  Qed.
  Lemma ends_sometime : (join st = None -> exists k, tstep f dim input (num_threads dim m) k st <> None).
  Proof. apply goes_on. Qed.
End Runs.
Lemma sum_le (g : nat -> nat) (b : nat) l : (forall x, g x <= b) -> list_sum (map g l) <= length l * b.
Proof. intros H. induction l as [|x l IH]; [cbn; lia|]. change (list_sum (map g (x :: l))) with (g x + list_sum (map g l)). cbn [length]. specialize (H x). cbn [Nat.mul]. lia. Qed.
Lemma few_steps {A B} (f : A -> option B) fresh dim input m : length input = dim * dim -> 0 < m ->
  forall sched, effective f dim input (num_threads dim m) sched (tstart fresh dim (num_threads dim m)) <= num_threads dim m * (S dim * S dim).
Proof.
  intros L Hm sched. assert (T : dim <> 0 -> 0 < num_threads dim m) by (unfold num_threads; lia).
  etransitivity; [apply (steps_bound f fresh dim input _ L T); apply start_inv; [exact L|exact T]|]. unfold tstart. cbn [ts_work]. rewrite map_map.
  etransitivity; [apply (sum_le _ (S dim * S dim)); intros k; unfold left_steps; cbn [w_stat w_col w_row]|rewrite seq_length; lia].
  assert ((dim - k) * S dim <= dim * S dim) by (apply Nat.mul_le_mono_r; lia). cbn in *. lia.
Qed.

(** * An exception that is lost: a 2 by 2 matrix, two workers; the second element cannot be transformed *)
Definition small_only (x : nat) : option nat := if x <? 5 then Some (x + 10) else None.
Definition quad : list nat := [1; 7; 2; 3].
Definition silent : tstate := trun small_only 2 quad 2 [0; 1; 0; 1; 1; 1; 1; 1; 1; 0] (tstart 0 2 2).
Lemma silent_state : computation small_only 0 2 quad 8 silent.
Proof. split; [reflexivity|]. split; [lia|]. eexists. reflexivity. Qed.
Lemma lost_exception : exists (f : nat -> option nat) fresh dim input m st l, computation f fresh dim input m st /\ transform_st f input = None /\ join st = Some l.
Proof. exists small_only, 0, 2, quad, 8, silent, [11; 0; 12; 13]. split; [exact silent_state|]. split; vm_compute; reflexivity. Qed.
Definition quad' : list nat := [1; 4; 2; 3].
Definition fine : tstate := trun small_only 2 quad' 2 [1; 0; 1; 0; 1; 1; 1; 0; 0; 0; 1; 0] (tstart 0 2 2).
Lemma fine_state : computation small_only 0 2 quad' 8 fine.
Proof. split; [reflexivity|]. split; [lia|]. eexists. reflexivity. Qed.
Lemma fine_never : never_throws small_only quad'.
Proof. intros x [<-|[<-|[<-|[<-|[]]]]]; discriminate. Qed.
Lemma fine_join : join fine = Some [11; 14; 12; 13].
Proof. vm_compute. reflexivity. Qed.
