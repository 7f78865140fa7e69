(** Views of square matrices. *)
From Coq Require Import List NArith Arith Bool Lia Sorted.
From Verif Require Import CoreModel CoreSpec AlgModel EnumModel EnumSpec EnumProofs SquareModel SquareSpec.
Import ListNotations.

Lemma sorted_append {A} (R : A -> A -> Prop) l r : StronglySorted R l -> StronglySorted R r -> (forall a b, In a l -> In b r -> R a b) -> StronglySorted R (l ++ r).
Proof.
  induction 1 as [|a l S IH F]; intros Sr H; [exact Sr|]. cbn. constructor.
  - apply IH; [exact Sr|]. intros x y X Y. apply H; [now right|exact Y].
  - apply Forall_app. split; [exact F|]. apply Forall_forall. intros y Y. apply H; [now left|exact Y].
Qed.

Section Triangle.
  Context {E : Type}.
  Variables (upper inclusive : bool) (d : nat) (data : list E).
  Variables (lo hi : nat -> nat) (c0 c1 : nat).
  Notation cell r c := (mk_tri_it r%nat c%nat (r%nat + c%nat * d)).
  Notation visit r c := (r%nat, c%nat, r%nat + c%nat * d, nth_error data (r%nat + c%nat * d)).
  Notation done := (fun it => Nat.eqb (ti_offset it) (tri_end upper inclusive d)).
  Notation cur := (fun it => (ti_row it, ti_col it, ti_offset it, nth_error data (ti_offset it))).
  Notation step := (tri_next upper inclusive d).
  Definition col_from (r c : nat) : list (nat * nat) := map (fun r => (r, c)) (seq r (hi c - r)).
  Definition cols (c n : nat) : list (nat * nat) := flat_map (fun c => col_from (lo c) c) (seq c n).
  Hypothesis in_col : forall c r, c0 <= c < c1 -> lo c <= r < hi c -> r < d /\ c < d.
  Hypothesis nonempty : forall c, c0 <= c < c1 -> lo c < hi c.
  Hypothesis down : forall c r, c0 <= c < c1 -> lo c <= r -> S r < hi c -> step (cell r c) = Ret (cell (S r) c).
  Hypothesis across : forall c r, c0 <= c -> S c < c1 -> lo c <= r -> S r = hi c -> step (cell r c) = Ret (cell (lo (S c)) (S c)).
  Hypothesis finish : forall c r, c0 <= c -> S c = c1 -> lo c <= r -> S r = hi c ->
    exists it, step (cell r c) = Ret it /\ ti_offset it = tri_end upper inclusive d.
  Lemma end_far r c : r < d -> c < d -> r + c * d < tri_end upper inclusive d.
  Proof. intros R C. unfold tri_end. destruct (upper || negb inclusive); nia. Qed.
  Lemma not_done r c : c0 <= c < c1 -> lo c <= r < hi c -> Nat.eqb (ti_offset (cell r c)) (tri_end upper inclusive d) = false.
  Proof. intros C R. destruct (in_col c r C R) as [A B]. apply Nat.eqb_neq. cbn. pose proof (end_far r c A B). lia. Qed.
  Lemma tri_remains n c r : c0 <= c < c1 -> lo c <= r < hi c -> length (col_from r c ++ cols (S c) (c1 - S c)) = n ->
    remains done cur step (cell r c) (map (fun rc => visit (fst rc) (snd rc)) (col_from r c ++ cols (S c) (c1 - S c))).
  Proof.
    revert c r. induction n as [|n IH]; intros c r C R L.
    - exfalso. unfold col_from in L. rewrite app_length, map_length, seq_length in L. lia.
    - assert (Q : col_from r c = (r, c) :: col_from (S r) c).
      { unfold col_from. replace (hi c - r) with (S (hi c - S r)) by lia. reflexivity. }
      rewrite Q in *. cbn [app map length] in *. injection L as L. cbn [fst snd].
      destruct (Nat.eq_dec (S r) (hi c)) as [B|B].
      + assert (Z : col_from (S r) c = []). { unfold col_from. now rewrite B, Nat.sub_diag. }
        rewrite Z in *. cbn [app] in *. destruct (Nat.eq_dec (S c) c1) as [Lst|Nx].
        * destruct (finish c r (proj1 C) Lst (proj1 R) B) as (it & St & Of).
          assert (Zc : cols (S c) (c1 - S c) = []). { unfold cols. now rewrite Lst, Nat.sub_diag. }
          rewrite Zc. cbn [map]. apply (rem_step done cur step (cell r c) it); [now apply not_done|exact St|].
          apply rem_done. now apply Nat.eqb_eq.
        * assert (C' : c0 <= S c < c1) by lia. pose proof (nonempty (S c) C') as NE.
          assert (Zc : cols (S c) (c1 - S c) = col_from (lo (S c)) (S c) ++ cols (S (S c)) (c1 - S (S c))).
          { unfold cols. replace (c1 - S c) with (S (c1 - S (S c))) by lia. reflexivity. }
          rewrite Zc in *. apply (rem_step done cur step (cell r c) (cell (lo (S c)) (S c))); [now apply not_done|apply across; lia|].
          apply IH; [exact C'|lia|exact L].
      + apply (rem_step done cur step (cell r c) (cell (S r) c)); [now apply not_done|apply down; lia|]. apply IH; [exact C|lia|exact L].
  Qed.
  Lemma cols_split : c0 < c1 -> cols c0 (c1 - c0) = col_from (lo c0) c0 ++ cols (S c0) (c1 - S c0).
  Proof. intro H. unfold cols. replace (c1 - c0) with (S (c1 - S c0)) by lia. reflexivity. Qed.
  Lemma tri_from_start : c0 < c1 ->
    remains done cur step (cell (lo c0) c0) (map (fun rc => visit (fst rc) (snd rc)) (cols c0 (c1 - c0))).
  Proof. intro H. rewrite cols_split by exact H. eapply tri_remains; [lia| |reflexivity]. specialize (nonempty c0). lia. Qed.
End Triangle.
Lemma cols_in lo hi c n r k : In (r, k) (cols lo hi c n) <-> c <= k < c + n /\ lo k <= r < hi k.
Proof.
  unfold cols, col_from. rewrite in_flat_map. split.
  - intros (j & Hj & H). apply in_seq in Hj. apply in_map_iff in H as (x & E & Hx). injection E as <- <-. apply in_seq in Hx. lia.
  - intros [A B]. exists k. split; [apply in_seq; lia|]. apply in_map_iff. exists r. split; [reflexivity|apply in_seq; lia].
Qed.
Lemma cols_sorted lo hi c n : StronglySorted column_order (cols lo hi c n).
Proof.
  revert c. induction n as [|n IH]; intro c; [constructor|].
  change (cols lo hi c (S n)) with (col_from hi (lo c) c ++ cols lo hi (S c) n). apply sorted_append; [|apply IH|].
  - unfold col_from. generalize (lo c) as s, (hi c - lo c) as m. intros s m. revert s. induction m as [|m IHm]; intro s; [constructor|]. cbn. constructor; [apply IHm|].
    apply Forall_map. apply Forall_forall. intros x Hx. apply in_seq in Hx. right. cbn. lia.
  - intros [r k] [r' k'] H H'. unfold col_from in H. apply in_map_iff in H as (x & E & _). injection E as <- <-. apply cols_in in H'. left. cbn. lia.
Qed.
Lemma cols_length lo hi c n d : (forall k, c <= k < c + n -> hi k - lo k <= d) -> length (cols lo hi c n) <= n * d.
Proof.
  revert c. induction n as [|n IH]; intros c H; [cbn; lia|].
  change (cols lo hi c (S n)) with (col_from hi (lo c) c ++ cols lo hi (S c) n). rewrite app_length. unfold col_from at 1. rewrite map_length, seq_length.
  specialize (H c ltac:(lia)) as H0. specialize (IH (S c)). cbn. pose proof (IH ltac:(intros k K; apply H; lia)). lia.
Qed.

Section Final.
  Context {E : Type}.
  Lemma triangle_spec upper inclusive (m : square E) fuel : sq_dim m * sq_dim m <= fuel ->
    exists l, triangle_run fuel upper inclusive m = Ret (map (fun rc => (fst rc, snd rc, fst rc + snd rc * sq_dim m, sq_get m (fst rc) (snd rc))) l) /\
      lists_in_order column_order (in_triangle upper inclusive (sq_dim m)) l.
  Proof.
    intro F. destruct m as [d data]. cbn [sq_dim] in *. unfold triangle_run, sq_get. cbn [sq_dim sq_data].
    set (lo := fun c => if upper then 0 else if inclusive then c else S c).
    set (hi := fun c => if upper then if inclusive then S c else c else d).
    set (c0 := if upper then if inclusive then 0 else 1 else 0).
    set (c1 := if upper then d else if inclusive then d else pred d).
    exists (cols lo hi c0 (c1 - c0)). split.
    2:{ split; [apply cols_sorted|]. intros [r c]. rewrite cols_in. unfold in_triangle, lo, hi, c0, c1. cbn [fst snd].
        destruct upper, inclusive; lia. }
    destruct (Nat.lt_ge_cases c0 c1) as [C|C].
    - apply run_remains.
      + replace (tri_begin upper inclusive d) with (mk_tri_it (lo c0) c0 (lo c0 + c0 * d)).
        2:{ unfold tri_begin, lo, c0 in *. destruct upper, inclusive; cbn; try reflexivity; try (f_equal; lia).
            f_equal. unfold c1 in C. destruct d as [|d']; cbn in *; lia. }
        apply (tri_from_start upper inclusive d data lo hi c0 c1); [| | | | |exact C].
        * intros c r. unfold lo, hi, c0, c1. destruct upper, inclusive; lia.
        * intros c. unfold lo, hi, c0, c1. destruct upper, inclusive; lia.
        * intros c r. unfold lo, hi, c0, c1, tri_next. cbn [ti_offset ti_row ti_col]. intros H1 H2 H3.
          destruct upper, inclusive.
          -- destruct (Nat.ltb_spec c (S r)); [lia|reflexivity].
          -- destruct (Nat.leb_spec c (S r)); [lia|reflexivity].
          -- destruct (Nat.leb_spec d (S r)); [lia|reflexivity].
          -- destruct (Nat.leb_spec d (S r)); [lia|reflexivity].
        * intros c r. unfold lo, hi, c0, c1, tri_next. cbn [ti_offset ti_row ti_col]. intros H1 H2 H3 H4.
          destruct upper, inclusive.
          -- destruct (Nat.ltb_spec c (S r)); [|lia]. f_equal. f_equal. cbn. nia.
          -- destruct (Nat.leb_spec c (S r)); [|lia]. f_equal. f_equal. cbn. nia.
          -- destruct (Nat.leb_spec d (S r)); [|lia]. f_equal. f_equal. cbn. nia.
          -- destruct (Nat.leb_spec d (S r)); [|lia]. f_equal. f_equal. cbn. nia.
        * intros c r. unfold lo, hi, c0, c1, tri_next, tri_end. cbn [ti_offset ti_row ti_col]. intros H1 H2 H3 H4.
          destruct upper, inclusive; cbn [orb negb].
          -- destruct (Nat.ltb_spec c (S r)); [|lia]. eexists. split; [reflexivity|]. cbn. nia.
          -- destruct (Nat.leb_spec c (S r)); [|lia]. eexists. split; [reflexivity|]. cbn. nia.
          -- destruct (Nat.leb_spec d (S r)); [|lia]. eexists. split; [reflexivity|]. cbn. nia.
          -- destruct (Nat.leb_spec d (S r)); [|lia]. eexists. split; [reflexivity|]. cbn. destruct d as [|d']; [lia|]. cbn in *. nia.
      + rewrite map_length. etransitivity; [apply (cols_length lo hi c0 (c1 - c0) d)|].
        * intros k K. unfold lo, hi, c0, c1 in *. destruct upper, inclusive; lia.
        * etransitivity; [|exact F]. apply Nat.mul_le_mono_r. unfold c0, c1. destruct upper, inclusive; lia.
    - replace (c1 - c0) with 0 by lia. cbn [cols seq flat_map map]. apply run_remains; [|cbn; lia]. apply rem_done. apply Nat.eqb_eq.
      unfold tri_begin, tri_end, c0, c1 in *. destruct upper, inclusive; cbn in *; try nia.
      + destruct d as [|[|d]]; cbn in *; lia.
  Qed.

  (** Traversal of the transposed matrix *)
  Lemma transpose_remains (m : square E) n r c : let d := sq_dim m in r < d -> c < d -> (d - c - 1) * d + (d - r) = n ->
    remains (fun rc => Nat.eqb (fst rc) d && Nat.eqb (snd rc) d) (fun rc => nth_error (sq_data m) (fst rc * d + snd rc)) (transpose_step d) (r, c)
      (map (fun k => nth_error (sq_data m) ((k mod d) * d + k / d)) (seq (r + c * d) n)).
  Proof.
    intros d. clearbody d. revert r c. induction n as [|n IH]; intros r c R C L; [apply Nat.eq_add_0 in L; lia|].
    cbn [seq map].
    assert (D : (r + c * d) / d = c). { rewrite Nat.div_add by lia. rewrite Nat.div_small by lia. reflexivity. }
    assert (M : (r + c * d) mod d = r). { rewrite Nat.mod_add by lia. now apply Nat.mod_small. }
    rewrite D, M. change (r * d + c) with (fst (r, c) * d + snd (r, c)) at 1.
    assert (ND : (Nat.eqb (fst (r, c)) d && Nat.eqb (snd (r, c)) d) = false). { cbn [fst snd]. destruct (Nat.eqb_spec r d); [lia|reflexivity]. }
    destruct (Nat.leb_spec d (S r)) as [B|B].
    - destruct (Nat.leb_spec d (S c)) as [B'|B'].
      + apply (rem_step (fun rc => Nat.eqb (fst rc) d && Nat.eqb (snd rc) d) (fun rc => nth_error (sq_data m) (fst rc * d + snd rc)) (transpose_step d) (r, c) (d, d)); [exact ND| |].
        * unfold transpose_step. destruct (Nat.leb_spec d (S r)); [|lia]. destruct (Nat.leb_spec d (S c)); [|lia]. f_equal. f_equal; lia.
        * replace n with 0 by nia. apply rem_done. cbn. now rewrite Nat.eqb_refl.
      + apply (rem_step (fun rc => Nat.eqb (fst rc) d && Nat.eqb (snd rc) d) (fun rc => nth_error (sq_data m) (fst rc * d + snd rc)) (transpose_step d) (r, c) (0, S c)); [exact ND| |].
        * unfold transpose_step. destruct (Nat.leb_spec d (S r)); [|lia]. destruct (Nat.leb_spec d (S c)); [lia|]. reflexivity.
        * replace (S (r + c * d)) with (0 + S c * d) by (cbn; lia). apply IH; [lia|lia|]. replace (d - c - 1) with (S (d - S c - 1)) in L by lia. cbn in L. lia.
    - apply (rem_step (fun rc => Nat.eqb (fst rc) d && Nat.eqb (snd rc) d) (fun rc => nth_error (sq_data m) (fst rc * d + snd rc)) (transpose_step d) (r, c) (S r, c)); [exact ND| |].
      + unfold transpose_step. destruct (Nat.leb_spec d (S r)); [lia|]. reflexivity.
      + replace (S (r + c * d)) with (S r + c * d) by lia. apply IH; [lia|lia|lia].
  Qed.
  Lemma transpose_spec (m : square E) fuel : sq_dim m * sq_dim m <= fuel ->
    exists l, transpose_run fuel m = Ret l /\ length l = sq_dim m * sq_dim m /\
      forall row col, row < sq_dim m -> col < sq_dim m -> nth_error l (row + col * sq_dim m) = Some (sq_get m col row).
  Proof.
    intro F. set (d := sq_dim m) in *. exists (map (fun k => nth_error (sq_data m) ((k mod d) * d + k / d)) (seq 0 (d * d))).
    split; [|split].
    - unfold transpose_run. fold d. destruct (Nat.eq_dec d 0) as [Z|Z].
      + rewrite Z. destruct fuel; reflexivity.
      + apply run_remains; [|now rewrite map_length, seq_length]. pose proof (transpose_remains m (d * d) 0 0) as R. cbn zeta in R. fold d in R.
        apply R; [lia|lia|]. destruct d as [|d']; [lia|]. cbn. nia.
    - now rewrite map_length, seq_length.
    - intros row col R C. rewrite (map_nth_error _ _ _ (d := row + col * d)).
      + f_equal. rewrite Nat.mod_add, Nat.div_add by lia. rewrite Nat.mod_small, Nat.div_small by lia. unfold sq_get. fold d. f_equal. lia.
      + assert (row + col * d < d * d) by nia. rewrite (nth_error_nth' _ 0) by (now rewrite seq_length). now rewrite seq_nth.
  Qed.

  (** Padding *)
  Lemma column_length (m : square E) i : full_matrix (sq_dim m) (sq_data m) -> i < sq_dim m -> length (column m i) = sq_dim m.
  Proof. intros F I. unfold column. rewrite firstn_length, skipn_length. unfold full_matrix in F. rewrite F. nia. Qed.
  Lemma nth_error_skip {A} (l : list A) n k : nth_error (skipn n l) k = nth_error l (n + k).
  Proof. revert l. induction n as [|n IH]; intros [|a l]; cbn; try reflexivity. - now destruct k. - apply IH. Qed.
  Lemma nth_error_first {A} (l : list A) n k : k < n -> nth_error (firstn n l) k = nth_error l k.
  Proof. revert l k. induction n as [|n IH]; intros [|a l] [|k] H; cbn; try reflexivity; try lia. apply IH. lia. Qed.
  Lemma column_nth (m : square E) i r : r < sq_dim m -> nth_error (column m i) r = sq_get m r i.
  Proof. intro R. unfold column, sq_get. rewrite nth_error_first by exact R. rewrite nth_error_skip. f_equal. lia. Qed.
  Lemma flat_blocks {A} (f : nat -> list A) w n s : (forall i, s <= i < s + n -> length (f i) = w) -> length (flat_map f (seq s n)) = n * w.
  Proof.
    revert s. induction n as [|n IH]; intros s H; [reflexivity|]. cbn [seq flat_map]. rewrite app_length, IH, H by (intros; try apply H; lia). reflexivity.
  Qed.
  Lemma flat_blocks_nth {A} (f : nat -> list A) w n s i r : (forall i, s <= i < s + n -> length (f i) = w) -> r < w -> i < n ->
    nth_error (flat_map f (seq s n)) (r + i * w) = nth_error (f (s + i)) r.
  Proof.
    revert s i. induction n as [|n IH]; intros s i H R I; [lia|]. cbn [seq flat_map]. destruct i as [|i].
    - cbn [Nat.mul]. rewrite !Nat.add_0_r. apply nth_error_app1. rewrite H by lia. exact R.
    - rewrite nth_error_app2 by (rewrite H by lia; cbn; lia). rewrite H by lia. replace (r + S i * w - w) with (r + i * w) by (cbn; lia).
      rewrite IH; [f_equal; f_equal; lia|intros j J; apply H; lia|exact R|lia].
  Qed.
  Lemma pad_full (m : square E) p z : full_matrix (sq_dim m) (sq_data m) -> full_matrix (sq_dim (sq_pad m p z)) (sq_data (sq_pad m p z)).
  Proof.
    intro F. unfold full_matrix, sq_pad. cbn [sq_dim sq_data]. rewrite app_length, repeat_length.
    rewrite (flat_blocks _ (sq_dim m + p)); [lia|]. intros i I. rewrite app_length, repeat_length, column_length by (try assumption; lia). reflexivity.
  Qed.
  Lemma pad_get (m : square E) p z r c : full_matrix (sq_dim m) (sq_data m) -> r < sq_dim m + p -> c < sq_dim m + p ->
    sq_get (sq_pad m p z) r c = if Nat.ltb r (sq_dim m) && Nat.ltb c (sq_dim m) then sq_get m r c else Some z.
  Proof.
    intros F R C.
    assert (BL : forall i, 0 <= i < 0 + sq_dim m -> length (column m i ++ repeat z p) = sq_dim m + p).
    { intros i I. rewrite app_length, repeat_length, column_length by (try assumption; lia). reflexivity. }
    unfold sq_get at 1, sq_pad. cbn [sq_dim sq_data]. destruct (Nat.ltb_spec c (sq_dim m)) as [B|B].
    - rewrite nth_error_app1 by (rewrite (flat_blocks _ (sq_dim m + p)) by exact BL; nia).
      rewrite (flat_blocks_nth _ (sq_dim m + p)) by (try exact BL; lia). rewrite Nat.add_0_l. destruct (Nat.ltb_spec r (sq_dim m)) as [B'|B']; cbn [andb].
      + rewrite nth_error_app1 by (rewrite column_length by assumption; exact B'). now apply column_nth.
      + rewrite nth_error_app2 by (rewrite column_length by assumption; exact B'). rewrite column_length by assumption. apply nth_error_repeat. lia.
    - rewrite andb_false_r. rewrite nth_error_app2 by (rewrite (flat_blocks _ (sq_dim m + p)) by exact BL; nia).
      rewrite (flat_blocks _ (sq_dim m + p)) by exact BL. apply nth_error_repeat. nia.
  Qed.
End Final.
