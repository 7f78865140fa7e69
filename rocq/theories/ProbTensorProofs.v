(** Elements of the probability tensor. *)
From Coq Require Import List NArith ZArith Arith Bool Lia Permutation Sorted Field_theory Ring Field.
From Verif Require Import CoreModel CoreSpec AlgModel FieldModel FieldProofs SymModel PolyModel PolySpec PolyProofs EnumModel EnumSpec EnumProofs PartitionProofs
  CombModel CombSpec TensorModel TensorSpec TensorProofs TensorFinalProofs ProbModel ProbSpec ProbProofs.
Import ListNotations.
Local Open Scope nat_scope.

(* ------------------------------------------------------------ axes *)
Definition real_mmts (p : party) : Prop := Forall (fun m => 0 < fst m) p.
Fixpoint axis_cgs (p : party) (cg : nat) : list nat :=
  match p with [] => [] | m :: p' => seq cg (fst m - 1) ++ [if snd m then cg + (fst m - 1) else cg] ++ axis_cgs p' (cg + operators m) end.
Fixpoint axis_outs (p : party) : list nat :=
  match p with [] => [] | m :: p' => seq 0 (fst m - 1) ++ [fst m - 1] ++ axis_outs p' end.
Fixpoint axis_imps (p : party) (dim : nat) : list nat :=
  match p with [] => [] | m :: p' => (if snd m then [] else [dim + fst m - 1]) ++ axis_imps p' (dim + fst m) end.
Definition axis_of (p : party) : axis := mk_axis (0 :: axis_cgs p 1) (0 :: axis_outs p) (axis_imps p 1).
Lemma axis_mmts_spec p : real_mmts p -> forall rest dim cg a, axis_mmts (length p) (p ++ rest) dim cg a =
  Value (mk_axis (ax_cg a ++ axis_cgs p cg) (ax_outcome a ++ axis_outs p) (ax_implicit a ++ axis_imps p dim), rest).
Proof.
  induction 1 as [|[k x] p Hk F IH]; intros rest dim cg a.
  - cbn. rewrite !app_nil_r. now destruct a.
  - cbn [length app axis_mmts]. cbn [fst] in Hk. destruct (Nat.eqb_spec k 0) as [?|_]; [lia|].
    cbn [axis_cgs axis_outs axis_imps fst snd operators]. unfold operators. cbn [fst snd]. destruct x; rewrite IH; cbn [ax_cg ax_outcome ax_implicit].
    + replace (S (cg + (k - 1))) with (cg + k) by lia. f_equal. f_equal. f_equal; rewrite <- !app_assoc; reflexivity.
    + f_equal. f_equal. f_equal; rewrite <- !app_assoc; reflexivity.
Qed.
Lemma make_axes_spec sc : Forall real_mmts sc -> make_axes (map (@length _) sc) (concat sc) = Value (map axis_of sc).
Proof.
  induction 1 as [|p sc Hp F IH]; [reflexivity|]. cbn [map concat make_axes]. rewrite axis_mmts_spec by exact Hp. cbn [tbind fst snd]. now rewrite IH.
Qed.

(* what the axis says about each report *)
Definition implicit_of (p : party) (e : report) : bool :=
  match e with None => false | Some (m, a) => match nth_error p m with Some (k, x) => negb x && Nat.eqb a (k - 1) | None => false end end.
Definition cell_of (p : party) (e : report) : bool * nat * nat :=
  match e with
  | None => (false, 0, 1)
  | Some (m, a) => if implicit_of p e then (true, cg_place p (Some (m, 0)), cg_place p (Some (m, 0)) + a)
                   else (false, cg_place p e, cg_place p e + 1)
  end.
Lemma axis_imps_ge p dim : real_mmts p -> forall i, In i (axis_imps p dim) -> dim <= i < dim + list_sum (map fst p).
Proof.
  intro F. revert dim. induction F as [|[k x] p Hk F IH]; intros dim i H; [destruct H|]. cbn [axis_imps map list_sum fst snd] in *. cbn.
  apply in_app_iff in H as [H|H]; [destruct x; [destruct H|]; destruct H as [<-|[]]; lia|]. apply IH in H. unfold list_sum in H. lia.
Qed.
Lemma axis_lookup p : real_mmts p -> forall m k x a dim cg, nth_error p m = Some (k, x) -> a < k ->
  let i := list_sum (map fst (firstn m p)) + a in
  nth_error (axis_cgs p cg) i = Some (cg + list_sum (map operators (firstn m p)) + (if negb x && Nat.eqb a (k - 1) then 0 else a)) /\
  nth_error (axis_outs p) i = Some a /\
  (In (dim + i) (axis_imps p dim) <-> negb x && Nat.eqb a (k - 1) = true).
Proof.
  induction 1 as [|[k0 x0] p Hk F IH]; intros m k x a dim cg N A; [now destruct m|]. cbn [fst] in Hk. destruct m as [|m].
  - cbn in N. injection N as -> ->. cbn [firstn map list_sum fold_right Nat.add]. cbv zeta.
    cbn [axis_cgs axis_outs axis_imps fst snd]. split; [|split].
    + destruct (Nat.eqb_spec a (k - 1)) as [->|Q].
      * rewrite nth_error_app2 by (rewrite seq_length; lia). rewrite seq_length, Nat.sub_diag. cbn. destruct x; cbn; f_equal; lia.
      * rewrite nth_error_app1 by (rewrite seq_length; lia). rewrite andb_false_r. rewrite (nth_error_nth' _ 0) by (rewrite seq_length; lia). rewrite seq_nth by lia. f_equal. lia.
    + destruct (Nat.eq_dec a (k - 1)) as [->|Q].
      * rewrite nth_error_app2 by (rewrite seq_length; lia). rewrite seq_length, Nat.sub_diag. reflexivity.
      * rewrite nth_error_app1 by (rewrite seq_length; lia). rewrite (nth_error_nth' _ 0) by (rewrite seq_length; lia). rewrite seq_nth by lia. reflexivity.
    + rewrite in_app_iff. split.
      * intros [H|H]; [destruct x; [destruct H|]; destruct H as [H|[]]; cbn; apply Nat.eqb_eq; lia|]. apply axis_imps_ge in H; [lia|exact F].
      * intro H. apply andb_true_iff in H as [H1 H2]. destruct x; [discriminate|]. apply Nat.eqb_eq in H2. left. left. lia.
  - cbn in N. cbn [firstn map list_sum fold_right fst]. fold (list_sum (map fst (firstn m p))).
    cbn [axis_cgs axis_outs axis_imps fst snd]. cbv zeta.
    destruct (IH m k x a (dim + k0) (cg + operators (k0, x0)) N A) as (E1 & E2 & E3). cbv zeta in E1, E2, E3. split; [|split].
    + rewrite app_assoc, nth_error_app2 by (rewrite app_length, seq_length; cbn; lia). rewrite app_length, seq_length. cbn [length].
      replace (k0 + list_sum (map fst (firstn m p)) + a - (k0 - 1 + 1)) with (list_sum (map fst (firstn m p)) + a) by lia. rewrite E1. f_equal.
      fold (list_sum (map operators (firstn m p))). lia.
    + rewrite app_assoc, nth_error_app2 by (rewrite app_length, seq_length; cbn; lia). rewrite app_length, seq_length. cbn [length].
      replace (k0 + list_sum (map fst (firstn m p)) + a - (k0 - 1 + 1)) with (list_sum (map fst (firstn m p)) + a) by lia. exact E2.
    + rewrite <- E3, in_app_iff. replace (dim + (k0 + list_sum (map fst (firstn m p)) + a)) with (dim + k0 + (list_sum (map fst (firstn m p)) + a)) by lia.
      split; [|tauto]. intros [H|H]; [|exact H]. destruct x0; [destruct H|]. destruct H as [H|[]]. lia.
Qed.
Lemma element_info_spec sc : Forall real_mmts sc -> forall es d, joint sc es ->
  element_info d (map axis_of sc) (places full_place sc es) =
  let cells := map (fun x => cell_of (fst x) (snd x)) (List.combine sc es) in Value (bases cells, finals cells, trues d (flags cells)).
Proof.
  induction 1 as [|p sc Hp F IH]; intros es d J; inversion J as [|? e ? es' Pe Je]; subst; [reflexivity|].
  cbn [map places List.combine fst snd element_info]. fold (places full_place sc es').
  specialize (IH es' (S d) Je). cbv zeta in IH |- *. unfold at_index.
  destruct e as [[m a]|].
  - destruct Pe as (k & x & N & A). destruct (axis_lookup p Hp m k x a 1 1 N A) as (E1 & E2 & E3). cbv zeta in E1, E2, E3.
    cbn [full_place]. cbn [axis_of ax_cg ax_outcome ax_implicit Nat.add nth_error]. rewrite E1, E2. cbn [tbind]. rewrite IH. cbn [tbind].
    cbn [Nat.ltb Nat.leb andb]. cbn [cell_of implicit_of]. rewrite N.
    assert (Q : existsb (Nat.eqb (S (list_sum (map fst (firstn m p)) + a))) (axis_imps p 1) = negb x && Nat.eqb a (k - 1)).
    { apply eq_true_iff_eq. rewrite existsb_exists, <- E3. split.
      - intros (y & Hy & Ey). apply Nat.eqb_eq in Ey. subst y. exact Hy.
      - intro H. eexists. split; [exact H|]. apply Nat.eqb_refl. }
    rewrite Q. destruct (negb x && (a =? k - 1)); cbn [bases finals flags map fst snd trues cg_place]; repeat f_equal; lia.
  - cbn [full_place axis_of ax_cg ax_outcome nth_error tbind]. rewrite IH. cbn [tbind Nat.ltb Nat.leb andb]. reflexivity.
Qed.

(* bounds *)
Lemma ops_sum p m k x : nth_error p m = Some (k, x) -> list_sum (map operators (firstn m p)) + operators (k, x) <= list_sum (map operators p).
Proof.
  revert m. induction p as [|q p IH]; intros [|m] N; cbn in N; try discriminate.
  - injection N as ->. cbn [firstn map list_sum fold_right]. lia.
  - specialize (IH m N). cbn [firstn map list_sum fold_right]. unfold list_sum in IH. lia.
Qed.
Definition inside (d : nat) (c : bool * nat * nat) : Prop := let '(im, b, f) := c in (im = false -> f = b + 1) /\ b <= f /\ f <= d.
Lemma cell_bounds p e : possible p e -> inside (cg_dim p) (cell_of p e).
Proof.
  destruct e as [[m a]|]; cbn [possible cell_of].
  - intros (k & x & N & A). cbn [implicit_of]. rewrite N. pose proof (ops_sum p m k x N) as B. unfold cg_dim. unfold operators in B at 2. cbn [fst snd] in B.
    destruct x; cbn [negb andb].
    + split; [reflexivity|]. cbn [cg_place]. unfold operators in *. lia.
    + destruct (Nat.eqb_spec a (k - 1)) as [->|Q]; (split; [easy|]); cbn [cg_place]; unfold operators in *; lia.
  - intros _. unfold cg_dim. split; [reflexivity|lia].
Qed.


Lemma cells_ok' dims cells : Forall2 inside dims cells -> Forall cell_ok cells.
Proof. induction 1 as [|d [[im b] f] ds cs H _ IH]; [constructor|]. constructor; [|exact IH]. intro E. now apply H. Qed.
Lemma lo_hi dims cells : Forall2 inside dims cells -> forall bits, length bits = count_true (flags cells) ->
  Forall2 le (lo_of cells bits) (hi_of cells bits) /\ Forall2 le (hi_of cells bits) dims \/ Exists (fun d => d = 0) dims.
Proof.
  unfold lo_of, hi_of. induction 1 as [|d [[im b] f] ds cs (H & H1 & H2) _ IH]; intros bits L; [left; split; constructor|].
  destruct (Nat.eq_dec d 0) as [Z|Z]; [right; now left|].
  cbn [flags bases finals map fst snd spread count_true] in *. destruct im.
  - destruct bits as [|c bits]; [discriminate|]. injection L as L. destruct (IH bits L) as [[I1 I2]|I]; [left|right; now right].
    split; constructor; try exact I1; try exact I2; destruct c; lia.
  - destruct (IH bits L) as [[I1 I2]|I]; [left|right; now right]. split; constructor; try exact I1; try exact I2; lia.
Qed.
Lemma hi_none dims cells : Forall2 inside dims cells ->
  hi_of cells (repeat false (count_true (flags cells))) = map (fun x => x + 1) (lo_of cells (repeat false (count_true (flags cells)))).
Proof.
  unfold lo_of, hi_of. induction 1 as [|d [[im b] f] ds cs (H & _) _ IH]; [reflexivity|].
  cbn [flags bases finals map fst snd count_true spread]. destruct im; cbn [Nat.add repeat spread map].
  - f_equal. apply IH.
  - rewrite (H eq_refl). f_equal. apply IH.
Qed.
(* ------------------------------------------------------------ the terms *)
Section Terms.
  Context {R : rfield}.
  Add Field Rt : (r_field R).
  Add Field Ct : (cx_field R).
  Notation C := (cx R).
  Notation mono := (mono R).
  Variable dims : list nat.
  Variable sym : N -> option nat.
  Variables psort factory : list mono -> list mono.
  Hypothesis SM : small dims.
  Variable cells : list (bool * nat * nat).
  Hypothesis NE : cells <> [].
  Hypothesis OK : Forall2 inside dims cells.
  Definition find_cell (s : C) (x : list nat) : found R := lookup sym (N.of_nat (column_position dims x)) s.
  Lemma len_flags : length (flags cells) = length cells. Proof. apply map_length. Qed.
  Lemma len_bases : length (bases cells) = length cells. Proof. apply map_length. Qed.
  Lemma len_finals : length (finals cells) = length cells. Proof. apply map_length. Qed.
  Lemma cells_ok : Forall cell_ok cells. Proof. exact (cells_ok' dims cells OK). Qed.
  Hypothesis POS : Forall (fun d => 0 < d) dims.
  Lemma lo_le bits : length bits = count_true (flags cells) -> Forall2 le (lo_of cells bits) (hi_of cells bits) /\ Forall2 le (hi_of cells bits) dims.
  Proof. intro L. destruct (lo_hi dims cells OK bits L) as [H|H]; [exact H|]. apply Exists_exists in H as (d & Hd & ->). rewrite Forall_forall in POS. specialize (POS 0 Hd). lia. Qed.
  Lemma le_lengths bits : length bits = count_true (flags cells) -> length (lo_of cells bits) = length cells /\ length (hi_of cells bits) = length cells.
  Proof. intro L. unfold lo_of, hi_of. rewrite !spread_length; rewrite ?len_flags, ?len_bases, ?len_finals; auto. Qed.
  Lemma between_inside lo : forall hi ds x, length lo = length hi -> Forall2 le hi ds -> between lo hi x -> index_of ds x.
  Proof.
    induction lo as [|l lo IH]; intros [|h hi] ds x L F B; try discriminate; inversion F; subst; inversion B; subst; constructor; [cbn in *; lia|].
    injection L as L. eapply IH; eassumption.
  Qed.
  Lemma box_le lo : forall hi ds, length lo = length hi -> Forall2 le hi ds -> length (box (List.combine lo hi)) <= volume ds.
  Proof.
    intros hi ds L F. rewrite box_length. revert hi ds L F. induction lo as [|l lo IH]; intros [|h hi] ds L F; try discriminate; inversion F as [|? d ? ds' Q F']; subst; [cbn; lia|].
    injection L as L. specialize (IH hi ds' L F'). cbn [List.combine fold_right volume fst snd]. fold (volume ds').
    apply Nat.mul_le_mono; [lia|exact IH].
  Qed.
  (* the cells of one choice of bits *)
  Definition bit_cells (bits : list bool) : list (list nat) := range_in_order true (lo_of cells bits) (hi_of cells bits).
  Lemma cells_found s bits fuel : length bits = count_true (flags cells) -> volume dims <= fuel ->
    bind (mdoi_run fuel true (lo_of cells bits) (hi_of cells bits)) (fun cs =>
      Ret (tmap (fun p => tbind (index_to_offset_no_checks true dims (fst p)) (fun o => Value (lookup sym o s))) cs)) =
    Ret (Value (map (find_cell s) (bit_cells bits))).
  Proof.
    intros L F. destruct (lo_le bits L) as [H1 H2]. destruct (le_lengths bits L) as [L1 L2].
    rewrite mdoi_run_spec; [|intro E; rewrite E in L1; cbn in L1; symmetry in L1; apply length_zero_iff_nil in L1; contradiction|exact H1
      |etransitivity; [apply (box_le _ _ dims); [congruence|exact H2]|exact F]].
    cbn [bind]. f_equal. fold (bit_cells bits).
    rewrite (tmap_value _ (fun p => find_cell s (fst p))); [f_equal; rewrite <- map_map, numbered_fst; reflexivity|].
    intros [x g] Hx. cbn [fst]. assert (Hx' : In x (bit_cells bits)). { rewrite <- (numbered_fst 0 (bit_cells bits)). apply in_map_iff. exists (x, g). auto. }
    unfold bit_cells in Hx'. apply range_in in Hx'. rewrite offset_exact; [reflexivity| |exact SM].
    apply (between_inside (lo_of cells bits) (hi_of cells bits)); [congruence|exact H2|exact Hx'].
  Qed.
  Let n := count_true (flags cells).
  Definition impl := trues 0 (flags cells).
  Lemma partition_found s fuel parts : Forall (fun b => length b = n) parts -> volume dims <= fuel -> forall cb cl,
    (cb = bases cells \/ exists b, length b = n /\ cb = lo_of cells b) -> (cl = finals cells \/ exists b, length b = n /\ cl = hi_of cells b) ->
    partition_terms dims sym fuel (bases cells) (finals cells) impl s parts cb cl =
    Ret (Value (flat_map (fun b => map (find_cell s) (bit_cells b)) parts)).
  Proof.
    intros FP F. induction FP as [|bits parts Lb FP IH]; intros cb cl Hb Hl; [reflexivity|]. cbn [partition_terms flat_map].
    assert (E1 : blit impl bits (bases cells) 0 cb = lo_of cells bits).
    { unfold impl. destruct Hb as [->|(b & L & ->)].
      - apply blit_eq; rewrite ?len_flags; auto using len_bases.
      - unfold lo_of. rewrite blit_eq; rewrite ?spread_length, ?len_flags; auto using len_bases; rewrite ?len_flags; auto using len_bases.
        apply spread_twice; rewrite ?len_flags; auto using len_bases. }
    assert (E2 : blit impl bits (finals cells) 1 cl = hi_of cells bits).
    { unfold impl. destruct Hl as [->|(b & L & ->)].
      - apply blit_eq; rewrite ?len_flags; auto using len_finals.
      - unfold hi_of. rewrite blit_eq; rewrite ?spread_length, ?len_flags; auto using len_finals; rewrite ?len_flags; auto using len_finals.
        apply spread_twice; rewrite ?len_flags; auto using len_finals. }
    rewrite E1, E2. pose proof (cells_found s bits fuel Lb F) as CF.
    destruct (mdoi_run fuel true (lo_of cells bits) (hi_of cells bits)) as [cs| |]; cbn [bind] in CF |- *; [|discriminate|discriminate].
    injection CF as CF. unfold pbind, lift. rewrite CF. cbn [bind].
    rewrite IH; [reflexivity|right; exists bits; auto|right; exists bits; auto].
  Qed.
  Lemma level_found s fuel L : L <= n -> 0 < n -> 2 ^ n <= fuel -> volume dims <= fuel -> exists bs, level_bits n L bs /\
    level_terms dims sym fuel (bases cells) (finals cells) impl s L = Ret (Value (flat_map (fun b => map (find_cell s) (bit_cells b)) bs)).
  Proof.
    intros HL N0 F1 F2. unfold level_terms. destruct (Nat.eqb_spec L 0) as [->|HN].
    - exists [repeat false n]. split.
      + split; [repeat constructor; intros []|]. intro b. split.
        * intros [<-|[]]. rewrite repeat_length. split; [reflexivity|]. clear. induction n as [|m IH]; [reflexivity|exact IH].
        * intros [Lb Cb]. left. rewrite <- Lb. clear - Cb. induction b as [|[] b IH]; [reflexivity|discriminate|]. cbn in *. f_equal. now apply IH.
      + assert (Li : length impl = n) by apply trues_length.
        rewrite (fold_set_blit impl (bases cells) 0 (bases cells)), Li. unfold impl. rewrite blit_eq; rewrite ?len_flags, ?repeat_length; auto using len_bases.
        fold (lo_of cells (repeat false n)).
        assert (I : bit_cells (repeat false n) = [lo_of cells (repeat false n)]).
        { assert (Lr : length (repeat false n) = count_true (flags cells)) by apply repeat_length.
          assert (Q : hi_of cells (repeat false n) = map (fun x => x + 1) (lo_of cells (repeat false n))).
          { apply (hi_none dims). exact OK. }
          unfold bit_cells. rewrite Q. unfold range_in_order. generalize (lo_of cells (repeat false n)). intro l.
          assert (B : box (rev (List.combine l (map (fun x => x + 1) l))) = [rev l]).
          { assert (E : forall l, box (map (fun x => (x, x + 1)) l) = [l]).
            { clear. induction l as [|a l IH]; [reflexivity|]. cbn [map box]. replace (a + 1 - a) with 1 by lia. cbn. rewrite IH. reflexivity. }
            rewrite <- E, map_rev. f_equal. f_equal. clear. induction l as [|a l IH]; [reflexivity|]. cbn. now rewrite IH. }
          rewrite B. cbn. now rewrite rev_involutive. }
        destruct (lo_le (repeat false n)) as [H1 H2]; [apply repeat_length|]. destruct (le_lengths (repeat false n)) as [L1 L2]; [apply repeat_length|].
        unfold lift. rewrite offset_checked; [|apply (between_inside (lo_of cells (repeat false n)) (hi_of cells (repeat false n))); [congruence|exact H2|]|exact SM].
        * unfold pbind. cbn [bind flat_map app]. rewrite I. reflexivity.
        * apply (range_in true). fold (bit_cells (repeat false n)). rewrite I. now left.
    - destruct (parts_bits n L fuel HL F1) as (l & Run & LB & _).
      assert (Li : length impl = n) by apply trues_length. rewrite Li, Run. cbn [bind]. exists (map snd l). split; [exact LB|].
      apply partition_found; auto. apply Forall_forall. intros b Hb. now apply LB in Hb.
  Qed.
  Fixpoint sgn_pow (k : nat) (s : C) : C := match k with O => s | S k' => sgn_pow k' (copp s) end.
  Lemma parity_count bits : parity R bits = sgn_pow (count_true bits) c1.
  Proof.
    assert (G : forall k s, sgn_pow k (copp s) = copp (sgn_pow k s)). { induction k as [|k IH]; intro s; [reflexivity|]. cbn. apply IH. }
    induction bits as [|[] bits IH]; cbn [parity count_true Nat.add sgn_pow]; [reflexivity|now rewrite G, IH|exact IH].
  Qed.
  Lemma levels_found fuel left : forall s L, L + left = S n -> 0 < n -> 2 ^ n <= fuel -> volume dims <= fuel -> exists F : nat -> list (list bool),
    (forall k, L <= k <= n -> level_bits n k (F k)) /\
    all_levels dims sym fuel (bases cells) (finals cells) impl s L left =
    Ret (Value (flat_map (fun k => flat_map (fun b => map (find_cell (sgn_pow (k - L) s)) (bit_cells b)) (F k)) (seq L left))).
  Proof.
    induction left as [|left IH]; intros s L E N0 F1 F2.
    - exists (fun _ => []). split; [intros; lia|]. reflexivity.
    - cbn [all_levels seq flat_map]. destruct (level_found s fuel L) as (bs & LB & ->); [lia|exact N0|exact F1|exact F2|].
      destruct (IH (copp s) (S L)) as (F & HF & ->); [lia|exact N0|exact F1|exact F2|].
      exists (fun k => if Nat.eqb k L then bs else F k). split.
      + intros k Hk. destruct (Nat.eqb_spec k L) as [->|Q]; [exact LB|]. apply HF. lia.
      + unfold pbind. cbn [bind]. f_equal. f_equal. rewrite Nat.eqb_refl, Nat.sub_diag. cbn [sgn_pow]. f_equal.
        rewrite !flat_map_concat_map. f_equal. apply map_ext_in. intros k Hk. apply in_seq in Hk. destruct (Nat.eqb_spec k L) as [?|_]; [lia|].
        replace (k - L) with (S (k - S L)) by lia. reflexivity.
  Qed.
  (* the terms found, and their sum *)
  Lemma levels_sum fuel : 0 < n -> 2 ^ n <= fuel -> volume dims <= fuel -> exists l,
    all_levels dims sym fuel (bases cells) (finals cells) impl c1 0 (S n) = Ret (Value l) /\
    (forall y, In y l -> exists x, index_of dims x /\ exists s, y = find_cell s x) /\
    forall g : N -> C, csum (map (fun y : found R => cmul (snd (fst y)) (g (fst (fst y)))) l) =
      subtract R cells (fun x => g (N.of_nat (column_position dims x))).
  Proof.
    intros N0 F1 F2. destruct (levels_found fuel (S n) c1 0) as (F & HF & ->); [lia|exact N0|exact F1|exact F2|].
    eexists. split; [reflexivity|]. split.
    - intros y Hy. apply in_flat_map in Hy as (k & Hk & Hy). apply in_seq in Hk. apply in_flat_map in Hy as (b & Hb & Hy).
      apply in_map_iff in Hy as (x & <- & Hx). exists x. split; [|eauto]. apply HF in Hb as [Lb _]; [|lia].
      unfold bit_cells in Hx. apply range_in in Hx. destruct (lo_le b Lb) as [H1 H2]. destruct (le_lengths b Lb) as [L1 L2].
      apply (between_inside (lo_of cells b) (hi_of cells b)); [congruence|exact H2|exact Hx].
    - intro g. rewrite csum_flat. set (f := fun x => g (N.of_nat (column_position dims x))).
      assert (P : Permutation (flat_map F (seq 0 (S n))) (all_bits n)).
      { apply all_levels_bits; [intro k; rewrite in_seq; lia|apply seq_NoDup|]. intros k Hk. apply HF. lia. }
      rewrite <- (subtract_bits R cells f cells_ok). fold n.
      rewrite (csum_perm R _ _ (Permutation_map _ (Permutation_sym P))), csum_flat. f_equal. apply map_ext_in. intros k Hk. apply in_seq in Hk.
      rewrite csum_flat. f_equal. apply map_ext_in. intros b Hb. apply HF in Hb as [Lb Cb]; [|lia].
      rewrite Nat.sub_0_r, map_map. cbn [find_cell lookup fst snd]. rewrite csum_mul, parity_count, Cb. f_equal.
      exact (range_sum R (lo_of cells b) (hi_of cells b) f).
  Qed.
End Terms.

(* ------------------------------------------------------------ from cells to probabilities *)
Lemma map_seq_add s a : forall t, map (fun b => s + b) (seq t a) = seq (s + t) a.
Proof. induction a as [|a IH]; intro t; [reflexivity|]. cbn. rewrite IH. f_equal. f_equal. lia. Qed.
Section Meaning.
  Context {R : rfield}.
  Add Field Rm : (r_field R).
  Add Field Cm : (cx_field R).
  Notation C := (cx R).
  Definition cells (sc : list party) (es : list report) := map (fun x => cell_of (fst x) (snd x)) (List.combine sc es).
  Lemma cells_inside sc es : joint sc es -> Forall2 inside (map cg_dim sc) (cells sc es).
  Proof. induction 1 as [|p e sc es Pe J IH]; [constructor|]. cbn. constructor; [now apply cell_bounds|exact IH]. Qed.
  Lemma consistent_tail p sc P e : possible p e -> @consistent R (p :: sc) P -> consistent sc (fun es => P (e :: es)).
  Proof.
    intros Pe C0 before q after es fs m k x -> Jb Ja N. apply (C0 (p :: before) q after (e :: es) fs m k x); auto. constructor; auto.
  Qed.
  Lemma subtract_meaning sc : Forall real_mmts sc -> forall es (Q : list report -> C) f, joint sc es -> consistent sc Q ->
    (forall es', joint_operator sc es' -> f (places cg_place sc es') = Q es') -> subtract R (cells sc es) f = Q es.
  Proof.
    induction 1 as [|p sc Hp F IH]; intros es Q f J K E; inversion J as [|? e ? es' Pe Je]; subst.
    - apply (E []). constructor.
    - cbn [cells List.combine map fst snd]. fold (cells sc es').
      assert (T : forall r, has_operator p r -> subtract R (cells sc es') (fun l => f (cg_place p r :: l)) = Q (r :: es')).
      { intros r Hr. apply (IH es' (fun es => Q (r :: es)) (fun l => f (cg_place p r :: l)) Je).
        - apply (consistent_tail p); [|exact K]. destruct r as [[m a]|]; [|exact I]. destruct Hr as (k & x & N & A). exists k, x. split; [exact N|].
          unfold operators in A. cbn in A. destruct x; lia.
        - intros es2 J2. apply (E (r :: es2)). constructor; assumption. }
      destruct e as [[m a]|].
      + destruct Pe as (k & x & N & A). cbn [cell_of implicit_of]. rewrite N. destruct (negb x && Nat.eqb a (k - 1)) eqn:II.
        * apply andb_true_iff in II as [X II]. apply Nat.eqb_eq in II. destruct x; [discriminate|]. cbn [subtract].
          pose proof (T None I) as T0. cbn [cg_place] in T0. rewrite T0.
          replace (cg_place p (Some (m, 0)) + a - cg_place p (Some (m, 0))) with a by lia.
          pose proof (K [] p sc [] es' m k false eq_refl ltac:(constructor) Je N) as KK. cbn [app] in KK. rewrite <- KK.
          replace k with (S a) by lia. rewrite seq_S, map_app, csum_app. cbn [Nat.add map csum].
          assert (EQ : csum (map (fun x => subtract R (cells sc es') (fun l => f (x :: l))) (seq (cg_place p (Some (m, 0))) a)) =
                       csum (map (fun b => Q (Some (m, b) :: es')) (seq 0 a))).
          { f_equal. rewrite <- (Nat.add_0_r (cg_place p (Some (m, 0)))) at 1. replace (seq (cg_place p (Some (m, 0)) + 0) a) with (map (fun b => cg_place p (Some (m, 0)) + b) (seq 0 a)).
            - rewrite map_map. apply map_ext_in. intros b Hb. apply in_seq in Hb. rewrite <- (T (Some (m, b))).
              + cbn [cg_place]. rewrite Nat.add_0_r. reflexivity.
              + exists k, false. split; [exact N|]. unfold operators. cbn. lia.
            - apply map_seq_add. }
          rewrite EQ. ring.
        * cbn [subtract]. apply (T (Some (m, a))). exists k, x. split; [exact N|]. unfold operators. cbn. apply andb_false_iff in II as [X|X].
          -- destruct x; [exact A|discriminate].
          -- apply Nat.eqb_neq in X. destruct x; lia.
      + cbn [cell_of subtract]. apply (T None I).
  Qed.
  Lemma full_cells sc : Forall2 inside (map cg_dim sc) (cells sc (map (fun _ => None) sc)).
  Proof. apply cells_inside. induction sc as [|p sc IH]; constructor; [exact I|exact IH]. Qed.
End Meaning.
