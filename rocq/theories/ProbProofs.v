(** Inclusion and exclusion over the parties whose outcome has no operator. *)
From Coq Require Import List NArith ZArith Arith Bool Lia Permutation Sorted Field_theory Ring Field.
From Verif Require Import CoreModel CoreSpec AlgModel FieldModel FieldProofs SymModel PolyModel PolySpec PolyProofs EnumModel EnumSpec EnumProofs PartitionProofs
  CombModel CombSpec CombProofs CombFinalProofs TensorModel TensorSpec TensorProofs TensorFinalProofs ProbModel ProbSpec.
Import ListNotations.
Local Open Scope nat_scope.

(* ------------------------------------------------------------ positions of true bits, and subsets as bits *)
Fixpoint trues (d : nat) (bits : list bool) : list nat :=
  match bits with [] => [] | b :: bits' => if b then d :: trues (S d) bits' else trues (S d) bits' end.
Fixpoint count_true (bits : list bool) : nat := match bits with [] => 0 | b :: bits' => (if b then 1 else 0) + count_true bits' end.
Lemma trues_length d bits : length (trues d bits) = count_true bits.
Proof. revert d. induction bits as [|[] bits IH]; intro d; cbn; [reflexivity|f_equal; apply IH|apply IH]. Qed.
Lemma trues_range d bits x : In x (trues d bits) -> d <= x < d + length bits.
Proof. revert d. induction bits as [|[] bits IH]; intros d H; cbn in H |- *; [contradiction| |]; [destruct H as [<-|H]; [lia|]|]; apply IH in H; lia. Qed.
Lemma trues_sorted d bits : StronglySorted lt (trues d bits).
Proof.
  revert d. induction bits as [|[] bits IH]; intro d; cbn; [constructor|constructor; [apply IH|]|apply IH].
  apply Forall_forall. intros x H. apply trues_range in H. lia.
Qed.
Lemma trues_nodup d bits : NoDup (trues d bits).
Proof.
  revert d. induction bits as [|[] bits IH]; intro d; cbn; [constructor|constructor; [|apply IH]|apply IH].
  intro H. apply trues_range in H. lia.
Qed.
Lemma count_le bits : count_true bits <= length bits.
Proof. induction bits as [|[] bits IH]; cbn; lia. Qed.
Lemma trues_member d bits : map (in_list (trues d bits)) (seq d (length bits)) = bits.
Proof.
  revert d. induction bits as [|b bits IH]; intro d; [reflexivity|]. cbn [length seq map]. f_equal.
  - unfold in_list. destruct (in_dec _ _ _) as [H|H]; destruct b; cbn [trues] in H; try reflexivity.
    + apply trues_range in H. lia.
    + exfalso. apply H. now left.
  - transitivity (map (in_list (trues (S d) bits)) (seq (S d) (length bits))); [|apply IH]. apply map_ext_in. intros x Hx. apply in_seq in Hx. unfold in_list. cbn [trues]. destruct b; [|reflexivity].
    destruct (in_dec _ _ _) as [H|H], (in_dec _ _ (trues (S d) bits)) as [H'|H']; try reflexivity.
    + destruct H as [H|H]; [lia|contradiction].
    + exfalso. apply H. now right.
Qed.
(* a strictly increasing list of numbers from d below d + n is the list of true positions of its membership bits *)
Lemma member_trues n : forall d x, StronglySorted lt x -> Forall (fun a => d <= a < d + n) x -> trues d (map (in_list x) (seq d n)) = x.
Proof.
  induction n as [|n IH]; intros d x So F.
  - destruct x as [|a x]; [reflexivity|]. apply Forall_inv in F. lia.
  - cbn [seq map trues]. destruct x as [|a x].
    + assert (E : in_list [] d = false) by (unfold in_list; now destruct (in_dec _ _ _)). rewrite E. apply IH; constructor.
    + inversion So as [|? ? So' Fa]; subst. pose proof (Forall_inv F) as Ha. pose proof (Forall_inv_tail F) as Ft.
      rewrite Forall_forall in Fa, Ft. cbv beta in Ha. destruct (Nat.eq_dec a d) as [->|Q].
      * assert (E : in_list (d :: x) d = true). { unfold in_list. destruct (in_dec _ _ _) as [H|H]; [reflexivity|]. exfalso. apply H. now left. }
        rewrite E. f_equal. rewrite <- (IH (S d) x So') at 2; [|apply Forall_forall; intros y Hy; specialize (Fa y Hy); specialize (Ft y Hy); lia].
        f_equal. apply map_ext_in. intros y Hy. apply in_seq in Hy. unfold in_list.
        destruct (in_dec _ _ _) as [H|H], (in_dec _ _ x) as [H'|H']; try reflexivity; [destruct H; [lia|contradiction]|exfalso; apply H; now right].
      * assert (E : in_list (a :: x) d = false).
        { unfold in_list. destruct (in_dec _ _ _) as [H|H]; [|reflexivity]. destruct H as [H|H]; [congruence|]. specialize (Ft d H). specialize (Fa d H). lia. }
        rewrite E. apply IH; [exact So|]. constructor; [lia|]. apply Forall_forall. intros y Hy. specialize (Fa y Hy). specialize (Ft y Hy). lia.
Qed.
Fixpoint all_bits (n : nat) : list (list bool) :=
  match n with O => [[]] | S n' => map (cons false) (all_bits n') ++ map (cons true) (all_bits n') end.
Lemma all_bits_in n x : In x (all_bits n) <-> length x = n.
Proof.
  revert x. induction n as [|n IH]; intro x; cbn.
  - split; [intros [<-|[]]; reflexivity|]. intro H. left. symmetry. now apply length_zero_iff_nil.
  - rewrite in_app_iff, !in_map_iff. split.
    + intros [(y & <- & H)|(y & <- & H)]; cbn; f_equal; now apply IH.
    + destruct x as [|b x]; [discriminate|]. intro H. injection H as H. apply IH in H. destruct b; [right|left]; exists x; auto.
Qed.
Lemma nodup_map {A B} (f : A -> B) l : (forall x y, In x l -> In y l -> f x = f y -> x = y) -> NoDup l -> NoDup (map f l).
Proof.
  intros I. induction 1 as [|a l N D IH]; [constructor|]. cbn. constructor.
  - intro H. apply in_map_iff in H as (b & E & Hb). apply N. rewrite (I a b); [exact Hb|now left|now right|congruence].
  - apply IH. intros x y Hx Hy. apply I; now right.
Qed.
Lemma nodup_app {A} (l l' : list A) : NoDup l -> NoDup l' -> (forall x, In x l -> In x l' -> False) -> NoDup (l ++ l').
Proof.
  induction 1 as [|a l N D IH]; intros D' X; [exact D'|]. cbn. constructor.
  - rewrite in_app_iff. intros [H|H]; [contradiction|]. apply (X a); [now left|exact H].
  - apply IH; [exact D'|]. intros x Hx. apply X. now right.
Qed.
Lemma all_bits_nodup n : NoDup (all_bits n).
Proof.
  induction n as [|n IH]; cbn; [repeat constructor; intros []|]. apply nodup_app.
  - apply nodup_map; [|exact IH]. intros x y _ _ E. now injection E.
  - apply nodup_map; [|exact IH]. intros x y _ _ E. now injection E.
  - intros x H H'. apply in_map_iff in H as (a & <- & _). apply in_map_iff in H' as (b & E & _). discriminate E.
Qed.
Lemma all_bits_length n : length (all_bits n) = 2 ^ n.
Proof. induction n as [|n IH]; [reflexivity|]. cbn [all_bits]. rewrite app_length, !map_length, IH. cbn. lia. Qed.
Lemma nodup_flat_map {A B} (f : A -> list B) l : NoDup l -> (forall a, In a l -> NoDup (f a)) ->
  (forall a b x, In a l -> In b l -> In x (f a) -> In x (f b) -> a = b) -> NoDup (flat_map f l).
Proof.
  induction 1 as [|a l N D IH]; intros F X; [constructor|]. cbn. apply nodup_app.
  - apply F. now left.
  - apply IH; [intros b Hb; apply F; now right|]. intros b c x Hb Hc. apply X; now right.
  - intros x Hx H. apply in_flat_map in H as (b & Hb & Hxb). apply N. rewrite (X a b x); auto; [now left|now right].
Qed.
Lemma sorted_nodup {A} (T : A -> A -> Prop) (I : forall a, ~ T a a) l : StronglySorted T l -> NoDup l.
Proof. induction 1 as [|a l So IH F]; constructor; [|exact IH]. intro H. rewrite Forall_forall in F. apply (I a), F, H. Qed.

(* the bits the partition iterator goes through for one L *)
Definition level_bits (n k : nat) (bits : list (list bool)) : Prop := NoDup bits /\ forall b, In b bits <-> length b = n /\ count_true b = k.
Lemma parts_bits n k fuel : k <= n -> 2 ^ n <= fuel -> exists l, parts_run fuel n k = Ret l /\ level_bits n k (map snd l) /\
  forall p, In p l -> fst (fst p) = trues 0 (snd p).
Proof.
  intros K F. destruct (partitions_listed n k K) as (l & Run & [So M] & Ln).
  assert (MB : forall x, In x l -> trues 0 (membership n x) = x).
  { intros x Hx. apply M in Hx as (_ & S1 & F1). unfold membership. apply member_trues; [exact S1|]. eapply Forall_impl; [|exact F1]. cbn. lia. }
  assert (LB : level_bits n k (map (membership n) l)).
  { split.
    - apply nodup_map.
      + intros x y Hx Hy E. rewrite <- (MB x Hx), <- (MB y Hy), E. reflexivity.
      + apply (sorted_nodup colex_lt); [|exact So]. intros a H. unfold colex_lt in H. induction (rev a) as [|c r IH]; inversion H; subst; [lia|auto].
    - intro b. rewrite in_map_iff. split.
      + intros (x & <- & Hx). split; [unfold membership; now rewrite map_length, seq_length|]. rewrite <- (trues_length 0), (MB x Hx). apply M in Hx as [H _]. exact H.
      + intros [L C]. exists (trues 0 b). split.
        * unfold membership. rewrite <- L. apply trues_member.
        * apply M. split; [rewrite trues_length; exact C|]. split; [apply trues_sorted|]. apply Forall_forall. intros x Hx. apply trues_range in Hx. lia. }
  exists (map (fun x => (x, complement_of n x, membership n x)) l). split; [|split].
  - apply Run. destruct LB as [ND IN]. rewrite <- (map_length (membership n)). etransitivity; [|exact F]. rewrite <- all_bits_length.
    apply NoDup_incl_length; [exact ND|]. intros b Hb. apply all_bits_in. now apply IN in Hb.
  - rewrite map_map. cbn [snd]. exact LB.
  - intros p Hp. apply in_map_iff in Hp as (x & <- & Hx). cbn. symmetry. now apply MB.
Qed.
(* all levels together are all subsets *)
Lemma all_levels_bits n (f : nat -> list (list bool)) ks : (forall k, In k ks <-> k <= n) -> NoDup ks -> (forall k, k <= n -> level_bits n k (f k)) ->
  Permutation (flat_map f ks) (all_bits n).
Proof.
  intros K ND F. apply NoDup_Permutation.
  - apply nodup_flat_map; [exact ND|intros a Ha; apply F, K, Ha|]. intros a b x Ha Hb Hx Hx'. apply F in Hx; [|now apply K]. apply F in Hx'; [|now apply K]. lia.
  - apply all_bits_nodup.
  - intro x. rewrite in_flat_map, all_bits_in. split.
    + intros (k & Hk & Hx). apply F in Hx; [tauto|now apply K].
    + intro L. exists (count_true x). pose proof (count_le x). split; [apply K; lia|]. apply F; [lia|auto].
Qed.

(* ------------------------------------------------------------ writing through a list of positions *)
Fixpoint spread (flags : list bool) (bits : list bool) (source : list nat) (off : nat) (target : list nat) : list nat :=
  match flags, source, target with
  | fl :: flags', s :: source', t :: target' =>
      if fl then match bits with b :: bits' => (if b then s else off) :: spread flags' bits' source' off target' | [] => t :: target' end
      else t :: spread flags' bits source' off target'
  | _, _, _ => target
  end.
Lemma blit_spread flags : forall bits source off target pre_s pre, length source = length flags -> length target = length flags -> length pre_s = length pre ->
  length bits = count_true flags ->
  blit (trues (length pre) flags) bits (pre_s ++ source) off (pre ++ target) = pre ++ spread flags bits source off target.
Proof.
  induction flags as [|fl flags IH]; intros bits source off target pre_s pre Ls Lt Lp Lb.
  - cbn. destruct target; [|discriminate]. reflexivity.
  - destruct source as [|s source]; [discriminate|]. destruct target as [|t target]; [discriminate|]. injection Ls as Ls. injection Lt as Lt.
    assert (E : forall (q : list nat) x y, q ++ x :: y = (q ++ [x]) ++ y) by (intros; now rewrite <- app_assoc).
    destruct fl; cbn [trues spread count_true] in *.
    + destruct bits as [|b bits]; [discriminate|]. injection Lb as Lb. cbn [blit]. rewrite set_nth_app.
      rewrite app_nth2 by lia. rewrite Lp, Nat.sub_diag. cbn [nth]. rewrite (E pre_s), (E pre).
      replace (S (length pre)) with (length (pre ++ [if b then s else off])) by (rewrite app_length; cbn; lia).
      rewrite IH; [now rewrite <- app_assoc|exact Ls|exact Lt| |exact Lb]. rewrite !app_length, Lp. reflexivity.
    + rewrite (E pre_s), (E pre). replace (S (length pre)) with (length (pre ++ [t])) by (rewrite app_length; cbn; lia).
      rewrite IH; [now rewrite <- app_assoc|exact Ls|exact Lt| |exact Lb]. rewrite !app_length, Lp. reflexivity.
Qed.
Lemma blit_eq flags bits source off target : length source = length flags -> length target = length flags -> length bits = count_true flags ->
  blit (trues 0 flags) bits source off target = spread flags bits source off target.
Proof. intros. exact (blit_spread flags bits source off target [] [] H H0 eq_refl H1). Qed.
Lemma spread_length flags bits source off target : length source = length flags -> length target = length flags ->
  length (spread flags bits source off target) = length flags.
Proof.
  revert bits source target. induction flags as [|fl flags IH]; intros bits [|s source] [|t target] Ls Lt; try discriminate; [reflexivity|].
  injection Ls as Ls. injection Lt as Lt. destruct fl; cbn.
  - destruct bits; cbn; [now rewrite Lt|]. f_equal. now apply IH.
  - f_equal. now apply IH.
Qed.
Lemma spread_twice flags bits bits' source off target : length source = length flags -> length target = length flags ->
  length bits = count_true flags -> length bits' = count_true flags ->
  spread flags bits source off (spread flags bits' source off target) = spread flags bits source off target.
Proof.
  revert bits bits' source target. induction flags as [|fl flags IH]; intros bits bits' [|s source] [|t target] Ls Lt Lb Lb'; try discriminate; [reflexivity|].
  injection Ls as Ls. injection Lt as Lt. destruct fl; cbn in *.
  - destruct bits as [|b bits], bits' as [|b' bits']; try discriminate. injection Lb as Lb. injection Lb' as Lb'. f_equal. now apply IH.
  - f_equal. now apply IH.
Qed.
Lemma fold_set_blit ds source off target : fold_left (fun x d => set_nth d off x) ds target = blit ds (repeat false (length ds)) source off target.
Proof. revert target. induction ds as [|d ds IH]; intro target; [reflexivity|]. cbn. apply IH. Qed.

(* ------------------------------------------------------------ sums *)
Section Sums.
  Variable R : rfield.
  Add Field Rf : (r_field R).
  Add Field Cf : (cx_field R).
  Notation C := (cx R).
  Implicit Types f : list nat -> C.
  Lemma csum_app (l l' : list C) : csum (l ++ l') = cadd (csum l) (csum l').
  Proof. induction l as [|x l IH]; cbn [app csum]; [ring|]. rewrite IH. ring. Qed.
  Lemma csum_perm (l l' : list C) : Permutation l l' -> csum l = csum l'.
  Proof. induction 1; cbn [csum]; [reflexivity|congruence|ring|congruence]. Qed.
  Lemma csum_mul {A} (g : A -> C) s l : csum (map (fun a => cmul s (g a)) l) = cmul s (csum (map g l)).
  Proof. induction l as [|a l IH]; cbn [map csum]; [ring|]. rewrite IH. ring. Qed.
  Lemma csum_add {A} (g h : A -> C) l : csum (map (fun a => cadd (g a) (h a)) l) = cadd (csum (map g l)) (csum (map h l)).
  Proof. induction l as [|a l IH]; cbn [map csum]; [ring|]. rewrite IH. ring. Qed.
  Lemma csum_flat {A B} (g : B -> C) (h : A -> list B) l : csum (map g (flat_map h l)) = csum (map (fun a => csum (map g (h a))) l).
  Proof. induction l as [|a l IH]; [reflexivity|]. cbn [flat_map map csum]. rewrite map_app, csum_app, IH. reflexivity. Qed.
  Lemma csum_swap {A B} (g : A -> B -> C) l l' : csum (map (fun a => csum (map (g a) l')) l) = csum (map (fun b => csum (map (fun a => g a b) l)) l').
  Proof.
    induction l as [|a l IH]; cbn [map csum].
    - induction l' as [|b l' IH]; [reflexivity|]. cbn [map csum]. rewrite <- IH. ring.
    - rewrite IH, <- csum_add. reflexivity.
  Qed.
  Lemma value_csum v (l : list (mono R)) : value v l = csum (map (term_value v) l).
  Proof. induction l as [|x l IH]; [reflexivity|]. cbn [value fold_right map csum] in *. now rewrite <- IH. Qed.

  (* sum over a box *)
  Fixpoint msum (cs : list (list nat)) f : C :=
    match cs with [] => f [] | c :: cs' => csum (map (fun a => msum cs' (fun l => f (a :: l))) c) end.
  Lemma box_sum r f : csum (map f (box r)) = msum (map (fun p => seq (fst p) (snd p - fst p)) r) f.
  Proof.
    revert f. induction r as [|[lo hi] r IH]; intro f; [cbn; ring|]. cbn [box map msum fst snd]. rewrite csum_flat.
    f_equal. apply map_ext. intro a. rewrite map_map. apply IH.
  Qed.
  Lemma range_sum lo hi f : csum (map f (range_in_order true lo hi)) = msum (map (fun p => seq (fst p) (snd p - fst p)) (List.combine lo hi)) f.
  Proof.
    rewrite <- box_sum. apply csum_perm, Permutation_map, NoDup_Permutation.
    - unfold range_in_order. apply nodup_map; [intros x y _ _ E; rewrite <- (rev_involutive x), E; apply rev_involutive|].
      eapply (sorted_nodup lex_lt); [|apply box_spec]. intros a H. induction a as [|c r IH]; inversion H; subst; [lia|auto].
    - eapply (sorted_nodup lex_lt); [|apply box_spec]. intros a H. induction a as [|c r IH]; inversion H; subst; [lia|auto].
    - intro x. rewrite range_in. unfold between. symmetry. apply box_spec.
  Qed.

  (* one cell for each party: is the outcome implicit, first and last operator *)
  Definition flags (cells : list (bool * nat * nat)) : list bool := map (fun c => fst (fst c)) cells.
  Definition bases (cells : list (bool * nat * nat)) : list nat := map (fun c => snd (fst c)) cells.
  Definition finals (cells : list (bool * nat * nat)) : list nat := map snd cells.
  Fixpoint subtract (cells : list (bool * nat * nat)) f : C :=
    match cells with
    | [] => f []
    | (false, b, _) :: r => subtract r (fun l => f (b :: l))
    | (true, b, e) :: r => csub (subtract r (fun l => f (0 :: l))) (csum (map (fun a => subtract r (fun l => f (a :: l))) (seq b (e - b))))
    end.
  Fixpoint parity (bits : list bool) : C := match bits with [] => c1 | b :: bits' => if b then copp (parity bits') else parity bits' end.
  Definition lo_of cells bits := spread (flags cells) bits (bases cells) 0 (bases cells).
  Definition hi_of cells bits := spread (flags cells) bits (finals cells) 1 (finals cells).
  Definition ranges cells bits := map (fun p => seq (fst p) (snd p - fst p)) (List.combine (lo_of cells bits) (hi_of cells bits)).
  Definition cell_ok (c : bool * nat * nat) : Prop := let '(im, b, e) := c in im = false -> e = b + 1.
  Lemma subtract_bits cells f : Forall cell_ok cells ->
    csum (map (fun bits => cmul (parity bits) (msum (ranges cells bits) f)) (all_bits (count_true (flags cells)))) = subtract cells f.
  Proof.
    intro OK. revert f. induction OK as [|[[im b] e] cells Hc OK IH]; intro f.
    - cbn. ring.
    - destruct im; cbn [flags map count_true subtract] in *.
      + cbn [fst snd]. cbn [Nat.add all_bits]. rewrite map_app, !map_map, csum_app.
        unfold ranges, lo_of, hi_of. cbn [flags bases finals map fst snd spread List.combine parity msum].
        fold (flags cells) (bases cells) (finals cells).
        rewrite (map_ext _ (fun x => cmul (parity x) (msum (ranges cells x) (fun l => f (0 :: l))))).
        2:{ intro x. cbn [seq Nat.sub map csum]. f_equal. unfold ranges, lo_of, hi_of. ring. }
        rewrite IH.
        rewrite (map_ext _ (fun x => cmul (copp c1) (csum (map (fun a => cmul (parity x) (msum (ranges cells x) (fun l => f (a :: l)))) (seq b (e - b)))))).
        2:{ intro x. rewrite csum_mul. unfold ranges, lo_of, hi_of. ring. }
        rewrite csum_mul, csum_swap. rewrite (map_ext _ (fun a => subtract cells (fun l => f (a :: l)))) by (intro a; apply IH). ring.
      + cbn [fst snd Nat.add]. rewrite <- IH. f_equal. apply map_ext. intro bits. f_equal.
        unfold ranges, lo_of, hi_of. cbn [flags bases finals map fst snd spread List.combine msum].
        cbn in Hc. rewrite (Hc eq_refl). replace (b + 1 - b) with 1 by lia. cbn [seq map csum]. unfold flags, bases, finals. ring.
  Qed.
End Sums.
