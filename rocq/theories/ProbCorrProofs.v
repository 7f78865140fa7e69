(** Correlators. *)
From Coq Require Import List NArith ZArith Arith Bool Lia Permutation Sorted Field_theory Ring Field.
From Verif Require Import CoreModel CoreSpec AlgModel FieldModel FieldProofs SymModel SymSpec PolyModel PolySpec PolyProofs PolyOpsProofs PolyFinalProofs
  EnumModel EnumSpec EnumProofs PartitionProofs CombModel CombSpec TensorModel TensorSpec TensorProofs TensorFinalProofs ProbModel ProbSpec ProbProofs ProbTensorProofs ProbFinalProofs.
Import ListNotations.
Local Open Scope nat_scope.

(* ------------------------------------------------------------ binary measurements *)
Definition on (choice : list nat) : list bool := map (fun c => Nat.ltb 0 c) choice.
Definition rep (c : nat) : report := match c with O => None | S m => Some (m, 0) end.
Lemma involved_trues choice : involved choice = trues 0 (on choice).
Proof.
  assert (G : forall d, map fst (filter (fun p => Nat.ltb 0 (snd p)) (List.combine (seq d (length choice)) choice)) = trues d (on choice)); [|apply G].
  induction choice as [|c choice IH]; intro d; [reflexivity|]. cbn [length seq List.combine filter snd on map trues].
  destruct (0 <? c); cbn [map fst]; rewrite IH; reflexivity.
Qed.
Lemma binary_ops p : Forall (fun m => m = (2, false)) p -> forall m, m <= length p -> list_sum (map operators (firstn m p)) = m.
Proof.
  induction 1 as [|q p -> F IH]; intros m L; [cbn in L; replace m with 0 by lia; reflexivity|]. destruct m as [|m]; [reflexivity|].
  cbn [firstn map]. cbn in L. change (1 + list_sum (map operators (firstn m p)) = S m). rewrite IH; lia.
Qed.
Lemma binary_dim p : Forall (fun m => m = (2, false)) p -> cg_dim p = S (length p).
Proof. intro H. unfold cg_dim. rewrite <- (firstn_all p) at 1. rewrite binary_ops by auto. reflexivity. Qed.
Lemma binary_real sc : all_binary sc -> Forall real_mmts sc.
Proof. unfold all_binary. apply Forall_impl. intros p. apply Forall_impl. intros m ->. cbn. lia. Qed.
Lemma f2_length {A B} (r : A -> B -> Prop) l l' : Forall2 r l l' -> length l = length l'.
Proof. induction 1; cbn; congruence. Qed.
Definition chosen (sc : list party) (choice : list nat) : Prop := Forall2 (fun p c => c <= length p) sc choice.
Lemma chosen_index sc choice : all_binary sc -> chosen sc choice -> index_of (map cg_dim sc) choice.
Proof.
  intros B H. revert B. induction H as [|p c sc choice L H IH]; intro B; [constructor|]. inversion B as [|? ? Bp Bs]; subst. cbn [map]. constructor; [|now apply IH].
  rewrite binary_dim by exact Bp. cbn. lia.
Qed.
Lemma rep_operator p c : Forall (fun m => m = (2, false)) p -> c <= length p -> has_operator p (rep c) /\ cg_place p (rep c) = c.
Proof.
  intros B L. destruct c as [|m]; cbn [rep has_operator cg_place]; [auto|]. split.
  - destruct (nth_error p m) as [q|] eqn:N; [|apply nth_error_None in N; lia]. rewrite Forall_forall in B. pose proof (B q (nth_error_In _ _ N)) as ->.
    exists 2, false. split; [reflexivity|]. cbn. lia.
  - rewrite binary_ops by (auto; lia). lia.
Qed.
Lemma rep_joint sc choice : all_binary sc -> chosen sc choice -> joint_operator sc (map rep choice) /\ places cg_place sc (map rep choice) = choice.
Proof.
  intros B H. revert B. induction H as [|p c sc choice L H IH]; intro B; [split; [constructor|reflexivity]|]. inversion B as [|? ? Bp Bs]; subst.
  destruct (rep_operator p c Bp L) as [R1 R2]. destruct (IH Bs) as [I1 I2]. split; [now constructor|]. cbn. rewrite R2. f_equal. exact I2.
Qed.
Lemma operator_possible p e : has_operator p e -> possible p e.
Proof. destruct e as [[m a]|]; [|auto]. intros (k & x & N & A). exists k, x. split; [exact N|]. unfold operators in A. cbn in A. destruct x; lia. Qed.

(* dropping some of the chosen measurements *)
Definition keep (choice : list nat) (bits : list bool) : list nat := spread (on choice) bits choice 0 choice.
Lemma keep_chosen sc choice : chosen sc choice -> forall bits, length bits = count_true (on choice) -> chosen sc (keep choice bits).
Proof.
  unfold keep. induction 1 as [|p c sc choice L H IH]; intros bits Lb; [constructor|]. cbn [on map count_true spread] in *. destruct (0 <? c).
  - destruct bits as [|b bits]; [discriminate|]. injection Lb as Lb. constructor; [destruct b; lia|now apply IH].
  - constructor; [exact L|now apply IH].
Qed.
Lemma keep_zeros choice bits : length bits = count_true (on choice) -> keep choice bits = spread (on choice) bits choice 0 (repeat 0 (length choice)).
Proof.
  unfold keep. revert bits. induction choice as [|c choice IH]; intros bits Lb; [reflexivity|]. cbn [on map count_true spread length repeat] in *.
  destruct (Nat.ltb_spec 0 c).
  - destruct bits as [|b bits]; [discriminate|]. injection Lb as Lb. f_equal. now apply IH.
  - f_equal; [lia|now apply IH].
Qed.
Lemma keep_blit choice bits : length bits = count_true (on choice) -> blit (trues 0 (on choice)) bits choice 0 (repeat 0 (length choice)) = keep choice bits.
Proof. intro L. rewrite keep_zeros by exact L. apply blit_eq; unfold on; rewrite ?map_length, ?repeat_length; auto. Qed.
Lemma keep_all choice bits : length bits = count_true (on choice) -> count_true bits = count_true (on choice) -> keep choice bits = choice.
Proof.
  unfold keep. revert bits. induction choice as [|c choice IH]; intros bits Lb Cb; [reflexivity|]. cbn [on map count_true spread] in *. destruct (0 <? c).
  - destruct bits as [|[] bits]; [discriminate| |]; injection Lb as Lb; cbn [count_true] in Cb.
    + f_equal. apply IH; [exact Lb|]. unfold on. lia.
    + exfalso. assert (count_true bits <= length bits) by (clear; induction bits as [|[] l IH]; cbn; lia). unfold on in *. lia.
  - f_equal. now apply IH.
Qed.
Lemma keep_none choice bits : count_true bits = 0 -> length bits = count_true (on choice) -> keep choice bits = repeat 0 (length choice).
Proof.
  unfold keep. revert bits. induction choice as [|c choice IH]; intros bits Cb Lb; [reflexivity|]. cbn [on map count_true spread length repeat] in *. destruct (Nat.ltb_spec 0 c).
  - destruct bits as [|[] bits]; [discriminate|discriminate|]. injection Lb as Lb. f_equal. now apply IH.
  - f_equal; [lia|now apply IH].
Qed.
Lemma set_same d x : nth d x 0 = 0 -> set_nth d 0 x = x.
Proof. revert d. induction x as [|a x IH]; intros [|d] H; cbn in *; try reflexivity; [now subst|]. now rewrite IH. Qed.
Lemma set_other d e a x : d <> e -> nth d (set_nth e a x) 0 = nth d x 0.
Proof. revert d e. induction x as [|b x IH]; intros [|d] [|e] H; cbn; try reflexivity; try lia. apply IH. lia. Qed.
Lemma fold_blit index ps : forall bits all k x, skipn k all = ps -> NoDup ps -> Forall (fun d => nth d x 0 = 0) ps -> length bits = length ps ->
  fold_left (fun x i => let d := nth i all 0 in set_nth d (nth d index 0) x) (trues k bits) x = blit ps bits index 0 x.
Proof.
  induction ps as [|d ps IH]; intros bits all k x E N Z L; [destruct bits; [reflexivity|discriminate]|]. destruct bits as [|b bits]; [discriminate|]. injection L as L.
  inversion N as [|? ? N1 N2]; subst. inversion Z as [|? ? Z1 Z2]; subst.
  assert (D : nth k all 0 = d). { clear - E. revert k E. induction all as [|a all IH]; intros [|k] E; cbn in *; try discriminate; [now injection E|]. now apply IH. }
  assert (K : skipn (S k) all = ps). { clear - E. revert k E. induction all as [|a all IH]; intros [|k] E; cbn in *; try discriminate; [now injection E|]. now apply IH. }
  cbn [trues blit]. destruct b.
  - cbn [fold_left]. cbv zeta. rewrite D. apply IH; auto. rewrite Forall_forall in *. intros e He. rewrite set_other by (intros ->; contradiction). now apply Z2.
  - rewrite set_same by exact Z1. now apply IH.
Qed.
Lemma subset_keep choice bits : length bits = count_true (on choice) -> subset_index (length choice) (trues 0 (on choice)) choice (trues 0 bits) = keep choice bits.
Proof.
  intro L. rewrite <- keep_blit by exact L. unfold subset_index. apply fold_blit; [reflexivity|apply trues_nodup| |rewrite trues_length; exact L].
  apply Forall_forall. intros d _. clear. revert d. induction (length choice) as [|n IH]; intros [|d]; cbn; auto.
Qed.

Lemma NoDup_app_ {A} (l l' : list A) : NoDup l -> NoDup l' -> (forall x, In x l -> In x l' -> False) -> NoDup (l ++ l').
Proof.
  induction 1 as [|a l H N IH]; intros N' D; [exact N'|]. cbn. constructor; [|apply IH; [exact N'|intros x Hx; apply D; now right]].
  rewrite in_app_iff. intros [Q|Q]; [contradiction|]. apply (D a); [now left|exact Q].
Qed.
Section Corr.
  Context {R : rfield}.
  Add Field Rc : (r_field R).
  Add Field Cc : (cx_field R).
  Notation C := (cx R).
  Notation mono := (mono R).
  Definition c2 : C := cadd c1 c1.
  Fixpoint weight (bits : list bool) : C := match bits with [] => c1 | true :: b => cmul c2 (weight b) | false :: b => copp (weight b) end.
  Lemma expand sc choice : all_binary sc -> chosen sc choice -> forall P : list report -> C, consistent sc P ->
    correlator P choice = csum (map (fun bits => cmul (weight bits) (P (map rep (keep choice bits)))) (all_bits (count_true (on choice)))).
  Proof.
    intros B H. revert B. induction H as [|p c sc choice L H IH]; intros B P K; [cbn; ring|]. inversion B as [|? ? Bp Bs]; subst.
    assert (T : forall e, possible p e -> consistent sc (fun es => P (e :: es))) by (intros e He; exact (consistent_tail p sc P e He K)).
   
    destruct c as [|m].
    - cbn [correlator]. rewrite (IH Bs _ (T None I)). reflexivity.
    - cbn [correlator]. destruct (nth_error p m) as [q|] eqn:N; [|apply nth_error_None in N; lia].
      assert (Q : q = (2, false)) by (rewrite Forall_forall in Bp; apply Bp; eapply nth_error_In; eassumption). subst q.
      rewrite (IH Bs _ (T (Some (m, 0)) (ex_intro _ 2 (ex_intro _ false (conj N (Nat.lt_0_succ 1)))))).
      rewrite (IH Bs _ (T (Some (m, 1)) (ex_intro _ 2 (ex_intro _ false (conj N (Nat.lt_succ_diag_r 1)))))).
      cbn [on map Nat.ltb Nat.leb count_true Nat.add all_bits]. fold (on choice). rewrite map_app, !map_map, csum_app.
      assert (KK : forall bits, length bits = count_true (on choice) -> P (Some (m, 1) :: map rep (keep choice bits)) =
                    csub (P (None :: map rep (keep choice bits))) (P (Some (m, 0) :: map rep (keep choice bits)))).
      { intros bits Lb. assert (Jt : joint sc (map rep (keep choice bits))).
        { pose proof (rep_joint sc _ Bs (keep_chosen sc choice H bits Lb)) as [J _]. clear - J. induction J; constructor; auto using operator_possible. }
        pose proof (K [] p sc [] (map rep (keep choice bits)) m 2 false eq_refl (Forall2_nil _) Jt N) as E. cbn [seq map csum app] in E. rewrite <- E. ring. }
      assert (E1 : csum (map (fun bits => cmul (weight (true :: bits)) (P (map rep (keep (S m :: choice) (true :: bits))))) (all_bits (count_true (on choice)))) =
                   cmul c2 (csum (map (fun bits => cmul (weight bits) (P (Some (m, 0) :: map rep (keep choice bits)))) (all_bits (count_true (on choice)))))).
      { rewrite <- csum_mul. f_equal. apply map_ext. intro bits. cbn [weight]. change (keep (S m :: choice) (true :: bits)) with (S m :: keep choice bits). cbn [map rep]. ring. }
      assert (E2 : csum (map (fun bits => cmul (weight (false :: bits)) (P (map rep (keep (S m :: choice) (false :: bits))))) (all_bits (count_true (on choice)))) =
                   cmul (copp c1) (csum (map (fun bits => cmul (weight bits) (P (None :: map rep (keep choice bits)))) (all_bits (count_true (on choice)))))).
      { rewrite <- csum_mul. f_equal. apply map_ext. intro bits. cbn [weight]. change (keep (S m :: choice) (false :: bits)) with (0 :: keep choice bits). cbn [map rep]. ring. }
      assert (E3 : csum (map (fun bits => cmul (weight bits) (P (Some (m, 1) :: map rep (keep choice bits)))) (all_bits (count_true (on choice)))) =
                   csub (csum (map (fun bits => cmul (weight bits) (P (None :: map rep (keep choice bits)))) (all_bits (count_true (on choice)))))
                        (csum (map (fun bits => cmul (weight bits) (P (Some (m, 0) :: map rep (keep choice bits)))) (all_bits (count_true (on choice)))))).
      { rewrite (map_ext_in _ (fun bits => cadd (cmul (weight bits) (P (None :: map rep (keep choice bits)))) (cmul (copp c1) (cmul (weight bits) (P (Some (m, 0) :: map rep (keep choice bits))))))).
        - rewrite csum_add, csum_mul. ring.
        - intros bits Hb. apply all_bits_in in Hb. rewrite KK by exact Hb. ring. }
      rewrite E3.
      transitivity (cadd
         (csum (map (fun bits => cmul (weight (false :: bits)) (P (map rep (keep (S m :: choice) (false :: bits))))) (all_bits (count_true (on choice)))))
         (csum (map (fun bits => cmul (weight (true :: bits)) (P (map rep (keep (S m :: choice) (true :: bits))))) (all_bits (count_true (on choice)))))); [|reflexivity].
      rewrite E1, E2. unfold c2. ring.
  Qed.
  (* weights *)
  Fixpoint mh (k : nat) : C := match k with O => c1 | S k' => cmul (mh k') minus_half end.
  Definition wt (n k : nat) : C := cmul (two_to n) (mh (n - k)).
  Lemma two_eq : @two R = c2. Proof. unfold two, c2. apply cx_ext; cbn; ring. Qed.
  Lemma two_half : cmul two minus_half = copp (@c1 R).
  Proof. unfold minus_half, two, half. apply cx_ext; cbn; [|ring]. field. apply two_neq_0. Qed.
  Lemma weight_wt bits : weight bits = wt (length bits) (count_true bits).
  Proof.
    induction bits as [|b bits IH]; [apply cx_ext; cbn; ring|]. pose proof (count_le bits) as L. unfold wt in *. destruct b; cbn [weight length count_true two_to Nat.add].
    - rewrite IH, Nat.sub_succ, two_eq. ring.
    - rewrite IH. replace (S (length bits) - count_true bits) with (S (length bits - count_true bits)) by lia. cbn [mh].
      transitivity (cmul (copp c1) (cmul (two_to (length bits)) (mh (length bits - count_true bits)))); [ring|]. rewrite <- two_half. ring.
  Qed.
  Lemma wt_step n k : k < n -> cmul (wt n (S k)) minus_half = wt n k.
  Proof. intro H. unfold wt. replace (n - k) with (S (n - S k)) by lia. cbn [mh]. ring. Qed.
  Lemma wt_top n : wt n n = two_to n. Proof. unfold wt. rewrite Nat.sub_diag. cbn. ring. Qed.
End Corr.
Lemma level_none n : level_bits n 0 [repeat false n].
Proof.
  split; [repeat constructor; intros []|]. intro b. split.
  - intros [<-|[]]. rewrite repeat_length. split; [reflexivity|]. induction n as [|m IH]; [reflexivity|exact IH].
  - intros [Lb Cb]. left. rewrite <- Lb. clear - Cb. induction b as [|[] b IH]; [reflexivity|discriminate|]. cbn in *. f_equal. now apply IH.
Qed.
Lemma level_all n : level_bits n n [repeat true n].
Proof.
  split; [repeat constructor; intros []|]. intro b. split.
  - intros [<-|[]]. rewrite repeat_length. split; [reflexivity|]. induction n as [|m IH]; [reflexivity|cbn; now rewrite IH].
  - intros [Lb Cb]. left. subst n. induction b as [|[] b IH]; [reflexivity| |].
    + cbn in *. f_equal. apply IH. lia.
    + exfalso. pose proof (count_le b). cbn in Cb. lia.
Qed.

Section Elements.
  Context {R : rfield}.
  Add Field Re : (r_field R).
  Add Field Ce : (cx_field R).
  Notation C := (cx R).
  Notation mono := (mono R).
  Variable sc : list party.
  Variable choice : list nat.
  Hypothesis BIN : all_binary sc.
  Hypothesis CH : chosen sc choice.
  Let dims := map cg_dim sc.
  Hypothesis SM : small dims.
  Variable sym : N -> option nat.
  Let n := count_true (on choice).
  Lemma lens : length choice = length dims.
  Proof. unfold dims. rewrite map_length. symmetry. apply (f2_length _ _ _ CH). Qed.
  (* an index and a factor *)
  Notation ent := (list nat * C)%type.
  Definition ent_term (x : ent) : mono := mk_mono (S (column_position dims (fst x))) false (snd x).
  Definition zeros := repeat 0 (length choice).
  Lemma zeros_keep : zeros = keep choice (repeat false n).
  Proof. unfold zeros. symmetry. apply keep_none; [|apply repeat_length]. apply (proj2 (level_none n)). now left. Qed.
  Lemma position_zeros : column_position dims zeros = 0.
  Proof. unfold zeros. rewrite lens. clear. induction dims as [|d ds IH]; [reflexivity|]. cbn in *. rewrite IH. lia. Qed.
  Lemma one_ent f : one_term f = ent_term (zeros, f).
  Proof. unfold ent_term. cbn [fst snd]. now rewrite position_zeros. Qed.
  Lemma keep_offset bits : length bits = n -> index_to_offset_no_checks true dims (keep choice bits) = Value (N.of_nat (column_position dims (keep choice bits))).
  Proof. intro L. rewrite offset_exact; [reflexivity| |exact SM]. apply chosen_index; [exact BIN|]. now apply keep_chosen. Qed.
  Lemma choice_keep : choice = keep choice (repeat true n).
  Proof. symmetry. apply keep_all; [apply repeat_length|]. apply (proj2 (level_all n)). now left. Qed.
  Lemma lookup_ent x (f : C) : cg_term (lookup sym (N.of_nat (column_position dims x)) f) = ent_term (x, f).
  Proof. unfold cg_term, lookup, ent_term. cbn. now rewrite Nat2N.id. Qed.
  (* the list of entries of a correlator: for each subset of the parties involved, the factor *)
  Definition good (l : list ent) : Prop :=
    (forall x, In x l -> exists bits, length bits = n /\ fst x = keep choice bits) /\
    forall g : list nat -> C, csum (map (fun x : ent => cmul (snd x) (g (fst x))) l) = csum (map (fun bits => cmul (weight bits) (g (keep choice bits))) (all_bits n)).
  Definition level (F : nat -> list (list bool)) (k : nat) : list ent := map (fun b => (keep choice b, wt n k)) (F k).
  Lemma good_levels F ks : (forall k, In k ks <-> k <= n) -> NoDup ks -> (forall k, k <= n -> level_bits n k (F k)) -> good (flat_map (level F) ks).
  Proof.
    intros K ND HF. split.
    - intros x Hx. apply in_flat_map in Hx as (k & Hk & Hx). apply in_map_iff in Hx as (b & <- & Hb). apply HF in Hb; [|now apply K]. exists b. split; [apply Hb|reflexivity].
    - intro g. rewrite csum_flat. rewrite (csum_perm R _ _ (Permutation_map _ (Permutation_sym (all_levels_bits n F ks K ND HF)))), csum_flat.
      f_equal. apply map_ext_in. intros k Hk. unfold level. rewrite map_map. f_equal. apply map_ext_in. intros b Hb. cbn [fst snd].
      apply HF in Hb as [L1 L2]; [|now apply K]. rewrite weight_wt, L1, L2. reflexivity.
  Qed.
  Lemma middle_found fuel subset : subset < n -> 2 ^ n <= fuel -> exists F, (forall k, 1 <= k <= subset -> level_bits n k (F k)) /\
    middle_terms sym fuel dims (trues 0 (on choice)) choice subset (wt n subset) =
    Ret (Value (map ent_term (flat_map (level F) (rev (seq 1 subset)) ++ [(zeros, wt n 0)]))).
  Proof.
    induction subset as [|s IH]; intros L FU.
    - exists (fun _ => []). split; [intros; lia|]. cbn [middle_terms seq rev flat_map app map]. now rewrite one_ent.
    - destruct IH as (F & HF & E); [lia|exact FU|]. destruct (parts_bits n (S s) fuel) as (l & Run & LB & FS); [lia|exact FU|].
      exists (fun k => if Nat.eqb k (S s) then map snd l else F k). split.
      + intros k Hk. destruct (Nat.eqb_spec k (S s)) as [->|Q]; [exact LB|]. apply HF. lia.
      + cbn [middle_terms]. rewrite trues_length. fold n. rewrite Run. cbn [bind]. unfold lift.
        rewrite (tmap_value _ (fun p => ent_term (keep choice (snd p), wt n (S s)))).
        * unfold pbind at 1. cbn [bind]. rewrite wt_step by lia. rewrite E. unfold pbind. cbn [bind]. f_equal. f_equal.
          rewrite seq_S, rev_app_distr. cbn [Nat.add rev app flat_map]. rewrite <- app_assoc, (map_app ent_term (level _ (S s))). f_equal.
          -- unfold level. rewrite Nat.eqb_refl, !map_map. reflexivity.
          -- rewrite !map_app. f_equal. f_equal. rewrite !flat_map_concat_map. f_equal. apply map_ext_in. intros k Hk. apply in_rev, in_seq in Hk.
             unfold level. destruct (Nat.eqb_spec k (S s)) as [?|_]; [lia|reflexivity].
        * intros p Hp. rewrite (FS p Hp). rewrite <- lens. rewrite subset_keep; [|apply LB, in_map, Hp]. rewrite keep_offset by (apply LB, in_map, Hp).
          cbn [tbind]. now rewrite lookup_ent.
  Qed.
  Variables psort factory : list mono -> list mono.
  (* the shapes of elements *)
  Definition resolved (l : list mono) (e : element R) : Prop :=
    el_cg e = make_plain psort l /\
    el_symbol e = option_map factory (symbol_terms (map (fun x => lookup sym (N.of_nat (m_id x - 1)) (m_f x)) (el_cg e))).
  Definition positive (x : ent) : option mono :=
    if forallb (Nat.eqb 0) (fst x) then Some (one_term (snd x))
    else match positive_symbol sym (N.of_nat (column_position dims (fst x))) with Some id => Some (mk_mono id false (snd x)) | None => None end.
  Fixpoint all_positive (l : list ent) : option (list mono) :=
    match l with [] => Some [] | x :: l' => match positive x, all_positive l' with Some m, Some r => Some (m :: r) | _, _ => None end end.
  Lemma correlator_shape fuel : 2 ^ length sc <= fuel -> exists l e, make_correlator dims sym psort factory fuel dims choice = Ret (Value e) /\ good l /\
    (n = 0 /\ e = make_id \/ 3 <= n /\ resolved (map ent_term l) e \/
     1 <= n <= 2 /\ el_cg e = make_plain psort (map ent_term l) /\ el_symbol e = option_map factory (all_positive l)).
  Proof.
    intro FU. assert (NL : n <= length sc). { unfold n. etransitivity; [apply count_le|]. unfold on. rewrite map_length. rewrite lens. unfold dims. now rewrite map_length. }
    assert (FU' : 2 ^ n <= fuel) by (etransitivity; [apply Nat.pow_le_mono_r; [lia|exact NL]|exact FU]).
    unfold make_correlator. rewrite involved_trues. pose proof (trues_length 0 (on choice)) as TL. fold n in TL.
    destruct (trues 0 (on choice)) as [|a [|b [|c ps]]] eqn:TT; cbn [length] in TL.
    - exists (flat_map (level (fun _ => [repeat false n])) [0]). exists make_id. split; [reflexivity|]. split; [|left; auto].
      apply good_levels; [intro k; cbn; lia|repeat constructor; intros []|]. intros k Hk. replace k with 0 by lia. apply level_none.
    - (* one party *)
      exists [(choice, two); (zeros, copp c1)]. eexists. split; [unfold make_one_party, lift; rewrite choice_keep at 1; rewrite keep_offset by apply repeat_length; cbn [tbind]; rewrite <- choice_keep; reflexivity|].
      split; [|right; right; split; [lia|]].
      + pose proof (good_levels (fun k => match k with O => [repeat false n] | _ => [repeat true n] end) [1; 0]) as G.
        cbn [flat_map level map app] in G. rewrite <- choice_keep, <- zeros_keep in G.
        replace (wt n 1) with (@two R) in G by (rewrite <- TL, wt_top; unfold two_to; ring).
        replace (wt n 0) with (copp (@c1 R)) in G by (rewrite <- (wt_step n 0), <- TL, wt_top by lia; rewrite <- two_half; unfold two_to; ring).
        apply G; [intro k; cbn; lia|repeat constructor; cbn; intuition lia|]. intros k Hk. destruct k as [|k]; [apply level_none|]. replace (S k) with n by lia. apply level_all.
      + cbn [el_cg el_symbol map]. split; [now rewrite lookup_ent, one_ent|].
        cbn [all_positive]. unfold positive. cbn [fst snd].
        assert (Z1 : forallb (Nat.eqb 0) choice = false).
        { clear - TT. revert TT. generalize 0 at 1. induction choice as [|x l IH]; intros d TT; [discriminate|]. cbn [on map trues] in TT. cbn [forallb].
          destruct x; [|reflexivity]. cbn [Nat.ltb Nat.leb Nat.eqb andb] in *. now apply (IH (S d)). }
        assert (Z2 : forallb (Nat.eqb 0) zeros = true) by (unfold zeros; generalize (length choice); clear; intro m; induction m; [reflexivity|assumption]).
        rewrite Z1, Z2. destruct (positive_symbol sym _); reflexivity.
    - (* two parties *)
      assert (KB : forall x y, keep choice [x; y] = set_nth b (if y then nth b choice 0 else 0) (set_nth a (if x then nth a choice 0 else 0) (repeat 0 (length dims)))).
      { intros x y. rewrite <- keep_blit by (cbn; unfold n in TL; exact TL). rewrite TT, lens. reflexivity. }
      assert (AB : a < length dims /\ b < length dims /\ a <> b).
      { assert (In a (trues 0 (on choice)) /\ In b (trues 0 (on choice))) as [Ia Ib] by (rewrite TT; cbn; auto). apply trues_range in Ia, Ib.
        pose proof (trues_nodup 0 (on choice)) as ND. rewrite TT in ND. inversion ND as [|? ? N1 _]; subst. cbn in N1. unfold on in *. rewrite map_length, lens in *. intuition lia. }
      assert (IDX : forall bits, length bits = n -> index_to_offset true dims (keep choice bits) = Value (N.of_nat (column_position dims (keep choice bits)))).
      { intros bits Lb. apply offset_checked; [|exact SM]. apply chosen_index; [exact BIN|]. now apply keep_chosen. }
      assert (Ka : set_nth a (nth a choice 0) (repeat 0 (length dims)) = keep choice [true; false]).
      { rewrite KB. symmetry. apply set_same. rewrite set_other by (intro; subst; tauto). apply nth_repeat. }
      assert (Kb : set_nth b (nth b choice 0) (set_nth a 0 (set_nth a (nth a choice 0) (repeat 0 (length dims)))) = keep choice [false; true]).
      { rewrite KB. f_equal. generalize (nth a choice 0). clear. intro v. generalize (repeat 0 (length dims)). intro l. revert a. induction l as [|x l IH]; intros [|a]; cbn; try reflexivity. now rewrite IH. }
      assert (Kab : choice = keep choice [true; true]). { symmetry. apply keep_all; cbn; unfold n in TL; congruence. }
      assert (Kz : zeros = keep choice [false; false]). { symmetry. apply keep_none; [reflexivity|]. cbn. unfold n in TL. congruence. }
      exists [(choice, four); (keep choice [true; false], copp two); (keep choice [false; true], copp two); (zeros, c1)]. eexists. split.
      { unfold make_two_party, lift. rewrite Kab at 1. rewrite keep_offset by (cbn; lia). cbn [tbind]. rewrite <- Kab, Ka, IDX by (cbn; lia). cbn [tbind].
        rewrite Ka in Kb. rewrite Kb, IDX by (cbn; lia). cbn [tbind]. reflexivity. }
      split; [|right; right; split; [lia|]].
      + split.
        * intros x [<-|[<-|[<-|[<-|[]]]]]; cbn [fst]; eexists; (split; [|first [exact Kab|exact Kz|reflexivity]]); cbn; lia.
        * intro g. rewrite <- TL. cbn [all_bits map app csum fst snd weight]. rewrite <- Kab, <- Kz. unfold four. rewrite two_eq. unfold c2. ring.
      + cbn [el_cg el_symbol map]. split; [now rewrite !lookup_ent, one_ent|].
        assert (NZ : forall x, forallb (Nat.eqb 0) x = true -> forall d, nth d x 0 = 0).
        { clear. intros x H d. destruct (Nat.lt_ge_cases d (length x)) as [L|L]; [|now rewrite nth_overflow]. rewrite forallb_forall in H. symmetry. apply Nat.eqb_eq, H, nth_In, L. }
        assert (PA : nth a choice 0 <> 0 /\ nth b choice 0 <> 0).
        { assert (G : forall d x, In x (trues d (on choice)) -> nth (x - d) choice 0 <> 0).
          { clear. induction choice as [|y l IH]; intros d x H; [destruct H|]. cbn [on map trues] in H. destruct (Nat.ltb_spec 0 y) as [Q|Q].
            - destruct H as [<-|H]; [rewrite Nat.sub_diag; cbn; lia|]. pose proof (trues_range _ _ _ H). replace (x - d) with (S (x - S d)) by lia. cbn. now apply IH.
            - pose proof (trues_range _ _ _ H). replace (x - d) with (S (x - S d)) by lia. cbn. now apply IH. }
          specialize (G 0). rewrite TT in G. split; [specialize (G a)|specialize (G b)]; rewrite Nat.sub_0_r in G; apply G; cbn; auto. }
        assert (SN : forall d x l, d < length l -> nth d (set_nth d x l) 0 = x).
        { clear. intros d x l. revert d. induction l as [|y l IH]; intros [|d] L; cbn in *; try lia. apply IH. lia. }
        assert (SL : forall d x l, length (set_nth d x l) = length l). { clear. intros d x l. revert d. induction l as [|y l IH]; intros [|d]; cbn; auto. }
        assert (Z1 : forallb (Nat.eqb 0) choice = false). { destruct (forallb _ choice) eqn:Q; [|reflexivity]. exfalso. destruct PA as [PA _]. apply PA. now apply NZ. }
        assert (Z2 : forallb (Nat.eqb 0) (keep choice [true; false]) = false).
        { destruct (forallb (Nat.eqb 0) (keep choice [true; false])) eqn:Q; [|reflexivity]. exfalso. destruct PA as [PA _]. apply PA. refine (eq_trans _ (NZ _ Q a)). rewrite KB, set_other by tauto. symmetry. apply SN. rewrite repeat_length. tauto. }
        assert (Z3 : forallb (Nat.eqb 0) (keep choice [false; true]) = false).
        { destruct (forallb (Nat.eqb 0) (keep choice [false; true])) eqn:Q; [|reflexivity]. exfalso. destruct PA as [_ PA]. apply PA. refine (eq_trans _ (NZ _ Q b)). rewrite KB. symmetry. apply SN. rewrite SL, repeat_length. tauto. }
        assert (Z4 : forallb (Nat.eqb 0) zeros = true) by (unfold zeros; generalize (length choice); clear; intro m; induction m; [reflexivity|assumption]).
        cbn [all_positive]. unfold positive. cbn [fst snd]. rewrite Z1, Z2, Z3, Z4.
        destruct (positive_symbol sym _); [|reflexivity]. destruct (positive_symbol sym _); [|reflexivity]. destruct (positive_symbol sym _); reflexivity.
    - (* general *)
      destruct (middle_found fuel (n - 1)) as (F & HF & E); [lia|exact FU'|].
      set (F' := fun k => if Nat.eqb k n then [repeat true n] else if Nat.eqb k 0 then [repeat false n] else F k).
      exists (flat_map (level F') (n :: rev (seq 1 (n - 1)) ++ [0])).
      unfold make_general. rewrite <- TT. rewrite trues_length. fold n. unfold lift.
      pose proof (keep_offset (repeat true n) (repeat_length _ _)) as OFF. rewrite <- choice_keep in OFF. rewrite OFF. unfold pbind at 1. cbn [bind].
      replace (cmul (@two_to R n) minus_half) with (@wt R n (n - 1)). 2:{ rewrite <- wt_step by lia. replace (S (n - 1)) with n by lia. now rewrite wt_top. }
      rewrite E. unfold pbind. cbn [bind]. eexists. split; [reflexivity|]. split.
      + apply good_levels.
        * intro k. cbn [In]. rewrite in_app_iff, <- in_rev, in_seq. cbn. lia.
        * constructor.
          -- rewrite in_app_iff, <- in_rev, in_seq. cbn. lia.
          -- apply NoDup_app_; [apply NoDup_rev, seq_NoDup|repeat constructor; intros []|]. intros x Hx [<-|[]]. apply in_rev, in_seq in Hx. lia.
        * intros k Hk. unfold F'. destruct (Nat.eqb_spec k n) as [->|Q]; [apply level_all|]. destruct (Nat.eqb_spec k 0) as [->|Q0]; [apply level_none|]. apply HF. lia.
      + right. left. split; [lia|]. 
        assert (EQ : map ent_term (flat_map (level F') (n :: rev (seq 1 (n - 1)) ++ [0])) =
          cg_term (lookup sym (N.of_nat (column_position dims choice)) (two_to n)) :: map ent_term (flat_map (level F) (rev (seq 1 (n - 1))) ++ [(zeros, wt n 0)])).
        { cbn [flat_map]. rewrite flat_map_app, !map_app. cbn [flat_map]. rewrite app_nil_r.
          assert (X1 : level F' n = [(choice, two_to n)]) by (unfold level, F'; rewrite Nat.eqb_refl; cbn [map]; rewrite <- choice_keep, wt_top; reflexivity).
          assert (X2 : level F' 0 = [(zeros, wt n 0)]).
          { unfold level, F'. destruct (Nat.eqb_spec 0 n) as [?|_]; [lia|]. cbn [Nat.eqb map]. now rewrite <- zeros_keep. }
          rewrite X1, X2. cbn [map app]. rewrite lookup_ent. f_equal. f_equal. f_equal. rewrite !flat_map_concat_map. f_equal. apply map_ext_in. intros k Hk. apply in_rev, in_seq in Hk.
          unfold level, F'. destruct (Nat.eqb_spec k n) as [?|_]; [lia|]. destruct (Nat.eqb_spec k 0) as [?|_]; [lia|]. reflexivity. }
        rewrite EQ. unfold resolved, attempt_symbol_resolution. cbn [el_cg el_symbol]. destruct (symbol_terms _) as [sl|] eqn:Q; cbn [fst el_cg el_symbol]; rewrite Q; auto.
  Qed.
End Elements.
