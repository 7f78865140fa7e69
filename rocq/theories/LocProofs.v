(** Simplification in locality scenarios: soundness, uniqueness, products, conjugation. *)
From Coq Require Import List NArith Arith Bool Lia Sorted.
From Verif Require Import CoreModel CoreSpec CoreProofs AlgModel AlgSpec LocModel LocSpec LocNumberProofs LocSortProofs.
Import ListNotations.

(* ------------------------------------------------------------ exclusive operators *)
Lemma excl_key sc a b : loc_exclusive sc a b = true -> party_of_op sc a = party_of_op sc b.
Proof. unfold loc_exclusive. destruct (Nat.eqb_spec (party_of_op sc a) (party_of_op sc b)); [auto|discriminate]. Qed.
Lemma excl_irrefl sc a : loc_exclusive sc a a = false.
Proof. unfold loc_exclusive, mutually_exclusive. rewrite !Nat.eqb_refl. reflexivity. Qed.
Lemma excl_sym sc a b : loc_exclusive sc a b = loc_exclusive sc b a.
Proof.
  unfold loc_exclusive, mutually_exclusive. destruct (Nat.eqb_spec (party_of_op sc a) (party_of_op sc b)) as [E|E].
  - rewrite E, Nat.eqb_refl. rewrite (Nat.eqb_sym a b). destruct (Nat.eqb b a); [reflexivity|]. apply Nat.eqb_sym.
  - destruct (Nat.eqb_spec (party_of_op sc b) (party_of_op sc a)); [congruence|reflexivity].
Qed.
Lemma excl_spec sc x y : valid_oper sc x -> valid_oper sc y ->
  (loc_exclusive sc (op_number sc x) (op_number sc y) = true <->
   op_party x = op_party y /\ op_mmt x = op_mmt y /\ op_outcome x <> op_outcome y).
Proof.
  intros Hx Hy. unfold loc_exclusive. rewrite !party_of_number by assumption.
  destruct (Nat.eqb_spec (op_party x) (op_party y)) as [E|E]; [|split; [discriminate|intros [F _]; contradiction]].
  unfold mutually_exclusive. destruct (Nat.eqb_spec (op_number sc x) (op_number sc y)) as [F|F].
  - split; [discriminate|]. intros (_ & _ & D). apply op_number_inj in F; [|assumption..]. subst. contradiction.
  - rewrite (mmt_of_number sc x Hx). rewrite E, (mmt_of_number sc y Hy). rewrite Nat.eqb_eq. split.
    + intro M. split; [reflexivity|]. split; [exact M|]. intro O. apply F. destruct x as [[? ?] ?], y as [[? ?] ?]. cbn in *. subst. reflexivity.
    + tauto.
Qed.
Lemma mutually_exclusive_spec sc x y : valid_oper sc x -> valid_oper sc y -> op_party x = op_party y ->
  (mutually_exclusive sc (op_party x) (op_number sc x) (op_number sc y) = true <-> op_mmt x = op_mmt y /\ op_outcome x <> op_outcome y).
Proof.
  intros Hx Hy E. pose proof (excl_spec sc x y Hx Hy) as S. unfold loc_exclusive in S. rewrite !party_of_number in S by assumption.
  rewrite <- E, Nat.eqb_refl in S. tauto.
Qed.

Definition inr (sc : scenario) (o : nat) : Prop := o < total_opers sc.
Notation geql sc := (geq (party_of_op sc) (loc_exclusive sc) (inr sc)).
Notation nf sc := (gnf (party_of_op sc) (loc_exclusive sc)).

Lemma over_Forall sc w : over (total_opers sc) w <-> Forall (inr sc) w.
Proof. unfold over, inr. rewrite Forall_forall. reflexivity. Qed.

Lemma loc_equal_geq sc t u : loc_equal sc t u <-> geql sc t u.
Proof.
  split.
  - induction 1 as [| |? ? ? ? ? ? ?|p q x y Hx Hy D|p q x Hx|p q x y Hx Hy P M O].
    + apply g_refl.
    + now apply g_sym.
    + eapply g_trans; eassumption.
    + apply g_comm; [apply op_number_lt, Hx|apply op_number_lt, Hy|]. rewrite !party_of_number by assumption. exact D.
    + apply g_idem. apply op_number_lt, Hx.
    + apply g_orth; [apply op_number_lt, Hx|apply op_number_lt, Hy|]. apply excl_spec; auto.
  - induction 1 as [| |? ? ? ? ? ? ?|p q a b Ha Hb D|p q a Ha|p q a b Ha Hb E].
    + apply le_refl.
    + now apply le_sym.
    + eapply le_trans; eassumption.
    + apply op_number_surj in Ha as (x & Hx & <-). apply op_number_surj in Hb as (y & Hy & <-).
      rewrite !party_of_number in D by assumption. now apply le_commute.
    + apply op_number_surj in Ha as (x & Hx & <-). now apply le_idempotent.
    + apply op_number_surj in Ha as (x & Hx & <-). apply op_number_surj in Hb as (y & Hy & <-).
      apply excl_spec in E; [|assumption..]. destruct E as (E1 & E2 & E3). now apply le_orthogonal.
Qed.

Lemma over_dec r w : over r w \/ existsb (fun o => Nat.leb r o) w = true.
Proof.
  destruct (existsb (fun o => Nat.leb r o) w) eqn:E; [now right|left]. intros a Ha.
  destruct (lt_dec a r) as [L|L]; [exact L|]. exfalso. assert (X : existsb (fun o => Nat.leb r o) w = true); [|congruence].
  apply existsb_exists. exists a. split; [exact Ha|]. apply Nat.leb_le. lia.
Qed.
Lemma over_existsb r w : over r w -> existsb (fun o => Nat.leb r o) w = false.
Proof.
  intro H. destruct (existsb (fun o => Nat.leb r o) w) eqn:E; [|reflexivity]. apply existsb_exists in E as (a & Ha & L).
  apply Nat.leb_le in L. specialize (H a Ha). lia.
Qed.
Lemma loc_simplify_nf sc (w : word) : over (total_opers sc) w -> loc_simplify sc w = Ret (nf sc (Some w)).
Proof.
  intro H. destruct w as [|o w]; [reflexivity|]. unfold loc_simplify. rewrite operator_count_spec, over_existsb by exact H. cbn.
  destruct (find_exclusive _ _); reflexivity.
Qed.
Lemma loc_simplify_error sc (w : word) : ~ over (total_opers sc) w -> loc_simplify sc w = Err.
Proof.
  intro H. destruct (over_dec (total_opers sc) w) as [O|E]; [contradiction|]. destruct w as [|o w]; [discriminate|].
  unfold loc_simplify. rewrite operator_count_spec, E. reflexivity.
Qed.
Lemma loc_simplify_inv sc (w : word) t : loc_simplify sc w = Ret t -> over (total_opers sc) w /\ t = nf sc (Some w).
Proof.
  intro H. destruct (over_dec (total_opers sc) w) as [O|E].
  - split; [exact O|]. rewrite loc_simplify_nf in H by exact O. congruence.
  - rewrite loc_simplify_error in H; [discriminate|]. intro O. rewrite over_existsb in E by exact O. discriminate.
Qed.

(* ------------------------------------------------------------ C13: soundness *)
Lemma den_word_app (A : algebra) v u w : aeq A (den_word A v (u ++ w)) (amul A (den_word A v u) (den_word A v w)).
Proof.
  induction u as [|x u IH]; cbn.
  - apply aeq_sym, amul_one_l.
  - eapply aeq_trans; [apply amul_cong; [apply aeq_refl|exact IH]|]. apply amul_assoc.
Qed.
Lemma den_word_ctx (A : algebra) v p u w : aeq A (den_word A v u) (den_word A v w) -> aeq A (den_word A v (p ++ u)) (den_word A v (p ++ w)).
Proof.
  intro H. eapply aeq_trans; [apply den_word_app|]. eapply aeq_trans; [|apply aeq_sym, den_word_app].
  apply amul_cong; [apply aeq_refl|exact H].
Qed.
Lemma den_loc_equal sc (A : algebra) v t u : loc_model sc A v -> loc_equal sc t u -> aeq A (den_opt A v t) (den_opt A v u).
Proof.
  intros (M1 & M2 & M3). induction 1 as [| |? ? ? ? ? ? ?|p q x y Hx Hy D|p q x Hx|p q x y Hx Hy P M O]; cbn [den_opt].
  - apply aeq_refl.
  - now apply aeq_sym.
  - eapply aeq_trans; eassumption.
  - apply den_word_ctx. cbn. eapply aeq_trans; [apply amul_assoc|]. eapply aeq_trans; [|apply aeq_sym, amul_assoc].
    apply amul_cong; [apply M1; assumption|apply aeq_refl].
  - apply den_word_ctx. cbn. eapply aeq_trans; [apply amul_assoc|]. apply amul_cong; [apply M2; assumption|apply aeq_refl].
  - eapply aeq_trans; [apply den_word_app|]. cbn.
    eapply aeq_trans; [apply amul_cong; [apply aeq_refl|apply amul_assoc]|].
    eapply aeq_trans; [apply amul_cong; [apply aeq_refl|apply amul_cong; [apply M3; eassumption|apply aeq_refl]]|].
    eapply aeq_trans; [apply amul_cong; [apply aeq_refl|apply amul_zero_l]|]. apply amul_zero_r.
Qed.
Lemma loc_simplify_equal sc (w : word) t : loc_simplify sc w = Ret t -> loc_equal sc (Some w) t.
Proof.
  intro H. apply loc_simplify_inv in H as [O ->]. apply loc_equal_geq, gnf_geq. now apply over_Forall.
Qed.
Lemma loc_simplify_sound sc (A : algebra) v (w : word) t : loc_model sc A v -> loc_simplify sc w = Ret t -> aeq A (den_word A v w) (den_opt A v t).
Proof. intros M H. apply (den_loc_equal sc A v (Some w) t M). now apply loc_simplify_equal. Qed.

(* ------------------------------------------------------------ C14: uniqueness *)
Lemma loc_equal_nf sc t u : loc_equal sc t u -> nf sc t = nf sc u.
Proof. intro H. apply loc_equal_geq in H. eapply geq_gnf; [apply excl_key|apply excl_irrefl|exact H]. Qed.
Lemma loc_simplify_unique sc (u : word) (w : word) : over (total_opers sc) u -> over (total_opers sc) w ->
  (loc_equal sc (Some u) (Some w) <-> loc_simplify sc u = loc_simplify sc w).
Proof.
  intros Hu Hw. split.
  - intro E. rewrite !loc_simplify_nf by assumption. f_equal. now apply loc_equal_nf.
  - intro E. rewrite loc_simplify_nf in E by assumption. apply le_trans with (nf sc (Some u)).
    + apply loc_simplify_equal, loc_simplify_nf, Hu.
    + apply le_sym. apply loc_simplify_equal. now symmetry.
Qed.
Lemma loc_simplify_zero sc (w : word) : over (total_opers sc) w -> (loc_equal sc (Some w) None <-> loc_simplify sc w = Ret None).
Proof.
  intro H. split.
  - intro E. rewrite loc_simplify_nf by exact H. f_equal. apply (loc_equal_nf sc (Some w) None E).
  - apply loc_simplify_equal.
Qed.

Lemma sorted_in (R1 R2 : nat -> nat -> Prop) w : (forall a b, In a w -> In b w -> R1 a b -> R2 a b) -> Sorted R1 w -> Sorted R2 w.
Proof.
  intros I H. induction H as [|x w H IH HH]; constructor.
  - apply IH. intros a b Ha Hb. apply I; now right.
  - destruct HH as [|y w R]; constructor. apply I; [now left|right; now left|exact R].
Qed.
Lemma canonical_sorted sc w : loc_canonical sc w <-> over (total_opers sc) w /\ Sorted (step_ok (party_of_op sc) (loc_exclusive sc)) w.
Proof.
  unfold loc_canonical. split; intros [O S]; (split; [exact O|]); eapply sorted_in; [| exact S | | exact S]; intros a b Ha Hb.
  - intro N. apply O in Ha, Hb. apply op_number_surj in Ha as (x & Hx & <-). apply op_number_surj in Hb as (y & Hy & <-).
    specialize (N x y Hx Hy eq_refl eq_refl). unfold step_ok. rewrite !party_of_number by assumption. split; [lia|]. split.
    + intro E. apply op_number_inj in E; [|assumption..]. subst. lia.
    + destruct (loc_exclusive sc (op_number sc x) (op_number sc y)) eqn:E; [|reflexivity]. apply excl_spec in E; [|assumption..]. lia.
  - intros (K & D & E) x y Hx Hy -> ->. rewrite !party_of_number in K by assumption.
    destruct (Nat.eq_dec (op_party x) (op_party y)) as [P|P]; [right|left; lia]. split; [exact P|]. intro M.
    assert (O' : op_outcome x <> op_outcome y).
    { intro Q. apply D. f_equal. destruct x as [[? ?] ?], y as [[? ?] ?]. cbn in *. subst. reflexivity. }
    rewrite (proj2 (excl_spec sc x y Hx Hy)) in E; [discriminate|auto].
Qed.
Lemma loc_simplify_canonical sc (w : word) (u : word) : loc_simplify sc w = Ret (Some u) -> loc_canonical sc u /\ length u <= length w.
Proof.
  intro H. apply loc_simplify_inv in H as [O E]. symmetry in E. split.
  - apply canonical_sorted. split; [|eapply gnf_shape, E]. apply over_Forall. eapply gnf_ok; [|exact E]. now apply over_Forall.
  - eapply gnf_length, E.
Qed.
Lemma loc_simplify_fixed sc (w : word) : loc_canonical sc w -> loc_simplify sc w = Ret (Some w).
Proof. intro H. apply canonical_sorted in H as [O S]. rewrite loc_simplify_nf by exact O. f_equal. now apply gnf_fixed. Qed.
Lemma loc_canonical_iff sc (w : word) : loc_canonical sc w <-> loc_simplify sc w = Ret (Some w).
Proof. split; [apply loc_simplify_fixed|]. intro H. eapply proj1, loc_simplify_canonical, H. Qed.

(* the algebra of signed words up to the relations *)
Section Universal.
  Variable sc : scenario.
  Definition ut (t : option (sign * word)) : option (sign * word) :=
    match t with None => None | Some (s, w) => match nf sc (Some w) with None => None | Some u => Some (s, u) end end.
  Definition umul (a b : option (sign * word)) : option (sign * word) :=
    match a, b with Some (s, u), Some (t, w) => Some (smul s t, u ++ w) | _, _ => None end.
  Definition uph (s : sign) (a : option (sign * word)) : option (sign * word) := option_map (fun x => (smul s (fst x), snd x)) a.
  Let anyop := fun _ : nat => True.
  Lemma any_all w : Forall anyop w. Proof. apply Forall_forall. intros; exact I. Qed.
  Lemma nf_ctx (p q u w : word) : nf sc (Some u) = nf sc (Some w) -> nf sc (Some (p ++ u ++ q)) = nf sc (Some (p ++ w ++ q)).
  Proof.
    intro E.
    assert (G : geq (party_of_op sc) (loc_exclusive sc) anyop (Some u) (Some w)).
    { apply g_trans with (nf sc (Some u)); [apply gnf_geq, any_all|]. rewrite E. apply g_sym, gnf_geq, any_all. }
    apply (geq_ctx _ _ _ p q) in G. eapply geq_gnf; [apply excl_key|apply excl_irrefl|exact G].
  Qed.
  Lemma nf_ctx_none (p q u : word) : nf sc (Some u) = None -> nf sc (Some (p ++ u ++ q)) = None.
  Proof.
    intro E.
    assert (G : geq (party_of_op sc) (loc_exclusive sc) anyop (Some u) None).
    { rewrite <- E. apply gnf_geq, any_all. }
    apply (geq_ctx _ _ _ p q) in G. cbn [octx] in G. change (@None word) with (nf sc None).
    eapply geq_gnf; [apply excl_key|apply excl_irrefl|exact G].
  Qed.
  Lemma nf_app (u u' w w' : word) : nf sc (Some u) = nf sc (Some u') -> nf sc (Some w) = nf sc (Some w') -> nf sc (Some (u ++ w)) = nf sc (Some (u' ++ w')).
  Proof.
    intros E F. pose proof (nf_ctx [] w u u' E) as G. pose proof (nf_ctx u' [] w w' F) as K. rewrite !app_nil_r in K. cbn [app] in G. congruence.
  Qed.
  Lemma nf_none_l (u w : word) : nf sc (Some u) = None -> nf sc (Some (u ++ w)) = None.
  Proof. intro E. exact (nf_ctx_none [] w u E). Qed.
  Lemma nf_none_r (u w : word) : nf sc (Some u) = None -> nf sc (Some (w ++ u)) = None.
  Proof. intro E. pose proof (nf_ctx_none w [] u E) as G. now rewrite app_nil_r in G. Qed.
  Lemma ut_umul x x' y y' : ut x = ut x' -> ut y = ut y' -> ut (umul x y) = ut (umul x' y').
  Proof.
    assert (Z1 : forall s u y, nf sc (Some u) = None -> ut (umul (Some (s, u)) y) = None).
    { intros s u [[t w]|] H; cbn [umul ut]; [|reflexivity]. erewrite nf_none_l by exact H. reflexivity. }
    assert (Z2 : forall s u y, nf sc (Some u) = None -> ut (umul y (Some (s, u))) = None).
    { intros s u [[t w]|] H; cbn [umul ut]; [|reflexivity]. erewrite nf_none_r by exact H. reflexivity. }
    assert (Z3 : forall a, ut a = None -> forall b, ut (umul a b) = None).
    { intros [[s u]|] H b; [|reflexivity]. apply Z1. cbn [ut] in H. destruct (nf sc (Some u)); [discriminate|reflexivity]. }
    assert (Z4 : forall a, ut a = None -> forall b, ut (umul b a) = None).
    { intros [[s u]|] H b; [|destruct b as [[? ?]|]; reflexivity]. apply Z2. cbn [ut] in H. destruct (nf sc (Some u)); [discriminate|reflexivity]. }
    intros E F. destruct (ut x) as [xx|] eqn:X; [|rewrite Z3, Z3 by congruence; reflexivity].
    destruct (ut y) as [yy|] eqn:Y; [|rewrite Z4, Z4 by congruence; reflexivity].
    destruct x as [[s u]|]; [|discriminate]. destruct x' as [[s' u']|]; [|discriminate].
    destruct y as [[t w]|]; [|discriminate]. destruct y' as [[t' w']|]; [|discriminate]. cbn [ut] in *.
    destruct (nf sc (Some u)) eqn:U1; [|discriminate]. destruct (nf sc (Some u')) eqn:U2; [|discriminate].
    destruct (nf sc (Some w)) eqn:W1; [|discriminate]. destruct (nf sc (Some w')) eqn:W2; [|discriminate].
    change (match nf sc (Some (u ++ w)) with None => None | Some z => Some (smul s t, z) end =
            match nf sc (Some (u' ++ w')) with None => None | Some z => Some (smul s' t', z) end).
    rewrite (nf_app u u' w w') by congruence. destruct (nf sc (Some (u' ++ w'))); [|reflexivity]. congruence.
  Qed.
  Lemma ut_uph s x x' : ut x = ut x' -> ut (uph s x) = ut (uph s x').
  Proof.
    destruct x as [[t w]|], x' as [[t' w']|]; cbn [uph option_map ut fst snd]; try reflexivity;
    try destruct (nf sc (Some w)); try destruct (nf sc (Some w')); congruence.
  Qed.
  Definition loc_algebra : algebra.
  Proof.
    refine {| carrier := option (sign * word); aeq := fun x y => ut x = ut y; aone := Some (SPos, []); azero := None;
              amul := umul; aph := uph |}.
    - reflexivity.
    - intros; symmetry; assumption.
    - intros; etransitivity; eassumption.
    - apply ut_umul.
    - apply ut_uph.
    - intros [[s u]|] [[t w]|] [[k x]|]; cbn [umul]; try reflexivity. now rewrite smul_assoc, app_assoc.
    - intros [[s u]|]; cbn [umul]; [|reflexivity]. now rewrite smul_pos_l.
    - intros [[s u]|]; cbn [umul]; [|reflexivity]. now rewrite smul_pos_r, app_nil_r.
    - reflexivity.
    - intros [[s u]|]; reflexivity.
    - intros [[s u]|]; cbn [uph option_map fst snd]; [|reflexivity]. now rewrite smul_pos_l.
    - intros s t [[k u]|]; cbn [uph option_map fst snd]; [|reflexivity]. now rewrite smul_assoc.
    - intros s [[k u]|] [[t w]|]; cbn [umul uph option_map fst snd]; try reflexivity. now rewrite smul_assoc.
    - intros s [[k u]|] [[t w]|]; cbn [umul uph option_map fst snd]; try reflexivity. now rewrite !smul_assoc, (smul_comm k s).
    - reflexivity.
    - intros s [[k u]|] Hs H; [|reflexivity]. cbn [uph option_map fst snd ut] in *. destruct (nf sc (Some u)); [|reflexivity].
      exfalso. injection H as E. destruct s, k; try discriminate; apply Hs; reflexivity.
  Defined.
  Definition loc_val (o : nat) : loc_algebra := Some (SPos, [o]).
  Lemma loc_val_word w : den_word loc_algebra loc_val w = Some (SPos, w).
  Proof. induction w as [|o w IH]; [reflexivity|]. cbn. rewrite IH. reflexivity. Qed.
  Lemma loc_algebra_model : loc_model sc loc_algebra loc_val.
  Proof.
    assert (S : forall t u, loc_equal sc (Some t) (Some u) -> ut (Some (SPos, t)) = ut (Some (SPos, u))).
    { intros t u H. cbn [ut]. rewrite (loc_equal_nf sc _ _ H). reflexivity. }
    assert (S0 : forall t, loc_equal sc (Some t) None -> ut (Some (SPos, t)) = None).
    { intros t H. cbn [ut]. rewrite (loc_equal_nf sc _ _ H). reflexivity. }
    split; [|split].
    - intros x y Hx Hy D. cbn. apply (S [op_number sc x; op_number sc y] [op_number sc y; op_number sc x]). apply (le_commute sc [] []); assumption.
    - intros x Hx. cbn. apply (S [op_number sc x; op_number sc x] [op_number sc x]). apply (le_idempotent sc [] []); assumption.
    - intros x y Hx Hy P M O. change (ut (Some (SPos, [op_number sc x; op_number sc y])) = ut None).
      apply S0. exact (le_orthogonal sc [] [] x y Hx Hy P M O).
  Qed.
End Universal.
Lemma loc_complete sc (u : word) (w : word) : over (total_opers sc) u -> over (total_opers sc) w ->
  (forall (A : algebra) v, loc_model sc A v -> aeq A (den_word A v u) (den_word A v w)) -> loc_simplify sc u = loc_simplify sc w.
Proof.
  intros Hu Hw H. specialize (H (loc_algebra sc) (loc_val sc) (loc_algebra_model sc)). rewrite !loc_val_word in H. cbn [loc_algebra aeq] in H.
  change (ut sc (Some (SPos, u)) = ut sc (Some (SPos, w))) in H. cbn [ut] in H.
  rewrite !loc_simplify_nf by assumption. destruct (nf sc (Some u)), (nf sc (Some w)); congruence.
Qed.
Lemma loc_complete_zero sc (u : word) : over (total_opers sc) u ->
  (forall (A : algebra) v, loc_model sc A v -> aeq A (den_word A v u) (azero A)) -> loc_simplify sc u = Ret None.
Proof.
  intros Hu H. specialize (H (loc_algebra sc) (loc_val sc) (loc_algebra_model sc)). rewrite loc_val_word in H.
  change (ut sc (Some (SPos, u)) = ut sc None) in H. cbn [ut] in H.
  rewrite loc_simplify_nf by assumption. destruct (nf sc (Some u)); congruence.
Qed.

(* ------------------------------------------------------------ sequences *)
Lemma loc_radix_spec sc : loc_radix sc = N.of_nat (total_opers sc).
Proof. unfold loc_radix. now rewrite operator_count_spec. Qed.
Definition mkseq (sc : scenario) (s : sign) (t : option word) : hseq :=
  match t with None => hseq_const true | Some u => hseq_make (N.of_nat (total_opers sc)) u s end.
Lemma loc_sequence_nf sc (w : word) s : over (total_opers sc) w -> loc_sequence sc w s = Ret (mkseq sc s (nf sc (Some w))).
Proof. intro H. unfold loc_sequence. rewrite loc_simplify_nf by exact H. cbn [bind]. rewrite loc_radix_spec. now destruct (nf sc (Some w)). Qed.
Lemma loc_sequence_error sc (w : word) s : ~ over (total_opers sc) w -> loc_sequence sc w s = Err.
Proof. intro H. unfold loc_sequence. now rewrite loc_simplify_error. Qed.
Lemma loc_sequence_inv sc (w : word) s q : loc_sequence sc w s = Ret q -> over (total_opers sc) w /\ q = mkseq sc s (nf sc (Some w)).
Proof.
  intro H. destruct (over_dec (total_opers sc) w) as [O|E].
  - split; [exact O|]. rewrite loc_sequence_nf in H by exact O. congruence.
  - rewrite loc_sequence_error in H; [discriminate|]. intro O. rewrite over_existsb in E by exact O. discriminate.
Qed.
Lemma nf_canonical sc (w : word) (u : word) : over (total_opers sc) w -> nf sc (Some w) = Some u -> loc_canonical sc u /\ length u <= length w.
Proof. intros O E. apply loc_simplify_canonical. rewrite loc_simplify_nf by exact O. now rewrite E. Qed.
Lemma loc_sequence_wf sc L (w : word) s q : length w <= L -> loc_sequence sc w s = Ret q -> loc_wf sc L q.
Proof.
  intros HL H. apply loc_sequence_inv in H as [O ->]. destruct (nf sc (Some w)) as [u|] eqn:E; [right|now left].
  destruct (nf_canonical sc w u O E) as [C Len]. cbn. split; [reflexivity|]. split; [exact C|lia].
Qed.
Lemma wf_zero sc L q : loc_safe sc L -> loc_wf sc L q -> hs_zero q = true -> q = hseq_const true.
Proof.
  intros S [->|(H & C & Len)] Z; [reflexivity|]. exfalso. unfold hs_zero in Z. apply N.eqb_eq in Z. rewrite H in Z.
  revert Z. apply hash_nonzero with L; [exact S|apply C|exact Len].
Qed.
Lemma wf_cases sc L q : loc_safe sc L -> loc_wf sc L q ->
  (q = hseq_const true /\ hs_zero q = true) \/
  (exists w s, q = hseq_make (N.of_nat (total_opers sc)) w s /\ hs_zero q = false /\ loc_canonical sc w /\ length w <= L).
Proof.
  intros S W. destruct (hs_zero q) eqn:Z.
  - left. split; [|reflexivity]. eapply wf_zero; eassumption.
  - right. destruct W as [->|(H & C & Len)]; [discriminate|]. exists (hs_ops q), (hs_sign q). split; [|split; [reflexivity|split; assumption]].
    destruct q as [h w s]. cbn in H |- *. unfold hseq_make. now rewrite H.
Qed.
Lemma make_nonzero sc L (w : word) s : loc_safe sc L -> over (total_opers sc) w -> length w <= L -> hs_zero (hseq_make (N.of_nat (total_opers sc)) w s) = false.
Proof. intros S O Len. unfold hs_zero. cbn. apply N.eqb_neq. apply hash_nonzero with L; assumption. Qed.
Lemma den_mkseq sc L (A : algebra) v s t : loc_safe sc L -> (forall u, t = Some u -> over (total_opers sc) u /\ length u <= L) ->
  aeq A (den A v (mkseq sc s t)) (aph A s (den_opt A v t)).
Proof.
  intros S H. destruct t as [u|]; cbn [mkseq den_opt].
  - destruct (H u eq_refl) as [O Len]. unfold den. pose proof (make_nonzero sc L u s S O Len) as Z. unfold hs_zero in Z. rewrite Z. apply aeq_refl.
  - unfold den. cbn. apply aeq_sym, aph_zero.
Qed.
Lemma loc_sequence_sound sc L (A : algebra) v (w : word) s q : loc_safe sc L -> length w <= L -> loc_model sc A v ->
  loc_sequence sc w s = Ret q -> aeq A (den A v q) (den_signed A v s w).
Proof.
  intros S HL M H. apply loc_sequence_inv in H as [O ->].
  eapply aeq_trans; [apply (den_mkseq sc L); [exact S|]|].
  - intros u E. destruct (nf_canonical sc w u O E) as [C Len]. split; [apply C|lia].
  - unfold den_signed. apply aph_cong. apply aeq_sym. apply (loc_simplify_sound sc A v w _ M). now apply loc_simplify_nf.
Qed.
(** total: out of range is the only failure *)
Lemma loc_sequence_total sc (w : word) s : (exists q, loc_sequence sc w s = Ret q) <-> over (total_opers sc) w.
Proof.
  split.
  - intros [q H]. now apply loc_sequence_inv in H.
  - intro O. rewrite loc_sequence_nf by exact O. eauto.
Qed.

(** equality of sequences decides equality of operators *)
Lemma loc_sequence_decides sc L (u : word) (w : word) s t a b : loc_safe sc L -> length u <= L -> length w <= L ->
  loc_sequence sc u s = Ret a -> loc_sequence sc w t = Ret b ->
  (hs_eqb a b = true <-> (loc_equal sc (Some u) None /\ loc_equal sc (Some w) None) \/ (loc_equal sc (Some u) (Some w) /\ s = t)).
Proof.
  intros S Hu Hw Ha Hb. apply loc_sequence_inv in Ha as [Ou ->]. apply loc_sequence_inv in Hb as [Ow ->].
  rewrite !loc_simplify_zero, loc_simplify_unique, !loc_simplify_nf by assumption.
  destruct (nf sc (Some u)) as [x|] eqn:X, (nf sc (Some w)) as [y|] eqn:Y; cbn [mkseq].
  - destruct (nf_canonical sc u x Ou X) as [[Cx _] Lx]. destruct (nf_canonical sc w y Ow Y) as [[Cy _] Ly].
    unfold hs_eqb. cbn. destruct (N.eqb_spec (hash (N.of_nat (total_opers sc)) x) (hash (N.of_nat (total_opers sc)) y)) as [E|E].
    + rewrite sign_eqb_spec. apply hash_inj with (L := L) in E; [|assumption|assumption|assumption|lia|lia]. subst. split; [intros ->; auto|]. intros [[? ?]|[_ ?]]; [discriminate|assumption].
    + split; [discriminate|]. intros [[? ?]|[Q _]]; [discriminate|]. injection Q as ->. contradiction.
  - destruct (nf_canonical sc u x Ou X) as [[Cx _] Lx]. unfold hs_eqb. cbn.
    destruct (N.eqb_spec (hash (N.of_nat (total_opers sc)) x) 0) as [E|E].
    + exfalso. revert E. apply hash_nonzero with L; [assumption|assumption|lia].
    + split; [discriminate|]. intros [[? ?]|[Q _]]; discriminate.
  - destruct (nf_canonical sc w y Ow Y) as [[Cy _] Ly]. unfold hs_eqb. cbn [hseq_const hs_hash hseq_make hs_sign].
    destruct (N.eqb_spec 0 (hash (N.of_nat (total_opers sc)) y)) as [E|E].
    + exfalso. symmetry in E. revert E. apply hash_nonzero with L; [assumption|assumption|lia].
    + split; [discriminate|]. intros [[? ?]|[Q _]]; discriminate.
  - split; [auto|]. intros _. reflexivity.
Qed.

(* ------------------------------------------------------------ products *)
Lemma loc_multiply_total sc L a b : loc_safe sc L -> loc_wf sc L a -> loc_wf sc L b -> exists q, loc_multiply sc a b = Ret q.
Proof.
  intros S Wa Wb. unfold loc_multiply. destruct (wf_cases sc L a S Wa) as [[-> Za]|(u & s & -> & Za & Ca & La)]; [cbn; eauto|].
  rewrite Za. cbn [orb]. destruct (wf_cases sc L b S Wb) as [[-> Zb]|(w & t & -> & Zb & Cb & Lb)]; [cbn; eauto|]. rewrite Zb. cbn [hs_ops hseq_make hs_sign].
  apply loc_sequence_total. apply over_app. split; [apply Ca|apply Cb].
Qed.
Lemma loc_multiply_wf sc La Lb L a b q : loc_safe sc L -> La + Lb <= L -> loc_wf sc La a -> loc_wf sc Lb b ->
  loc_multiply sc a b = Ret q -> loc_wf sc (La + Lb) q.
Proof.
  intros S HL Wa Wb. unfold loc_multiply. destruct (hs_zero a || hs_zero b); [intros [= <-]; now left|].
  apply loc_sequence_wf. rewrite app_length.
  assert (forall M x, loc_wf sc M x -> length (hs_ops x) <= M) as G.
  { intros M x [->|(_ & _ & H)]; [cbn; lia|exact H]. }
  apply G in Wa, Wb. lia.
Qed.
Lemma loc_safe_mono sc L M : L <= M -> loc_safe sc M -> loc_safe sc L.
Proof. intros H S. unfold loc_safe, hash_safe in *. eapply N.le_lt_trans; [apply count_words_mono, H|exact S]. Qed.
Lemma loc_multiply_sound sc La Lb (A : algebra) v a b q : loc_safe sc (La + Lb) -> loc_wf sc La a -> loc_wf sc Lb b -> loc_model sc A v ->
  loc_multiply sc a b = Ret q -> aeq A (den A v q) (amul A (den A v a) (den A v b)).
Proof.
  intros S Wa Wb M. unfold loc_multiply.
  destruct (wf_cases sc La a (loc_safe_mono _ La _ (Nat.le_add_r La Lb) S) Wa) as [[-> Za]|(u & s & -> & Za & Ca & Hla)].
  { cbn. intros [= <-]. apply aeq_sym, amul_zero_l. }
  rewrite Za. cbn [orb]. destruct (wf_cases sc Lb b (loc_safe_mono _ Lb _ (Nat.le_add_l Lb La) S) Wb) as [[-> Zb]|(w & t & -> & Zb & Cb & Hlb)].
  { cbn. intros [= <-]. apply aeq_sym, amul_zero_r. }
  rewrite Zb. cbn [hs_ops hseq_make hs_sign]. intro H.
  eapply aeq_trans; [apply (loc_sequence_sound sc (La + Lb) A v (u ++ w) (smul s t) q S); [rewrite app_length; lia|exact M|exact H]|].
  unfold den. unfold hs_zero in Za, Zb. rewrite Za, Zb. cbn. unfold den_signed.
  eapply aeq_trans; [apply aph_cong, den_word_app|]. eapply aeq_trans; [|apply aeq_sym, aph_mul_l].
  eapply aeq_trans; [|apply aph_cong, aeq_sym, aph_mul_r]. apply aeq_sym, aph_mul.
Qed.
(** everything the context computes is the normal form of the obvious word *)
Lemma nf_nf_l sc (u w x : word) : nf sc (Some u) = Some x -> nf sc (Some (x ++ w)) = nf sc (Some (u ++ w)).
Proof. intro E. apply nf_app; [|reflexivity]. rewrite <- E. apply gnf_idem. Qed.
Lemma nf_nf_r sc (u w x : word) : nf sc (Some u) = Some x -> nf sc (Some (w ++ x)) = nf sc (Some (w ++ u)).
Proof. intro E. apply nf_app; [reflexivity|]. rewrite <- E. apply gnf_idem. Qed.
Lemma nf_zero_l sc (u w : word) : nf sc (Some u) = None -> nf sc (Some (u ++ w)) = None.
Proof. intro E. apply (nf_ctx_none sc [] w u E). Qed.
Lemma nf_zero_r sc (u w : word) : nf sc (Some u) = None -> nf sc (Some (w ++ u)) = None.
Proof. intro E. pose proof (nf_ctx_none sc w [] u E) as G. now rewrite app_nil_r in G. Qed.
Lemma nf_rev sc (u : word) : nf sc (Some (rev u)) = nf sc (orev (nf sc (Some u))).
Proof.
  assert (G : geq (party_of_op sc) (loc_exclusive sc) (fun _ => True) (Some u) (nf sc (Some u))).
  { apply gnf_geq. apply Forall_forall. intros; exact I. }
  apply geq_rev in G; [|apply excl_sym]. apply geq_gnf in G; [|apply excl_key|apply excl_irrefl]. exact G.
Qed.
Lemma mul_mkseq sc L s t (u : word) (w : word) : loc_safe sc L -> length u <= L -> length w <= L -> over (total_opers sc) u -> over (total_opers sc) w ->
  loc_multiply sc (mkseq sc s (nf sc (Some u))) (mkseq sc t (nf sc (Some w))) = Ret (mkseq sc (smul s t) (nf sc (Some (u ++ w)))).
Proof.
  intros S Lu Lw Ou Ow. unfold loc_multiply.
  destruct (nf sc (Some u)) as [x|] eqn:X; cbn [mkseq].
  2:{ cbn. change (if find_exclusive (loc_exclusive sc) (std_unique (stable_sort_by (party_of_op sc) (u ++ w))) then None else Some (std_unique (stable_sort_by (party_of_op sc) (u ++ w)))) with (nf sc (Some (u ++ w))). rewrite nf_zero_l by exact X. reflexivity. }
  destruct (nf_canonical sc u x Ou X) as [[Cx _] Lx]. rewrite (make_nonzero sc L _ _ S Cx (Nat.le_trans _ _ _ Lx Lu)).
  destruct (nf sc (Some w)) as [y|] eqn:Y; cbn [mkseq orb].
  2:{ rewrite nf_zero_r by exact Y. reflexivity. }
  destruct (nf_canonical sc w y Ow Y) as [[Cy _] Ly]. rewrite (make_nonzero sc L _ _ S Cy (Nat.le_trans _ _ _ Ly Lw)). cbn [hseq_make hs_ops hs_sign].
  rewrite loc_sequence_nf by (apply over_app; auto). apply f_equal. f_equal.
  transitivity (nf sc (Some (u ++ y) : option word)); [exact (nf_nf_l sc u y x X)|exact (nf_nf_r sc w u y Y)].
Qed.
Lemma conj_mkseq sc L s (u : word) : loc_safe sc L -> length u <= L -> over (total_opers sc) u ->
  loc_conjugate sc (mkseq sc s (nf sc (Some u))) = Ret (mkseq sc (sconj s) (nf sc (Some (rev u)))).
Proof.
  intros S Lu Ou. rewrite nf_rev. unfold loc_conjugate. destruct (nf sc (Some u)) as [x|] eqn:X; cbn [mkseq orev]; [|reflexivity].
  destruct (nf_canonical sc u x Ou X) as [[Cx _] Lx]. rewrite (make_nonzero sc L _ _ S Cx (Nat.le_trans _ _ _ Lx Lu)). cbn [hseq_make hs_ops hs_sign].
  rewrite loc_sequence_nf; [reflexivity|]. intros a Ha. apply Cx. now apply in_rev.
Qed.
Lemma wf_mkseq sc L q : loc_safe sc L -> loc_wf sc L q -> q = hseq_const true \/
  exists w s, q = mkseq sc s (nf sc (Some w)) /\ over (total_opers sc) w /\ length w <= L /\ loc_canonical sc w.
Proof.
  intros S W. destruct (wf_cases sc L q S W) as [[-> _]|(w & s & -> & _ & C & Len)]; [now left|]. right. exists w, s.
  split; [|split; [apply C|split; [exact Len|exact C]]].
  apply canonical_sorted in C as [_ C]. now rewrite gnf_fixed.
Qed.
Lemma loc_multiply_assoc sc La Lb Lc a b c : loc_safe sc (La + Lb + Lc) -> loc_wf sc La a -> loc_wf sc Lb b -> loc_wf sc Lc c ->
  bind (loc_multiply sc a b) (fun ab => loc_multiply sc ab c) = bind (loc_multiply sc b c) (fun bc => loc_multiply sc a bc).
Proof.
  intros S Wa Wb Wc. assert (Sa : loc_safe sc La) by (apply (loc_safe_mono sc La (La + Lb + Lc)); [lia|exact S]).
  assert (Sb : loc_safe sc Lb) by (apply (loc_safe_mono sc Lb (La + Lb + Lc)); [lia|exact S]).
  assert (Sc : loc_safe sc Lc) by (apply (loc_safe_mono sc Lc (La + Lb + Lc)); [lia|exact S]). set (L := La + Lb + Lc) in *.
  assert (Z : forall x, exists q, loc_multiply sc (hseq_const true) x = Ret q /\ q = hseq_const true) by (intro x; cbn; eauto).
  assert (Z' : forall x, loc_multiply sc x (hseq_const true) = Ret (hseq_const true)).
  { intro x. unfold loc_multiply. cbn. now rewrite orb_true_r. }
  destruct (wf_mkseq sc La a Sa Wa) as [->|(u & s & -> & Ou & Lu & _)].
  { cbn [bind]. destruct (loc_multiply_total sc (Lb + Lc) b c (loc_safe_mono sc (Lb + Lc) L ltac:(unfold L; lia) S)) as [q Q].
    - destruct Wb as [->|(? & ? & ?)]; [now left|right; repeat split; try assumption; try lia; apply H0].
    - destruct Wc as [->|(? & ? & ?)]; [now left|right; repeat split; try assumption; try lia; apply H0].
    - rewrite Q. reflexivity. }
  destruct (wf_mkseq sc Lb b Sb Wb) as [->|(w & t & -> & Ow & Lw & _)].
  { rewrite Z'. cbn. now rewrite Z'. }
  destruct (wf_mkseq sc Lc c Sc Wc) as [->|(y & k & -> & Oy & Ly & _)].
  { rewrite Z'. cbn [bind]. rewrite Z'. rewrite (mul_mkseq sc L) by (try assumption; unfold L; lia). cbn [bind]. apply Z'. }
  rewrite !(mul_mkseq sc L) by (try assumption; unfold L; lia). cbn [bind].
  rewrite !(mul_mkseq sc L) by (rewrite ?app_length; try apply over_app; auto; unfold L; lia).
  now rewrite smul_assoc, app_assoc.
Qed.

(* ------------------------------------------------------------ conjugation *)
Lemma loc_conjugate_involutive sc L q : loc_safe sc L -> loc_wf sc L q -> bind (loc_conjugate sc q) (loc_conjugate sc) = Ret q.
Proof.
  intros S W. destruct (wf_mkseq sc L q S W) as [->|(w & s & -> & O & Len & _)]; [reflexivity|].
  rewrite (conj_mkseq sc L) by assumption. cbn [bind]. rewrite (conj_mkseq sc L); [|exact S|now rewrite rev_length|].
  - now rewrite sconj_invol, rev_involutive.
  - intros a Ha. apply O. now apply in_rev.
Qed.
Lemma loc_conjugate_mul sc La Lb a b : loc_safe sc (La + Lb) -> loc_wf sc La a -> loc_wf sc Lb b ->
  bind (loc_multiply sc a b) (loc_conjugate sc) =
  bind (loc_conjugate sc a) (fun ca => bind (loc_conjugate sc b) (fun cb => loc_multiply sc cb ca)).
Proof.
  intros S Wa Wb. pose proof (loc_safe_mono sc La _ (Nat.le_add_r La Lb) S) as Sa. pose proof (loc_safe_mono sc Lb _ (Nat.le_add_l Lb La) S) as Sb.
  assert (Z' : forall x, loc_multiply sc x (hseq_const true) = Ret (hseq_const true)).
  { intro x. unfold loc_multiply. cbn. now rewrite orb_true_r. }
  assert (R : forall w, over (total_opers sc) w -> over (total_opers sc) (rev w)).
  { intros w O x Hx. apply O. now apply in_rev. }
  destruct (wf_mkseq sc La a Sa Wa) as [->|(u & s & -> & Ou & Lu & _)].
  { cbn [bind]. destruct (wf_mkseq sc Lb b Sb Wb) as [->|(w & t & -> & Ow & Lw & _)]; [reflexivity|].
    rewrite (conj_mkseq sc Lb) by assumption. cbn [bind loc_conjugate hs_zero]. cbn. now rewrite Z'. }
  destruct (wf_mkseq sc Lb b Sb Wb) as [->|(w & t & -> & Ow & Lw & _)].
  { rewrite Z', (conj_mkseq sc La) by assumption. reflexivity. }
  rewrite (mul_mkseq sc (La + Lb)) by (try assumption; lia). rewrite (conj_mkseq sc La), (conj_mkseq sc Lb) by assumption. cbn [bind].
  rewrite (conj_mkseq sc (La + Lb)); [|exact S|rewrite app_length; lia|apply over_app; auto].
  rewrite (mul_mkseq sc (La + Lb)); [|exact S|rewrite rev_length; lia|rewrite rev_length; lia|auto|auto].
  now rewrite rev_app_distr, sconj_smul, smul_comm.
Qed.
(** conjugate = adjoint whenever the operators are self-adjoint *)
Lemma den_rev (A : star_algebra) v w : (forall o, In o w -> aeq A (v o) (astar A (v o))) -> aeq A (den_word A v (rev w)) (astar A (den_word A v w)).
Proof.
  induction w as [|x w IH]; intro H; cbn.
  - apply aeq_sym, astar_one.
  - eapply aeq_trans; [apply den_word_app|]. cbn. eapply aeq_trans; [|apply aeq_sym, astar_mul].
    apply amul_cong; [apply IH; intros; apply H; now right|]. eapply aeq_trans; [apply amul_one_r|]. apply H. now left.
Qed.
Lemma loc_conjugate_sound sc L (A : star_algebra) (v : nat -> A) q c : loc_safe sc L -> loc_wf sc L q -> loc_model sc A v ->
  (forall x, valid_oper sc x -> aeq A (v (op_number sc x)) (astar A (v (op_number sc x)))) ->
  loc_conjugate sc q = Ret c -> aeq A (den A v c) (astar A (den A v q)).
Proof.
  intros S W M SA. unfold loc_conjugate.
  destruct (wf_cases sc L q S W) as [[-> Z]|(w & s & -> & Z & C & Len)].
  { cbn. intros [= <-]. apply aeq_sym, astar_zero. }
  rewrite Z. cbn [hseq_make hs_ops hs_sign]. intro H.
  eapply aeq_trans; [apply (loc_sequence_sound sc L A v (rev w) (sconj s) c S); [rewrite rev_length; exact Len|exact M|exact H]|].
  unfold hs_zero in Z. unfold den. rewrite Z. cbn [hseq_make hs_ops hs_sign]. unfold den_signed.
  eapply aeq_trans; [|apply aeq_sym, astar_ph]. apply aph_cong. apply den_rev.
  intros o Ho. apply C in Ho. apply op_number_surj in Ho as (x & Hx & <-). now apply SA.
Qed.

(* ------------------------------------------------------------ the canonical test *)
Lemma loc_get_if_canonical_spec sc L (w : word) : loc_safe sc L -> length w <= L -> over (total_opers sc) w ->
  exists r, loc_get_if_canonical sc w = Ret r /\ (forall q, r = Some q -> loc_canonical sc w /\ q = hseq_make (N.of_nat (total_opers sc)) w SPos) /\
    (r = None -> ~ loc_canonical sc w).
Proof.
  intros S Len O. unfold loc_get_if_canonical. rewrite loc_sequence_nf by exact O. cbn [bind]. eexists. split; [reflexivity|].
  rewrite loc_radix_spec. destruct (nf sc (Some w)) as [u|] eqn:E; cbn [mkseq].
  - destruct (nf_canonical sc w u O E) as [C Lu]. cbn [hseq_make hs_ops hs_hash].
    destruct (Nat.eqb_spec (length u) (length w)) as [EL|EL]; cbn [negb].
    + destruct (N.eqb_spec (hash (N.of_nat (total_opers sc)) u) (hash (N.of_nat (total_opers sc)) w)) as [EH|EH]; cbn [negb].
      * apply hash_inj with (L := L) in EH; [|assumption|apply C|assumption|lia|lia]. subst u. split; [|discriminate].
        intros q [= <-]. auto.
      * split; [discriminate|]. intros _ D. apply EH. f_equal. apply canonical_sorted in D as [_ D]. rewrite gnf_fixed in E by exact D. congruence.
    + split; [discriminate|]. intros _ D. apply EL. f_equal. apply canonical_sorted in D as [_ D]. rewrite gnf_fixed in E by exact D. congruence.
  - assert (N : ~ loc_canonical sc w). { intro D. apply canonical_sorted in D as [_ D]. rewrite gnf_fixed in E by exact D. discriminate. }
    cbn [hseq_const hs_ops hs_hash length].
    destruct w as [|o w]; [exfalso; cbn in E; discriminate|]. cbn [length Nat.eqb negb]. split; [discriminate|auto].
Qed.
Lemma loc_conjugate_phase sc L (w : word) s k q : loc_safe sc L -> length w <= L -> loc_sequence sc w s = Ret q -> hs_zero q = false ->
  exists c ck, loc_conjugate sc q = Ret c /\ loc_conjugate sc (mk_hseq (hs_hash q) (hs_ops q) (smul k (hs_sign q))) = Ret ck /\
    hs_hash ck = hs_hash c /\ hs_ops ck = hs_ops c /\ (hs_zero c = false -> hs_sign ck = smul (sconj k) (hs_sign c)).
Proof.
  intros S Len H Z. pose proof (loc_sequence_wf sc L w s q Len H) as W.
  assert (O : over (total_opers sc) (rev (hs_ops q))).
  { destruct W as [->|(_ & C & _)]; [easy|]. intros a Ha. apply C. now apply in_rev. }
  unfold loc_conjugate. change (hs_zero (mk_hseq (hs_hash q) (hs_ops q) (smul k (hs_sign q)))) with (hs_zero q). rewrite Z. cbn [hs_ops hs_sign].
  rewrite !loc_sequence_nf by exact O. do 2 eexists. split; [reflexivity|]. split; [reflexivity|].
  match goal with |- context [mkseq sc _ ?t] => destruct t as [u|] end; cbn [mkseq].
  - split; [reflexivity|]. split; [reflexivity|]. intros _. cbn. apply sconj_smul.
  - split; [reflexivity|]. split; [reflexivity|]. discriminate.
Qed.
