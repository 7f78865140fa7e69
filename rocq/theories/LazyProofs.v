(** Proofs about bases made on first use. *)
From Coq Require Import List Arith Bool Lia.
From Verif Require Import LazyModel LazySpec.
Import ListNotations.

Lemma bk_eqb_eq a b : bk_eqb a b = true <-> a = b.
Proof.
  unfold bk_eqb. destruct a as [a1 a2 a3], b as [b1 b2 b3]; cbn. rewrite !andb_true_iff, !Bool.eqb_true_iff. split; [intros ((-> & ->) & ->); reflexivity|intros E; injection E as -> -> ->; auto].
Qed.
Lemma bk_eqb_refl a : bk_eqb a a = true.
Proof. apply bk_eqb_eq. reflexivity. Qed.

Section P.
  Variable W : Type.
  Variable make : bool -> bool -> option (W * W).
  Variable infer : bool -> bool -> W * W -> W * W.
  Notation basis_of := (basis_of W make infer).
  Notation call_step := (call_step W make infer).
  Notation bshared := (bshared W).

  Definition h (p : bpc W) : nat := match p with PCheck | PLock => 0 | _ => 1 end.
  Definition writing (p : bpc W) : bool := match p with PRe _ | PIm _ | PStore => true | _ => false end.
  Definition pc_ok (s : bshared) (k : bkind) (p : bpc W) : Prop :=
    let x := b_slot s k in
    match p with
    | PCheck | PLock | PAgain => True
    | PMake arg => s_done x = false /\ s_made x = 0 /\ match arg with Some v => bk_mono k = true /\ make (bk_dense k) (bk_cplx k) = Some v | None => bk_mono k = false end
    | PRe v => basis_of k = Some v /\ s_done x = false /\ s_made x = 1
    | PIm v => basis_of k = Some v /\ s_done x = false /\ s_made x = 1 /\ s_re x = Some (fst v)
    | PStore => s_done x = false /\ s_made x = 1 /\ exists v, basis_of k = Some v /\ s_re x = Some (fst v) /\ s_im x = Some (snd v)
    | PRead => s_done x = true
    end.
  Definition slots_ok (s : bshared) : Prop :=
    forall k, s_done (b_slot s k) = true -> s_made (b_slot s k) = 1 /\ exists v, basis_of k = Some v /\ s_re (b_slot s k) = Some (fst v) /\ s_im (b_slot s k) = Some (snd v).
  Definition owns (i : nat) (s : bshared) (n : nat) : Prop :=
    match b_lock s with Some (j, m) => m > 0 /\ (if Nat.eqb j i then n = m else n = 0) | None => n = 0 end.
  Definition others (i : nat) (s s' : bshared) : Prop := forall j m, j <> i -> owns j s m -> owns j s' m.
  Definition from (i : nat) (s s' : bshared) : Prop := forall j m, b_lock s' = Some (j, m) -> j = i \/ exists m', b_lock s = Some (j, m').

  Lemma acquire_some i s s' n : owns i s n -> acquire W i s = Some s' -> b_slot s' = b_slot s /\ owns i s' (S n) /\ others i s s' /\ from i s s'.
  Proof.
    unfold acquire, others, from, owns. intros O H. destruct (b_lock s) as [[j m]|] eqn:E.
    - destruct (Nat.eqb j i) eqn:Ej; [|discriminate]. injection H as <-. cbn. rewrite Nat.eqb_refl. apply Nat.eqb_eq in Ej. subst j. split; [reflexivity|]. split; [lia|]. split.
      + intros j m' N X. cbn. apply Nat.neq_sym in N. apply Nat.eqb_neq in N. try rewrite N in X; try rewrite N. lia.
      + intros j m' X. injection X as <- <-. left. reflexivity.
    - injection H as <-. cbn. rewrite Nat.eqb_refl. split; [reflexivity|]. split; [lia|]. split.
      + intros j m N X. cbn. apply Nat.neq_sym in N. apply Nat.eqb_neq in N. try rewrite N in X; try rewrite N. lia.
      + intros j m X. injection X as <- <-. left. reflexivity.
  Qed.
  Lemma acquire_none i s : acquire W i s = None -> exists j m, b_lock s = Some (j, m) /\ j <> i.
  Proof.
    unfold acquire. destruct (b_lock s) as [[j m]|]; [|discriminate]. destruct (Nat.eqb j i) eqn:E; [discriminate|]. intros _. exists j, m. split; [reflexivity|]. apply Nat.eqb_neq. exact E.
  Qed.
  Lemma release_ok i s n : owns i s (S n) -> owns i (release W s) n /\ others i s (release W s) /\ from i s (release W s).
  Proof.
    unfold release, others, from, owns. cbn [b_lock]. intros O. destruct (b_lock s) as [[j m]|] eqn:E; [|discriminate]. destruct O as (P & O). destruct (Nat.eqb j i) eqn:Ej; [|discriminate].
    subst m. destruct n as [|n].
    - split; [reflexivity|]. split; [|discriminate]. intros j' m' N X. apply Nat.eqb_eq in Ej. subst j. cbn. apply Nat.neq_sym in N. apply Nat.eqb_neq in N. try rewrite N in X; try rewrite N. apply X.
    - rewrite Ej. split; [lia|]. split.
      + intros j' m' N X. apply Nat.eqb_eq in Ej. subst j. cbn. apply Nat.neq_sym in N. apply Nat.eqb_neq in N. try rewrite N in X; try rewrite N. lia.
      + intros j' m' X. injection X as <- <-. left. apply Nat.eqb_eq. exact Ej.
  Qed.
  Lemma set_slot_at k x s k' : b_slot (set_slot W k x s) k' = if bk_eqb k' k then x else b_slot s k'.
  Proof. reflexivity. Qed.
  Lemma set_slot_same k x s : b_slot (set_slot W k x s) k = x.
  Proof. rewrite set_slot_at, bk_eqb_refl. reflexivity. Qed.
  Lemma set_owns i k x s n : owns i s n -> owns i (set_slot W k x s) n.
  Proof. exact (fun H => H). Qed.
  Lemma set_others i k x s : others i s (set_slot W k x s).
  Proof. intros j m _ H. exact H. Qed.
  Lemma set_from i k x s : from i s (set_slot W k x s).
  Proof. intros j m H. right. exists m. exact H. Qed.
  Lemma set_ok k x s : slots_ok s -> (s_done x = true -> s_made x = 1 /\ exists v, basis_of k = Some v /\ s_re x = Some (fst v) /\ s_im x = Some (snd v)) -> slots_ok (set_slot W k x s).
  Proof.
    intros S X k' D. rewrite set_slot_at in *. destruct (bk_eqb k' k) eqn:E; [|exact (S k' D)]. apply bk_eqb_eq in E. subst k'. exact (X D).
  Qed.
  Lemma basis_cell k : basis_of (bk_cell k) = make (bk_dense k) (bk_cplx k).
  Proof. unfold LazySpec.basis_of, bk_cell. cbn. destruct (make (bk_dense k) (bk_cplx k)); reflexivity. Qed.
  Lemma returned_parts s k : slots_ok s -> s_done (b_slot s k) = true -> Some (parts W (b_slot s k)) = as_returned W (basis_of k).
  Proof. intros S D. destruct (S k D) as (_ & v & E & R1 & R2). unfold parts. rewrite E, R1, R2. reflexivity. Qed.

  Definition only_at (k : bkind) (s s' : bshared) : Prop := forall k', k' <> k -> b_slot s' k' = b_slot s k'.
  Lemma set_only k x s : only_at k s (set_slot W k x s).
  Proof. intros k' N. rewrite set_slot_at. destruct (bk_eqb k' k) eqn:E; [apply bk_eqb_eq in E; congruence|reflexivity]. Qed.

  Lemma call_ok i k p s base : slots_ok s -> pc_ok s k p -> owns i s (base + h p) -> (h p > 0 -> s_done (b_slot s k) = false -> s_made (b_slot s k) <> 0 -> writing p = true) ->
    match call_step i k p s with
    | Go _ p' s' => slots_ok s' /\ pc_ok s' k p' /\ owns i s' (base + h p') /\ others i s s' /\ from i s s' /\ only_at k s s' /\
        (s_done (b_slot s k) = true -> b_slot s' k = b_slot s k) /\
        ((h p = 0 /\ b_slot s' = b_slot s) \/ (s_done (b_slot s' k) = false -> s_made (b_slot s' k) <> 0 -> writing p' = true))
    | Ask _ s' => s' = s /\ bk_mono k = true /\ s_done (b_slot s k) = false /\ s_made (b_slot s k) = 0 /\ h p = 1 /\ writing p = false
    | End_ _ o s' => o = as_returned W (basis_of k) /\ b_slot s' = b_slot s /\ owns i s' base /\ others i s s' /\ from i s s' /\ (h p > 0 -> s_done (b_slot s k) = false -> s_made (b_slot s k) = 0)
    | Wait_ _ => h p = 0 /\ exists j m, b_lock s = Some (j, m) /\ j <> i
    end.
  Proof.
    intros SO PO OW QU. unfold LazyModel.call_step. destruct p as [| | |arg|v|v| |]; cbn [h] in *.
    - destruct (s_done (b_slot s k)) eqn:D.
      + split; [exact (returned_parts s k SO D)|]. split; [reflexivity|]. rewrite Nat.add_0_r in OW. split; [exact OW|]. split; [intros j m _ X; exact X|]. split; [intros j m X; right; exists m; exact X|lia].
      + split; [exact SO|]. split; [exact I|]. split; [exact OW|]. split; [intros j m _ X; exact X|]. split; [intros j m X; right; exists m; exact X|]. split; [intros k' _; reflexivity|]. split; [reflexivity|]. left. split; reflexivity.
    - destruct (acquire W i s) as [s'|] eqn:A; [|split; [reflexivity|exact (acquire_none i s A)]].
      destruct (acquire_some i s s' (base + 0) OW A) as (E & O' & Oo & Fr).
      split; [intros k' D; rewrite E in *; exact (SO k' D)|]. split; [exact I|]. split; [cbn [h]; replace (base + 1) with (S (base + 0)) by lia; exact O'|]. split; [exact Oo|]. split; [exact Fr|].
      split; [intros k' _; rewrite E; reflexivity|]. split; [intros _; rewrite E; reflexivity|]. left. split; [reflexivity|exact E].
    - assert (OR : owns i s (S base)) by (replace (S base) with (base + 1) by lia; exact OW). destruct (release_ok i s base OR) as (O' & Oo & Fr).
      destruct (s_done (b_slot s k)) eqn:D.
      + split; [exact (returned_parts s k SO D)|]. split; [reflexivity|]. split; [exact O'|]. split; [exact Oo|]. split; [exact Fr|]. intros _ X. discriminate.
      + assert (M : s_made (b_slot s k) = 0).
        { destruct (s_made (b_slot s k)) as [|n] eqn:M; [reflexivity|]. assert (X : @writing PAgain = true) by (apply QU; [lia|reflexivity|discriminate]). discriminate X. }
        destruct (bk_mono k) eqn:Mo.
        * split; [reflexivity|]. split; [reflexivity|]. split; [reflexivity|]. split; [exact M|]. split; reflexivity.
        * split; [exact SO|]. split; [cbn; split; [exact D|]; split; [exact M|exact Mo]|]. split; [exact OW|]. split; [intros j m _ X; exact X|]. split; [intros j m X; right; exists m; exact X|]. split; [intros k' _; reflexivity|].
          split; [reflexivity|]. right. intros _ X. congruence.
    - cbn in PO. destruct PO as (D & M & A). assert (OR : owns i s (S base)) by (replace (S base) with (base + 1) by lia; exact OW). destruct (release_ok i s base OR) as (O' & Oo & Fr).
      assert (B : (match arg with Some v => Some (infer (bk_dense k) (bk_cplx k) v) | None => make (bk_dense k) (bk_cplx k) end) = basis_of k).
      { unfold LazySpec.basis_of. destruct arg as [v|]; [destruct A as (A1 & A2); rewrite A2, A1; reflexivity|]. rewrite A. destruct (make (bk_dense k) (bk_cplx k)); reflexivity. }
      rewrite B. destruct (basis_of k) as [v|] eqn:Ev.
      + split; [apply set_ok; [exact SO|cbn; congruence]|]. split; [cbn; rewrite bk_eqb_refl; cbn; split; [exact Ev|]; split; [exact D|rewrite M; reflexivity]|].
        split; [apply set_owns; exact OW|]. split; [apply set_others|]. split; [apply set_from|]. split; [apply set_only|]. split; [congruence|]. right. intros _ _. reflexivity.
      + split; [reflexivity|]. split; [reflexivity|]. split; [exact O'|]. split; [exact Oo|]. split; [exact Fr|]. intros _ _. exact M.
    - cbn in PO. destruct PO as (E & D & M).
      split; [apply set_ok; [exact SO|cbn; congruence]|]. split; [cbn; rewrite bk_eqb_refl; cbn; split; [exact E|]; split; [exact D|]; split; [exact M|reflexivity]|].
      split; [apply set_owns; exact OW|]. split; [apply set_others|]. split; [apply set_from|]. split; [apply set_only|]. split; [congruence|]. right. intros _ _. reflexivity.
    - cbn in PO. destruct PO as (E & D & M & R).
      split; [apply set_ok; [exact SO|cbn; congruence]|]. split; [cbn; rewrite bk_eqb_refl; cbn; split; [exact D|]; split; [exact M|]; exists v; split; [exact E|]; split; [exact R|reflexivity]|].
      split; [apply set_owns; exact OW|]. split; [apply set_others|]. split; [apply set_from|]. split; [apply set_only|]. split; [congruence|]. right. intros _ _. reflexivity.
    - cbn in PO. destruct PO as (D & M & v & E & R1 & R2).
      split; [apply set_ok; [exact SO|cbn; intros _; split; [exact M|]; exists v; split; [exact E|]; split; [exact R1|exact R2]]|]. split; [cbn; rewrite bk_eqb_refl; reflexivity|].
      split; [apply set_owns; exact OW|]. split; [apply set_others|]. split; [apply set_from|]. split; [apply set_only|]. split; [congruence|]. right. rewrite set_slot_same. discriminate.
    - cbn in PO. assert (OR : owns i s (S base)) by (replace (S base) with (base + 1) by lia; exact OW). destruct (release_ok i s base OR) as (O' & Oo & Fr).
      split; [exact (returned_parts s k SO PO)|]. split; [reflexivity|]. split; [exact O'|]. split; [exact Oo|]. split; [exact Fr|]. intros _ X. congruence.
  Qed.

  (** ** One step of a thread *)
  Definition held (l : bloc W) : nat := match l with Out => 0 | InTop _ p => h p | InSub _ p => S (h p) end.
  Definition writes (l : bloc W) : option bkind := match l with Out => None | InTop k p => if writing p then Some k else None | InSub k p => if writing p then Some (bk_cell k) else None end.
  Definition loc_ok (s : bshared) (l : bloc W) : Prop :=
    match l with
    | Out => True
    | InTop k p => pc_ok s k p
    | InSub k p => bk_mono k = true /\ s_done (b_slot s k) = false /\ s_made (b_slot s k) = 0 /\ pc_ok s (bk_cell k) p
    end.
  Definition log_ok (l : list (bkind * option (option W * option W))) : Prop := forall k o, In (k, o) l -> o = as_returned W (basis_of k).
  Lemma log_snoc l k o : log_ok l -> o = as_returned W (basis_of k) -> log_ok (l ++ [(k, o)]).
  Proof. intros L E k' o' I0. apply in_app_or in I0. destruct I0 as [I0|[I0|[]]]; [exact (L _ _ I0)|]. injection I0 as <- <-. exact E. Qed.
  Lemma cell_other k : bk_mono k = true -> k <> bk_cell k.
  Proof. intros M E. rewrite E in M. discriminate. Qed.
  Lemma pc_slots s s' k p : b_slot s' = b_slot s -> pc_ok s k p -> pc_ok s' k p.
  Proof. intros E. unfold pc_ok. rewrite E. exact (fun H => H). Qed.
  Lemma slots_same s s' : b_slot s' = b_slot s -> slots_ok s -> slots_ok s'.
  Proof. intros E H k. rewrite E. apply H. Qed.
  Lemma others_trans i a b c : others i a b -> others i b c -> others i a c.
  Proof. intros H1 H2 j m N O. exact (H2 j m N (H1 j m N O)). Qed.
  Lemma from_trans i a b c : from i a b -> from i b c -> from i a c.
  Proof. intros H1 H2 j m E. destruct (H2 j m E) as [X|(m' & X)]; [left; exact X|exact (H1 j m' X)]. Qed.

  Definition post (i : nat) (t t' : bthread W) (s s' : bshared) : Prop :=
    slots_ok s' /\ loc_ok s' (bt_loc t') /\ owns i s' (held (bt_loc t')) /\ others i s s' /\ from i s s' /\ log_ok (bt_log t') /\
    (forall k, s_done (b_slot s k) = true -> b_slot s' k = b_slot s k) /\
    (held (bt_loc t) = 0 -> b_slot s' = b_slot s) /\
    (forall k, s_done (b_slot s' k) = false -> s_made (b_slot s' k) <> 0 -> writes (bt_loc t') = Some k \/ (s_done (b_slot s k) = false /\ s_made (b_slot s k) <> 0 /\ writes (bt_loc t) <> Some k)).

  Lemma bthread_ok i t s t' s' : slots_ok s -> loc_ok s (bt_loc t) -> owns i s (held (bt_loc t)) -> log_ok (bt_log t) ->
    (held (bt_loc t) > 0 -> forall k, s_done (b_slot s k) = false -> s_made (b_slot s k) <> 0 -> writes (bt_loc t) = Some k) ->
    bthread_step W make infer i t s = Some (t', s') -> post i t t' s s'.
  Proof.
    intros SO LO OW LG QU H. unfold bthread_step in H. unfold post.
    destruct (bt_loc t) as [|k p|k p] eqn:EL; cbn [held writes loc_ok] in *.
    - destruct (bt_todo t) as [|k r] eqn:ET; [discriminate|]. injection H as <- <-. cbn.
      split; [exact SO|]. split; [exact I|]. split; [exact OW|]. split; [intros j m _ X; exact X|]. split; [intros j m X; right; exists m; exact X|]. split; [exact LG|]. split; [reflexivity|]. split; [reflexivity|].
      intros k' D M. right. split; [exact D|]. split; [exact M|discriminate].
    - assert (QU' : h p > 0 -> s_done (b_slot s k) = false -> s_made (b_slot s k) <> 0 -> writing p = true).
      { intros P D M. specialize (QU P k D M). destruct (writing p); [reflexivity|discriminate]. }
      pose proof (call_ok i k p s 0 SO LO OW QU') as C. destruct (LazyModel.call_step W make infer i k p s) as [p' s1|s1|o s1|] eqn:EC; [| | |discriminate].
      + injection H as <- <-. cbn [bt_loc bt_log held writes loc_ok]. destruct C as (C1 & C2 & C3 & C4 & C5 & C6 & C7 & C8).
        split; [exact C1|]. split; [exact C2|]. split; [exact C3|]. split; [exact C4|]. split; [exact C5|]. split; [exact LG|]. split; [|split].
        * intros k' D. destruct (bk_eqb k' k) eqn:E; [apply bk_eqb_eq in E; subst k'; exact (C7 D)|]. apply C6. intros ->. rewrite bk_eqb_refl in E. discriminate.
        * intros P. destruct C8 as [(_ & E)|C8]; [exact E|]. destruct p; try discriminate P; cbn in EC.
          -- destruct (s_done (b_slot s k)); [discriminate|]. injection EC as <- <-. reflexivity.
          -- unfold acquire in EC. destruct (b_lock s) as [[j m]|]; [destruct (Nat.eqb j i); [|discriminate]|]; injection EC as <- <-; reflexivity.
        * intros k' D M. destruct C8 as [(P & E)|C8].
          -- right. rewrite E in *. split; [exact D|]. split; [exact M|]. destruct p; try discriminate P; cbn; discriminate.
          -- destruct (bk_eqb k' k) eqn:E.
             ++ apply bk_eqb_eq in E. subst k'. left. rewrite (C8 D M). reflexivity.
             ++ assert (N : k' <> k) by (intros ->; rewrite bk_eqb_refl in E; discriminate). rewrite (C6 k' N) in *. right. split; [exact D|]. split; [exact M|]. destruct (writing p); congruence.
      + injection H as <- <-. cbn [bt_loc bt_log held writes loc_ok]. destruct C as (-> & Mo & D0 & M0 & P1 & Wp).
        split; [exact SO|]. split; [split; [exact Mo|]; split; [exact D0|]; split; [exact M0|exact I]|]. split; [cbn; rewrite P1 in OW; exact OW|]. split; [intros j m _ X; exact X|]. split; [intros j m X; right; exists m; exact X|]. split; [exact LG|]. split; [reflexivity|]. split; [reflexivity|].
        intros k' D M. right. split; [exact D|]. split; [exact M|]. rewrite Wp. discriminate.
      + injection H as <- <-. cbn [bt_loc bt_log held writes loc_ok]. destruct C as (-> & E & O' & Oo & Fr & Z).
        split; [exact (slots_same s s1 E SO)|]. split; [exact I|]. split; [exact O'|]. split; [exact Oo|]. split; [exact Fr|]. split; [apply log_snoc; [exact LG|reflexivity]|]. split; [intros k' _; rewrite E; reflexivity|]. split; [intros _; exact E|].
        intros k' D M. rewrite E in *. right. split; [exact D|]. split; [exact M|]. destruct (writing p) eqn:Wp; [|discriminate]. intros X. injection X as <-. apply M. apply Z; [destruct p; cbn in *; (discriminate || lia)|exact D].
    - destruct LO as (Mo & D0 & M0 & PO).
      assert (NK : k <> bk_cell k) by (exact (cell_other k Mo)).
      assert (QU' : h p > 0 -> s_done (b_slot s (bk_cell k)) = false -> s_made (b_slot s (bk_cell k)) <> 0 -> writing p = true).
      { intros P D M. specialize (QU (Nat.lt_0_succ _) (bk_cell k) D M). destruct (writing p); [reflexivity|discriminate]. }
      pose proof (call_ok i (bk_cell k) p s 1 SO PO OW QU') as C. destruct (LazyModel.call_step W make infer i (bk_cell k) p s) as [p' s1|s1|o s1|] eqn:EC; [| | |discriminate].
      + injection H as <- <-. cbn [bt_loc bt_log held writes loc_ok]. destruct C as (C1 & C2 & C3 & C4 & C5 & C6 & C7 & C8).
        split; [exact C1|]. split; [rewrite (C6 k NK); split; [exact Mo|]; split; [exact D0|]; split; [exact M0|exact C2]|]. split; [exact C3|]. split; [exact C4|]. split; [exact C5|]. split; [exact LG|]. split; [|split; [discriminate|]].
        * intros k' D. destruct (bk_eqb k' (bk_cell k)) eqn:E; [apply bk_eqb_eq in E; subst k'; exact (C7 D)|]. apply C6. intros ->. rewrite bk_eqb_refl in E. discriminate.
        * intros k' D M. destruct C8 as [(P & E)|C8].
          -- right. rewrite E in *. split; [exact D|]. split; [exact M|]. destruct p; try discriminate P; cbn; discriminate.
          -- destruct (bk_eqb k' (bk_cell k)) eqn:E.
             ++ apply bk_eqb_eq in E. subst k'. left. rewrite (C8 D M). reflexivity.
             ++ assert (N : k' <> bk_cell k) by (intros ->; rewrite bk_eqb_refl in E; discriminate). rewrite (C6 k' N) in *. right. split; [exact D|]. split; [exact M|]. destruct (writing p); congruence.
      + exfalso. destruct C as (_ & Mo' & _). discriminate Mo'.
      + destruct C as (Eo & E & O' & Oo & Fr & Z). rewrite basis_cell in Eo.
        assert (WR : forall k', s_done (b_slot s k') = false -> s_made (b_slot s k') <> 0 -> (if writing p then Some (bk_cell k) else None) <> Some k').
        { intros k' D M. destruct (writing p) eqn:Wp; [|discriminate]. intros X. injection X as <-. apply M. apply Z; [destruct p; cbn in *; (discriminate || lia)|exact D]. }
        destruct (make (bk_dense k) (bk_cplx k)) as [[a b]|] eqn:Em.
        * subst o. cbn in H. injection H as <- <-. cbn [bt_loc bt_log held writes loc_ok writing].
          split; [exact (slots_same s s1 E SO)|]. split; [cbn; rewrite E; split; [exact D0|]; split; [exact M0|]; split; [exact Mo|exact Em]|]. split; [exact O'|]. split; [exact Oo|]. split; [exact Fr|]. split; [exact LG|]. split; [intros k' _; rewrite E; reflexivity|]. split; [discriminate|].
          intros k' D M. rewrite E in *. right. split; [exact D|]. split; [exact M|]. exact (WR k' D M).
        * subst o. cbn in H. injection H as <- <-. cbn [bt_loc bt_log held writes loc_ok].
          destruct (release_ok i s1 0 O') as (O2 & Oo2 & Fr2).
          split; [exact (slots_same s _ E SO)|]. split; [exact I|]. split; [exact O2|]. split; [exact (others_trans _ _ _ _ Oo Oo2)|]. split; [exact (from_trans _ _ _ _ Fr Fr2)|]. split; [apply log_snoc; [exact LG|unfold LazySpec.basis_of; rewrite Em; reflexivity]|].
          split; [intros k' _; cbn; rewrite E; reflexivity|]. split; [discriminate|].
          intros k' D M. cbn in D, M. rewrite E in *. right. split; [exact D|]. split; [exact M|]. exact (WR k' D M).
  Qed.
End P.
