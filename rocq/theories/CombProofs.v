(** Proofs about the subset, multiset and partition iterators. *)
From Coq Require Import List NArith Arith Bool Lia Sorted.
From Verif Require Import CoreModel CoreSpec AlgModel EnumModel EnumSpec EnumProofs CombModel CombSpec.
Import ListNotations.

(* ------------------------------------------------------------ successors in a sorted list *)
Section Successor.
  Context {X : Type} (R : X -> X -> Prop) (P : X -> Prop) (next : X -> option X).
  Inductive chain : X -> list X -> Prop :=
  | chain_end : forall x, next x = None -> chain x [x]
  | chain_more : forall x y l, next x = Some y -> chain y l -> chain x (x :: l).
  Variables (irr : forall x, ~ R x x) (tr : forall x y z, R x y -> R y z -> R x z).
  Variable some : forall x y, P x -> next x = Some y -> P y /\ R x y /\ forall z, P z -> R x z -> z = y \/ R y z.
  Variable none : forall x, P x -> next x = None -> forall z, P z -> ~ R x z.
  Lemma sorted_app_before (l1 l2 : list X) a b : StronglySorted R (l1 ++ l2) -> In a l1 -> In b l2 -> R a b.
  Proof.
    induction l1 as [|c l1 IH]; [intros _ []|]. cbn. intros S [<-|I] J; apply StronglySorted_inv in S as [S F].
    - rewrite Forall_forall in F. apply F, in_or_app. now right.
    - now apply IH.
  Qed.
  Lemma sorted_app_right (l1 l2 : list X) : StronglySorted R (l1 ++ l2) -> StronglySorted R l2.
  Proof. induction l1 as [|c l1 IH]; [auto|]. cbn. intro S. apply StronglySorted_inv in S as [S _]. auto. Qed.
  Lemma chain_of_sorted suf : forall pre x, lists_in_order R P (pre ++ x :: suf) -> chain x (x :: suf).
  Proof.
    induction suf as [|z suf IH]; intros pre x [S M].
    - apply chain_end. assert (Px : P x) by (apply M, in_or_app; right; now left).
      destruct (next x) as [y|] eqn:E; [|reflexivity]. destruct (some x y Px E) as (Py & Rxy & _).
      apply M in Py. apply in_app_or in Py as [I|[<-|[]]]; [|now apply irr in Rxy].
      exfalso. apply (irr x). apply tr with y; [exact Rxy|]. apply (sorted_app_before pre [x]); auto. now left.
    - assert (Px : P x) by (apply M, in_or_app; right; now left).
      assert (Pz : P z) by (apply M, in_or_app; right; right; now left).
      assert (Rxz : R x z). { apply sorted_app_right in S. apply StronglySorted_inv in S as [_ F]. now apply Forall_inv in F. }
      destruct (next x) as [y|] eqn:E; [|exfalso; exact (none x Px E z Pz Rxz)].
      destruct (some x y Px E) as (Py & Rxy & Min).
      assert (y = z) as ->.
      { destruct (Min z Pz Rxz) as [->|Ryz]; [reflexivity|]. exfalso. apply M in Py. apply in_app_or in Py as [I|[<-|[<-|I]]].
        - apply (irr x). apply tr with y; [exact Rxy|]. apply (sorted_app_before pre (x :: z :: suf)); auto. now left.
        - now apply irr in Rxy.
        - now apply irr in Ryz.
        - apply (irr z). apply tr with y; [|exact Ryz]. replace (pre ++ x :: z :: suf) with ((pre ++ [x; z]) ++ suf) in S by (rewrite <- app_assoc; reflexivity).
          apply (sorted_app_before (pre ++ [x; z]) suf); auto. apply in_or_app. right. right. now left. }
      apply chain_more with z; [exact E|]. apply (IH (pre ++ [x])). rewrite <- app_assoc. now split.
  Qed.
  Lemma chain_from_least s l : lists_in_order R P l -> P s -> (forall z, P z -> z = s \/ R s z) -> chain s l.
  Proof.
    intros [S M] Ps Min. destruct l as [|x l]; [now apply M in Ps|].
    assert (x = s) as ->.
    { destruct (Min x) as [->|Rx]; [apply M; now left|reflexivity|]. exfalso. apply M in Ps as [->|I]; [now apply irr in Rx|].
      apply (irr s). apply tr with x; [exact Rx|]. apply (sorted_app_before [x] l); auto. now left. }
    apply (chain_of_sorted l []). now split.
  Qed.
End Successor.

Lemma lex_irr x : ~ lex_lt x x.
Proof. induction x as [|a x IH]; intro H; inversion H; subst; [lia|auto]. Qed.
Lemma lex_trans x y z : lex_lt x y -> lex_lt y z -> lex_lt x z.
Proof.
  intro H. revert z. induction H as [a b u v L|a u v H IH]; intros z Hz; inversion Hz; subst.
  - apply lex_head. lia.
  - now apply lex_head.
  - now apply lex_head.
  - apply lex_tail. now apply IH.
Qed.

(* ------------------------------------------------------------ lists whose entries grow by at least [g] *)
Section Gap.
  Variable g n : nat.
  Fixpoint gapped (lo : nat) (x : list nat) : Prop :=
    match x with [] => True | a :: x' => lo <= a /\ a < n /\ gapped (a + g) x' end.
  Fixpoint gfill (v k : nat) : list nat := match k with O => [] | S k' => v :: gfill (v + g) k' end.
  Fixpoint gnext (x : list nat) : option (list nat) :=
    match x with
    | [] => None
    | a :: x' =>
        match gnext x' with
        | Some y => Some (a :: y)
        | None => if Nat.leb n (S a + g * length x') then None else Some (S a :: gfill (S a + g) (length x'))
        end
    end.
  Lemma gfill_length v k : length (gfill v k) = k.
  Proof. revert v. induction k; intro v; cbn; auto. Qed.
  Lemma gapped_weaken lo lo' x : lo' <= lo -> gapped lo x -> gapped lo' x.
  Proof. destruct x; cbn; [auto|]. intuition lia. Qed.
  Lemma gapped_room x : forall lo a, gapped lo (a :: x) -> a + g * length x < n.
  Proof.
    induction x as [|b x IH]; intros lo a (H1 & H2 & H3); cbn [length]; [lia|].
    specialize (IH _ _ H3). destruct H3 as (H3 & _). lia.
  Qed.
  Lemma gfill_gapped k : forall v, v + g * k < n + g -> gapped v (gfill v k).
  Proof. induction k as [|k IH]; intros v H; cbn; [exact I|]. split; [lia|]. split; [nia|]. apply IH. lia. Qed.
  Lemma gfill_least k : forall lo z, length z = k -> gapped lo z -> z = gfill lo k \/ lex_lt (gfill lo k) z.
  Proof.
    induction k as [|k IH]; intros lo z Hz G.
    - left. now apply length_zero_iff_nil in Hz.
    - destruct z as [|b z]; [discriminate|]. cbn in Hz. destruct G as (G1 & G2 & G3). cbn.
      destruct (Nat.eq_dec b lo) as [->|D]; [|right; apply lex_head; lia].
      destruct (IH (lo + g) z) as [->|L]; [lia|exact G3|now left|right; now apply lex_tail].
  Qed.
  Lemma gnext_spec x : forall lo, gapped lo x ->
    match gnext x with
    | Some y => (gapped lo y /\ length y = length x) /\ lex_lt x y /\
                (forall z, length z = length x -> gapped lo z -> lex_lt x z -> z = y \/ lex_lt y z)
    | None => forall z, length z = length x -> gapped lo z -> ~ lex_lt x z
    end.
  Proof.
    induction x as [|a x IH]; intros lo G.
    - cbn. intros z Hz _ L. inversion L.
    - destruct G as (G1 & G2 & G3). cbn [gnext]. specialize (IH _ G3). destruct (gnext x) as [y|].
      + destruct IH as ((Y1 & Y2) & Y3 & Y4). split; [cbn; auto|]. split; [now apply lex_tail|].
        intros z Hz Gz L. destruct z as [|b z]; [discriminate|]. cbn in Hz. destruct Gz as (Z1 & Z2 & Z3).
        inversion L; subst; [right; now apply lex_head|].
        destruct (Y4 z) as [->|K]; [lia|exact Z3|assumption|now left|right; now apply lex_tail].
      + destruct (Nat.leb_spec n (S a + g * length x)) as [F|F].
        * intros z Hz Gz L. destruct z as [|b z]; [discriminate|]. cbn in Hz.
          inversion L; subst.
          -- pose proof (gapped_room _ _ _ Gz). replace (length z) with (length x) in * by lia. lia.
          -- destruct Gz as (_ & _ & Gz). eapply IH; [|exact Gz|eassumption]. lia.
        * split; [split|].
          -- cbn. split; [lia|]. split; [lia|]. apply gfill_gapped. lia.
          -- cbn. now rewrite gfill_length.
          -- split; [apply lex_head; lia|]. intros z Hz Gz L. destruct z as [|b z]; [discriminate|]. cbn in Hz.
             destruct Gz as (Z1 & Z2 & Z3). inversion L; subst.
             ++ destruct (Nat.eq_dec b (S a)) as [->|D]; [|right; apply lex_head; lia].
                destruct (gfill_least (length x) (S a + g) z) as [->|K]; [lia|exact Z3|now left|right; now apply lex_tail].
             ++ exfalso. eapply IH; [|exact Z3|eassumption]. lia.
  Qed.

  (** the right-to-left loop computes this successor *)
  Lemma gnext_snoc p : forall a, gnext (p ++ [a]) =
    match (if Nat.leb n (S a) then None else Some (S a)) with
    | Some b => Some (p ++ [b])
    | None => gnext (p ++ [a])
    end.
  Proof.
    induction p as [|c p IH]; intro a.
    - cbn. rewrite Nat.mul_0_r, Nat.add_0_r. destruct (Nat.leb n (S a)); reflexivity.
    - specialize (IH a). destruct (Nat.leb n (S a)) eqn:E; [reflexivity|]. cbn [app gnext]. rewrite IH. reflexivity.
  Qed.
  Lemma gnext_climb total lim : (forall d, d < total -> forall a, Nat.leb (lim d) (S a) = Nat.leb n (S a + g * (total - 1 - d))) ->
    forall x t, length x + length t = total -> gnext t = None ->
    gnext (rev x ++ t) = match climb lim x with None => None | Some y => Some (rev y ++ gfill (hd 0 y + g) (total - length y)) end.
  Proof.
    intros Hl. induction x as [|a x IH]; intros t Ht N; [exact N|]. cbn [climb length] in *.
    rewrite (Hl (length x)) by lia. replace (total - 1 - length x) with (length t) by lia.
    cbn [rev]. rewrite <- app_assoc. cbn [app].
    assert (E : gnext (a :: t) = if Nat.leb n (S a + g * length t) then None else Some (S a :: gfill (S a + g) (length t))) by (cbn; now rewrite N).
    destruct (Nat.leb n (S a + g * length t)) eqn:F.
    - apply (IH (a :: t)); [cbn; lia|exact E].
    - cbn [rev hd length]. rewrite <- app_assoc. cbn [app]. replace (total - S (length x)) with (length t) by lia.
      clear IH Ht. generalize (rev x) as p. induction p as [|c p IHp]; [exact E|]. cbn [app gnext]. now rewrite IHp.
  Qed.
  Lemma gnext_nil_rev x lim : (forall d, d < length x -> forall a, Nat.leb (lim d) (S a) = Nat.leb n (S a + g * (length x - 1 - d))) ->
    gnext x = match climb lim (rev x) with None => None | Some y => Some (rev y ++ gfill (hd 0 y + g) (length x - length y)) end.
  Proof.
    intro H. rewrite <- (gnext_climb (length x) lim H (rev x) []).
    - now rewrite rev_involutive, app_nil_r.
    - rewrite rev_length. cbn. lia.
    - reflexivity.
  Qed.
End Gap.

(** all such lists, in order *)
Fixpoint glist (g k : nat) : nat -> nat -> list (list nat) :=
  match k with
  | O => fun _ _ => [[]]
  | S k' => fix inner (lo m : nat) : list (list nat) :=
      match m with
      | O => []
      | S m' => map (cons lo) (glist g k' (lo + g) (m - g)) ++ inner (S lo) m'
      end
  end.
Lemma glist_cons g k lo m : glist g (S k) lo (S m) = map (cons lo) (glist g k (lo + g) (S m - g)) ++ glist g (S k) (S lo) m.
Proof. reflexivity. Qed.
Lemma sorted_map_cons a l : StronglySorted lex_lt l -> StronglySorted lex_lt (map (cons a) l).
Proof.
  induction 1 as [|x l _ IH F]; cbn; [constructor|]. constructor; [exact IH|]. rewrite Forall_map.
  eapply Forall_impl; [|exact F]. intros y Hy. now apply lex_tail.
Qed.
Lemma sorted_app {X} (R : X -> X -> Prop) l1 l2 : StronglySorted R l1 -> StronglySorted R l2 -> (forall a b, In a l1 -> In b l2 -> R a b) -> StronglySorted R (l1 ++ l2).
Proof.
  intros H1 H2 H. induction H1 as [|x l _ IH F]; cbn; [exact H2|]. constructor.
  - apply IH. intros a b Ia Ib. apply H; [now right|exact Ib].
  - apply Forall_app. split; [exact F|]. apply Forall_forall. intros b Ib. apply H; [now left|exact Ib].
Qed.
Lemma glist_spec g k : g <= 1 -> forall m lo, lists_in_order lex_lt (fun x => length x = k /\ gapped g (lo + m) lo x) (glist g k lo m).
Proof.
  intro Hg. induction k as [|k IHk].
  - intros m lo. split; [repeat constructor|]. intro x. split.
    + intros [<-|[]]. split; [reflexivity|exact I].
    + intros [H _]. left. symmetry. now apply length_zero_iff_nil.
  - induction m as [|m IHm]; intro lo.
    + cbn. split; [constructor|]. intro x. split; [intros []|]. intros [H1 H2]. destruct x as [|a x]; [discriminate|]. destruct H2 as (? & ? & _). lia.
    + rewrite glist_cons. destruct (IHk (S m - g) (lo + g)) as [S1 M1]. destruct (IHm (S lo)) as [S2 M2]. split.
      * apply sorted_app; [now apply sorted_map_cons|exact S2|]. intros a b Ia Ib. apply in_map_iff in Ia as (u & <- & _).
        apply M2 in Ib as [Lb Gb]. destruct b as [|b v]; [discriminate|]. destruct Gb as (G1 & _). apply lex_head. lia.
      * intro x. rewrite in_app_iff, in_map_iff, M2. split.
        -- intros [(u & <- & Hu)|[L G]].
           ++ apply M1 in Hu as [L G]. split; [cbn; lia|]. cbn. split; [lia|]. split; [lia|].
              replace (lo + g + (S m - g)) with (lo + S m) in G by lia. exact G.
           ++ split; [exact L|]. replace (S lo + m) with (lo + S m) in G by lia. eapply gapped_weaken; [|exact G]. lia.
        -- intros [L G]. destruct x as [|a x]; [discriminate|]. cbn in L. destruct G as (G1 & G2 & G3).
           destruct (Nat.eq_dec a lo) as [->|D].
           ++ left. exists x. split; [reflexivity|]. apply M1. split; [lia|]. replace (lo + g + (S m - g)) with (lo + S m) by lia. exact G3.
           ++ right. split; [cbn; lia|]. replace (S lo + m) with (lo + S m) by lia. cbn. split; [lia|]. auto.
Qed.
Lemma glist1_length k : forall m lo, length (glist 1 k lo m) = binomial m k.
Proof.
  induction k as [|k IHk]; [intros [|m] lo; reflexivity|]. induction m as [|m IHm]; intro lo; [reflexivity|].
  rewrite glist_cons, app_length, map_length, IHm, IHk. cbn [binomial]. replace (S m - 1) with m by lia. reflexivity.
Qed.
Lemma binomial_0 n : binomial n 0 = 1.
Proof. destruct n; reflexivity. Qed.
Lemma binomial_above n : forall k, n < k -> binomial n k = 0.
Proof. induction n as [|n IH]; intros [|k] H; try lia; [reflexivity|]. cbn [binomial]. rewrite !IH by lia. reflexivity. Qed.
Lemma glist0_length k : forall m lo, length (glist 0 k lo m) = binomial (m + k - 1) k.
Proof.
  induction k as [|k IHk]; [intros m lo; cbn; now rewrite binomial_0|]. induction m as [|m IHm]; intro lo.
  - cbn [glist length]. symmetry. apply binomial_above. lia.
  - rewrite glist_cons, app_length, map_length, IHm, IHk. replace (S m - 0) with (S m) by lia.
    replace (S m + S k - 1) with (S (m + k)) by lia. cbn [binomial]. replace (S m + k - 1) with (m + k) by lia.
    replace (m + S k - 1) with (m + k) by lia. reflexivity.
Qed.

Lemma gapped_0 n x : forall lo, gapped 0 n lo x <-> (StronglySorted le x /\ Forall (fun a => a < n) x /\ Forall (fun a => lo <= a) x).
Proof.
  induction x as [|a x IH]; intro lo; cbn.
  - intuition constructor.
  - rewrite Nat.add_0_r, IH. split.
    + intros (H1 & H2 & H3 & H4 & H5). repeat split; constructor; auto. eapply Forall_impl; [|exact H5]. cbn. lia.
    + intros (H1 & H2 & H3). apply StronglySorted_inv in H1 as [H1 F]. inversion H2; inversion H3; subst. auto 6.
Qed.
Lemma gapped_1 n x : forall lo, gapped 1 n lo x <-> (StronglySorted lt x /\ Forall (fun a => a < n) x /\ Forall (fun a => lo <= a) x).
Proof.
  induction x as [|a x IH]; intro lo; cbn.
  - intuition constructor.
  - rewrite IH. split.
    + intros (H1 & H2 & H3 & H4 & H5). repeat split; constructor; auto; eapply Forall_impl; try exact H5; cbn; lia.
    + intros (H1 & H2 & H3). apply StronglySorted_inv in H1 as [H1 F]. inversion H2; inversion H3; subst. repeat split; auto.
      eapply Forall_impl; [|exact F]. cbn. lia.
Qed.
Lemma all_ge_0 (x : list nat) : Forall (fun a => 0 <= a) x.
Proof. apply Forall_forall. lia. Qed.
Lemma multisets_spec n k : lists_in_order lex_lt (multiset_of n k) (glist 0 k 0 n).
Proof.
  destruct (glist_spec 0 k ltac:(lia) n 0) as [S M]. split; [exact S|]. intro x. rewrite M. unfold multiset_of. cbn [Nat.add].
  rewrite gapped_0. pose proof (all_ge_0 x). tauto.
Qed.
Lemma subsets_spec n k : lists_in_order lex_lt (subset_of n k) (glist 1 k 0 n).
Proof.
  destruct (glist_spec 1 k ltac:(lia) n 0) as [S M]. split; [exact S|]. intro x. rewrite M. unfold subset_of. cbn [Nat.add].
  rewrite gapped_1. pose proof (all_ge_0 x). tauto.
Qed.
Lemma gfill_0 v k : gfill 0 v k = repeat v k.
Proof. revert v. induction k as [|k IH]; intro v; cbn; [reflexivity|]. rewrite Nat.add_0_r. now rewrite IH. Qed.
Lemma gfill_1 v k : gfill 1 v k = seq v k.
Proof. revert v. induction k as [|k IH]; intro v; cbn; [reflexivity|]. rewrite IH, Nat.add_1_r. reflexivity. Qed.

Definition okx (g n k : nat) (x : list nat) : Prop := length x = k /\ gapped g n 0 x.
Lemma gchain g n k : g <= 1 -> k = 0 \/ g * k < n + g /\ (0 < n) -> chain (gnext g n) (gfill g 0 k) (glist g k 0 n).
Proof.
  intros Hg Hk.
  apply (chain_from_least lex_lt (okx g n k)).
  - exact lex_irr.
  - exact lex_trans.
  - intros x y [L G] E. pose proof (gnext_spec g n x 0 G) as H. rewrite E in H. destruct H as ((H1 & H2) & H3 & H4).
    split; [split; [lia|exact H1]|]. split; [exact H3|]. intros z [Lz Gz] K. apply H4; [lia|exact Gz|exact K].
  - intros x [L G] E z [Lz Gz]. pose proof (gnext_spec g n x 0 G) as H. rewrite E in H. apply H; [lia|exact Gz].
  - exact (glist_spec g k Hg n 0).
  - split; [apply gfill_length|]. destruct Hk as [->|[Hk _]]; [exact I|]. apply gfill_gapped. lia.
  - intros z [Lz Gz]. eapply gfill_least; eauto.
Qed.
Lemma chain_ok g n k x l : chain (gnext g n) x l -> okx g n k x -> Forall (okx g n k) l.
Proof.
  induction 1 as [x E|x y l E C IH]; intros [L G]; constructor; try (now split); try constructor.
  apply IH. pose proof (gnext_spec g n x 0 G) as H. rewrite E in H. destruct H as ((H1 & H2) & _). split; [lia|exact H1].
Qed.

(* ------------------------------------------------------------ OrderedPermutationIterator *)
Lemma operm_remains n k x l : 0 < k -> chain (gnext 0 n) x l -> okx 0 n k x ->
  remains op_end op_indices operm_step (mk_operm n k x false) l.
Proof.
  intros Hk. induction 1 as [x E|x y l E C IH]; intros [L G].
  - apply (rem_step op_end op_indices operm_step (mk_operm n k x false) (mk_operm n k x true)); [reflexivity| |now apply rem_done].
    unfold operm_step. cbn [op_k op_n op_indices]. destruct (Nat.eqb_spec k 0); [lia|].
    rewrite (gnext_nil_rev 0 n x (fun _ => n)) in E by (intros; cbn; now rewrite Nat.add_0_r).
    destruct (climb (fun _ => n) (rev x)); [discriminate|reflexivity].
  - apply (rem_step op_end op_indices operm_step (mk_operm n k x false) (mk_operm n k y false)); [reflexivity| |].
    + unfold operm_step. cbn [op_k op_n op_indices]. destruct (Nat.eqb_spec k 0); [lia|].
      rewrite (gnext_nil_rev 0 n x (fun _ => n)) in E by (intros; cbn; now rewrite Nat.add_0_r).
      destruct (climb (fun _ => n) (rev x)); [|discriminate]. injection E as <-. rewrite Nat.add_0_r, gfill_0. reflexivity.
    + apply IH. pose proof (gnext_spec 0 n x 0 G) as H. rewrite E in H. destruct H as ((H1 & H2) & _). split; [lia|exact H1].
Qed.
Lemma operm_run_spec fuel n k : 0 < n -> binomial (n + k - 1) k <= fuel -> operm_run fuel n k = Ret (glist 0 k 0 n).
Proof.
  intros Hn Hf. unfold operm_run, operm_start. apply run_remains; [|rewrite glist0_length; exact Hf].
  destruct (Nat.eq_dec k 0) as [->|Hk].
  - cbn. apply (rem_step op_end op_indices operm_step (mk_operm n 0 [] false) (mk_operm n 0 [] true)); [reflexivity|reflexivity|]. now apply rem_done.
  - rewrite <- gfill_0. apply operm_remains; [lia|apply gchain; lia|]. split; [apply gfill_length|apply gfill_gapped; lia].
Qed.

(* ------------------------------------------------------------ TriangularIndexIterator *)
Definition tri_lim (dup : bool) (max len : nat) := if dup then (fun _ : nat => max) else (fun depth => 1 + max + depth - len).
Definition tri_gap (dup : bool) := if dup then 0 else 1.
Lemma tri_lim_ok dup max len d a : (dup = false -> len <= max) -> d < len ->
  Nat.leb (tri_lim dup max len d) (S a) = Nat.leb max (S a + tri_gap dup * (len - 1 - d)).
Proof.
  intros H Hd. destruct dup; cbn [tri_lim tri_gap].
  - now rewrite Nat.mul_0_l, Nat.add_0_r.
  - specialize (H eq_refl). destruct (Nat.leb_spec (1 + max + d - len) (S a)), (Nat.leb_spec max (S a + 1 * (len - 1 - d))); try reflexivity; lia.
Qed.
Lemma tri_remains dup max len gl x l : (dup = false -> len <= max) -> chain (gnext (tri_gap dup) max) x l -> okx (tri_gap dup) max len x ->
  remains tr_done tr_indices (tri_step dup) (mk_tri max len gl x false) l.
Proof.
  intros Hm C. revert gl. induction C as [x E|x y l E C IH]; intros gl [L G].
  - apply (rem_step tr_done tr_indices (tri_step dup) (mk_tri max len gl x false) (mk_tri max len (S gl) x true)); [reflexivity| |now apply rem_done].
    unfold tri_step. cbn [tr_max tr_len tr_indices tr_global]. fold (tri_lim dup max len).
    rewrite (gnext_nil_rev (tri_gap dup) max x (tri_lim dup max len)) in E by (rewrite L; intros; now apply tri_lim_ok).
    destruct (climb (tri_lim dup max len) (rev x)); [discriminate|reflexivity].
  - apply (rem_step tr_done tr_indices (tri_step dup) (mk_tri max len gl x false) (mk_tri max len (S gl) y false)); [reflexivity| |].
    + unfold tri_step. cbn [tr_max tr_len tr_indices tr_global]. fold (tri_lim dup max len).
      rewrite (gnext_nil_rev (tri_gap dup) max x (tri_lim dup max len)) in E by (rewrite L; intros; now apply tri_lim_ok).
      destruct (climb (tri_lim dup max len) (rev x)) as [y'|]; [|discriminate]. injection E as <-. rewrite L.
      destruct dup; cbn [tri_gap]; [rewrite Nat.add_0_r, gfill_0|rewrite gfill_1]; reflexivity.
    + apply IH. pose proof (gnext_spec (tri_gap dup) max x 0 G) as H. rewrite E in H. destruct H as ((H1 & H2) & _). split; [lia|exact H1].
Qed.
Definition tri_list (dup : bool) (max len : nat) : list (list nat) :=
  if Nat.eqb len 0 then [] else glist (tri_gap dup) len 0 max.
Lemma tri_run_spec dup fuel max len : length (tri_list dup max len) <= fuel -> tri_run dup fuel max len = Ret (tri_list dup max len).
Proof.
  intro Hf. unfold tri_run. apply run_remains; [|exact Hf]. clear Hf fuel. unfold tri_start, tri_list.
  destruct (Nat.eqb_spec len 0) as [->|Hl]; [now apply rem_done|]. cbn [orb].
  destruct (Nat.eqb_spec max 0) as [->|Hm].
  - cbn [orb]. replace (glist (tri_gap dup) len 0 0) with (@nil (list nat)) by (destruct len; [lia|reflexivity]). now apply rem_done.
  - cbn [orb]. destruct (negb dup && Nat.ltb max len) eqn:F.
    + apply andb_true_iff in F as [F1 F2]. destruct dup; [discriminate|]. apply Nat.ltb_lt in F2.
      replace (glist (tri_gap false) len 0 max) with (@nil (list nat)); [now apply rem_done|].
      symmetry. apply length_zero_iff_nil. cbn [tri_gap]. rewrite glist1_length. now apply binomial_above.
    + assert (Hd : dup = false -> len <= max). { intros ->. cbn in F. apply Nat.ltb_ge in F. exact F. }
      replace (if dup then repeat 0 len else seq 0 len) with (gfill (tri_gap dup) 0 len)
        by (destruct dup; cbn [tri_gap]; [apply gfill_0|apply gfill_1]).
      assert (B : tri_gap dup * len < max + tri_gap dup) by (destruct dup; cbn [tri_gap]; [lia|specialize (Hd eq_refl); lia]).
      apply tri_remains; [exact Hd|apply gchain; [destruct dup; cbn; lia|right; split; [exact B|lia]]|].
      split; [apply gfill_length|]. apply gfill_gapped. exact B.
Qed.

(* ------------------------------------------------------------ CombinationIndexIteratorBase<true> *)
Lemma rev_rep (a k : nat) : rev (repeat a k) = repeat a k.
Proof.
  assert (H : forall k, repeat a k ++ [a] = repeat a (S k)) by (induction k0 as [|j IH]; cbn; [reflexivity|]; now rewrite IH).
  induction k as [|k IH]; [reflexivity|]. cbn [repeat rev]. rewrite IH. apply H.
Qed.
Lemma inc_inclusive_climb n : forall x, x <> [] -> 
  match climb (fun _ => n) x with
  | None => snd (inc_inclusive n x) = true
  | Some y => inc_inclusive n x = (rev (rev y ++ repeat (hd 0 y) (length x - length y)), false)
  end.
Proof.
  induction x as [|a x IH]; [congruence|]. intros _. cbn [climb inc_inclusive]. destruct x as [|b x].
  - cbn [climb]. destruct (Nat.leb n (S a)) eqn:E; [reflexivity|]. reflexivity.
  - specialize (IH ltac:(discriminate)). destruct (Nat.leb n (S a)) eqn:E.
    + destruct (climb (fun _ => n) (b :: x)) as [y|] eqn:C.
      * rewrite IH. f_equal. rewrite !rev_app_distr, rev_involutive, !rev_rep.
        assert (Ly : length y <= length (b :: x) /\ y <> []).
        { clear - C. revert C. generalize (b :: x) as u. induction u as [|c u IHu]; [discriminate|]. cbn [climb].
          destruct (Nat.leb n (S c)); [intro H; apply IHu in H as [H1 H2]; cbn; split; [lia|exact H2]|]. intros [= <-]. cbn. split; [lia|discriminate]. }
        destruct Ly as [Ly Ny]. replace (length (a :: b :: x) - length y) with (S (length (b :: x) - length y)) by (cbn [length] in *; lia).
        cbn [repeat app]. f_equal. destruct (length (b :: x) - length y); [reflexivity|reflexivity].
      * destruct (inc_inclusive n (b :: x)) as [y e]. exact IH.
    + cbn [hd length rev]. rewrite Nat.sub_diag. cbn [repeat]. rewrite app_nil_r, <- app_assoc, rev_app_distr, rev_involutive. reflexivity.
Qed.
Lemma incl_remains n k x l : 0 < k -> chain (gnext 0 n) x l -> okx 0 n k x ->
  remains cb_end cb_indices (comb_step true) (mk_comb n k x false) l.
Proof.
  intros Hk. induction 1 as [x E|x y l E C IH]; intros [L G];
    rewrite (gnext_nil_rev 0 n x (fun _ => n)) in E by (intros; cbn; now rewrite Nat.add_0_r);
    assert (Nx : rev x <> []) by (intro H; apply (f_equal (@length nat)) in H; rewrite rev_length in H; cbn in H; lia);
    pose proof (inc_inclusive_climb n (rev x) Nx) as I; destruct (climb (fun _ => n) (rev x)) as [y'|] eqn:Cl; try discriminate.
  - destruct (inc_inclusive n (rev x)) as [y e] eqn:Y. cbn in I. subst e.
    apply (rem_step cb_end cb_indices (comb_step true) (mk_comb n k x false) (mk_comb n k (rev y) true)); [reflexivity| |now apply rem_done].
    unfold comb_step. cbn [cb_n cb_k cb_indices]. destruct (Nat.eqb_spec k 0); [lia|]. now rewrite Y.
  - injection E as E. rewrite Nat.add_0_r, gfill_0 in E.
    apply (rem_step cb_end cb_indices (comb_step true) (mk_comb n k x false) (mk_comb n k y false)); [reflexivity| |].
    + unfold comb_step. cbn [cb_n cb_k cb_indices]. destruct (Nat.eqb_spec k 0); [lia|]. rewrite I, rev_length, rev_involutive, E. reflexivity.
    + apply IH. pose proof (gnext_spec 0 n x 0 G) as H.
      rewrite (gnext_nil_rev 0 n x (fun _ => n)) in H by (intros; cbn; now rewrite Nat.add_0_r). rewrite Cl in H.
      rewrite Nat.add_0_r, gfill_0, E in H. destruct H as ((H1 & H2) & _). split; [lia|exact H1].
Qed.
Lemma incl_run_spec fuel n k : 0 < n \/ k = 0 -> binomial (n + k - 1) k <= fuel -> comb_run true fuel n k = Ret (glist 0 k 0 n).
Proof.
  intros Hn Hf. unfold comb_run, comb_start. apply run_remains; [|rewrite glist0_length; exact Hf].
  destruct (Nat.eq_dec k 0) as [->|Hk].
  - cbn. apply (rem_step cb_end cb_indices (comb_step true) (mk_comb n 0 [] false) (mk_comb n 0 [] true)); [reflexivity|reflexivity|]. now apply rem_done.
  - rewrite <- gfill_0. apply incl_remains; [lia|apply gchain; lia|]. split; [apply gfill_length|apply gfill_gapped; lia].
Qed.

(* ------------------------------------------------------------ CombinationIndexIteratorBase<false> *)
Lemma lex_snoc x : forall y a b, length x = length y -> (lex_lt (x ++ [a]) (y ++ [b]) <-> lex_lt x y \/ x = y /\ a < b).
Proof.
  induction x as [|c x IH]; intros [|d y] a b H; try discriminate; cbn [app].
  - split; [intro L; inversion L; subst; [right; auto|]|intros [L|[_ L]]; [inversion L|now apply lex_head]].
    match goal with K : lex_lt [] [] |- _ => inversion K end.
  - cbn in H. split.
    + intro L. inversion L; subst; [left; now apply lex_head|]. match goal with J : lex_lt (_ ++ _) _ |- _ => apply IH in J as [K|[-> K]] end; [left; now apply lex_tail|right; auto|lia].
    + intros [L|[[= <- <-] L]].
      * inversion L; subst; [now apply lex_head|]. apply lex_tail. apply IH; [lia|now left].
      * apply lex_tail. apply IH; [lia|right; auto].
Qed.
Lemma colex_cons a b x y : length x = length y -> (colex_lt (a :: x) (b :: y) <-> colex_lt x y \/ x = y /\ a < b).
Proof.
  intro H. unfold colex_lt. cbn [rev]. rewrite lex_snoc by (rewrite !rev_length; exact H). split; intros [L|[E L]]; auto; right; split; auto.
  - rewrite <- (rev_involutive x), E. apply rev_involutive.
  - now subst.
Qed.
Lemma colex_irr x : ~ colex_lt x x.
Proof. apply lex_irr. Qed.
Lemma colex_trans x y z : colex_lt x y -> colex_lt y z -> colex_lt x z.
Proof. apply lex_trans. Qed.
Definition cnext (n : nat) (x : list nat) : option (list nat) :=
  match x with [] => None | _ => let (y, e) := inc_exclusive n 0 x in if e then None else Some y end.
Lemma inc_exclusive_spec n x : forall j, x <> [] -> gapped 1 n j x ->
  let (y, e) := inc_exclusive n j x in
  if e then forall z, length z = length x -> gapped 1 n j z -> ~ colex_lt x z
  else (gapped 1 n j y /\ length y = length x) /\ colex_lt x y /\
       forall z, length z = length x -> gapped 1 n j z -> colex_lt x z -> z = y \/ colex_lt y z.
Proof.
  induction x as [|a x IH]; intros j Nx G; [congruence|]. cbn [inc_exclusive]. destruct G as (G1 & G2 & G3). destruct x as [|b x].
  - destruct (Nat.leb_spec n (S a)) as [F|F].
    + intros z Hz Gz L. destruct z as [|c [|? ?]]; try discriminate. destruct Gz as (Z1 & Z2 & _).
      apply colex_cons in L; [|reflexivity]. destruct L as [L|[_ L]]; [inversion L|lia].
    + split; [cbn; lia|]. split; [apply colex_cons; auto|]. intros z Hz Gz L. destruct z as [|c [|? ?]]; try discriminate.
      apply colex_cons in L; [|reflexivity]. destruct L as [L|[_ L]]; [inversion L|].
      destruct (Nat.eq_dec c (S a)) as [->|D]; [now left|right]. apply colex_cons; [reflexivity|]. right. split; [reflexivity|lia].
  - specialize (IH (S j) ltac:(discriminate)). assert (G4 : gapped 1 n (S j) (b :: x)) by (eapply gapped_weaken; [|exact G3]; lia).
    specialize (IH G4). destruct (Nat.leb_spec b (S a)) as [F|F].
    + destruct (inc_exclusive n (S j) (b :: x)) as [y e]. destruct e.
      * intros z Hz Gz L. destruct z as [|c z]; [discriminate|]. cbn [length] in Hz. destruct Gz as (Z1 & Z2 & Z3).
        apply colex_cons in L; [|cbn; lia]. destruct L as [L|[E L]].
        -- eapply IH; [|eapply gapped_weaken; [|exact Z3]; lia|exact L]. cbn; lia.
        -- subst z. destruct Z3 as (Z3 & _). lia.
      * destruct IH as ((Y1 & Y2) & Y3 & Y4). split; [split; [|cbn in *; lia]|].
        -- cbn. split; [lia|]. split; [lia|]. rewrite Nat.add_1_r. exact Y1.
        -- split; [apply colex_cons; [now symmetry|now left]|].
           intros z Hz Gz L. destruct z as [|c z]; [discriminate|]. cbn [length] in Hz. destruct Gz as (Z1 & Z2 & Z3).
           apply colex_cons in L; [|cbn; lia]. destruct L as [L|[E L]].
           ++ assert (Gz : gapped 1 n (S j) z) by (eapply gapped_weaken; [|exact Z3]; lia).
              destruct (Y4 z ltac:(cbn; lia) Gz L) as [->|K].
              ** destruct (Nat.eq_dec c j) as [->|D]; [now left|right]. apply colex_cons; [reflexivity|]. right. split; [reflexivity|lia].
              ** right. apply colex_cons; [cbn in *; lia|now left].
           ++ subst z. destruct Z3 as (Z3 & _). lia.
    + split; [split; [|reflexivity]|].
      * cbn [gapped]. cbn in G3. intuition lia.
      * split; [apply colex_cons; [reflexivity|right; auto]|].
        intros z Hz Gz L. destruct z as [|c z]; [discriminate|]. cbn [length] in Hz. destruct Gz as (Z1 & Z2 & Z3).
        apply colex_cons in L; [|cbn; lia]. destruct L as [L|[<- L]].
        -- right. apply colex_cons; [cbn; lia|now left].
        -- destruct (Nat.eq_dec c (S a)) as [->|D]; [now left|right]. apply colex_cons; [reflexivity|]. right. split; [reflexivity|lia].
Qed.
Fixpoint clist (n k : nat) : list (list nat) :=
  match n, k with
  | _, O => [[]]
  | O, S _ => []
  | S n', S k' => clist n' (S k') ++ map (fun x => x ++ [n']) (clist n' k')
  end.
Lemma clist_length n : forall k, length (clist n k) = binomial n k.
Proof.
  induction n as [|n IH]; intros [|k]; try reflexivity. cbn [clist binomial]. rewrite app_length, map_length, !IH. lia.
Qed.
Lemma sorted_snoc (R : nat -> nat -> Prop) x a : StronglySorted R (x ++ [a]) <-> StronglySorted R x /\ Forall (fun b => R b a) x.
Proof.
  induction x as [|b x IH]; cbn.
  - split; [intros _; split; constructor|intros _; repeat constructor].
  - split.
    + intro H. apply StronglySorted_inv in H as [H F]. apply IH in H as [H1 H2]. apply Forall_app in F as [F1 F2].
      split; [now constructor|]. constructor; [now apply Forall_inv in F2|exact H2].
    + intros [H1 H2]. apply StronglySorted_inv in H1 as [H1 F]. inversion H2; subst. constructor; [apply IH; auto|].
      apply Forall_app. split; [exact F|]. repeat constructor. assumption.
Qed.
Lemma subset_succ n k x : subset_of (S n) (S k) x <-> subset_of n (S k) x \/ exists y, x = y ++ [n] /\ subset_of n k y.
Proof.
  unfold subset_of. split.
  - intros (L & S & F). destruct (exists_last (l := x)) as (y & a & ->); [intros ->; discriminate|].
    apply sorted_snoc in S as [S B]. apply Forall_app in F as [F1 F2]. apply Forall_inv in F2. rewrite app_length in L. cbn in L.
    assert (Fy : Forall (fun c => c < n) y).
    { eapply Forall_impl; [|exact B]. cbn. lia. }
    destruct (Nat.eq_dec a n) as [->|D].
    + right. exists y. split; [reflexivity|]. split; [lia|]. auto.
    + left. split; [rewrite app_length; cbn; lia|]. split; [apply sorted_snoc; auto|]. apply Forall_app. split; [exact Fy|]. repeat constructor. lia.
  - intros [(L & S & F)|(y & -> & L & S & F)].
    + split; [exact L|]. split; [exact S|]. eapply Forall_impl; [|exact F]. cbn. lia.
    + split; [rewrite app_length; cbn; lia|]. split; [apply sorted_snoc; auto|]. apply Forall_app. split; [|repeat constructor; lia].
      eapply Forall_impl; [|exact F]. cbn. lia.
Qed.
Lemma clist_spec n : forall k, lists_in_order colex_lt (subset_of n k) (clist n k).
Proof.
  induction n as [|n IH]; intros [|k].
  - split; [repeat constructor|]. intro x. unfold subset_of. cbn. split; [intros [<-|[]]; repeat split; constructor|].
    intros [H _]. left. symmetry. now apply length_zero_iff_nil.
  - split; [constructor|]. intro x. unfold subset_of. split; [intros []|]. intros (L & _ & F). destruct x as [|a x]; [discriminate|]. apply Forall_inv in F. lia.
  - split; [repeat constructor|]. intro x. unfold subset_of. cbn. split; [intros [<-|[]]; repeat split; constructor|].
    intros [H _]. left. symmetry. now apply length_zero_iff_nil.
  - destruct (IH (S k)) as [S1 M1]. destruct (IH k) as [S2 M2]. cbn [clist]. split.
    + apply sorted_app; [exact S1| |].
      * clear M2. induction S2 as [|x l S2 IHl F]; cbn; [constructor|]. constructor; [exact IHl|]. rewrite Forall_map.
        eapply Forall_impl; [|exact F]. intros y Hy. unfold colex_lt. rewrite !rev_app_distr. now apply lex_tail.
      * intros a b Ia Ib. apply in_map_iff in Ib as (y & <- & _). apply M1 in Ia as (L & _ & F).
        unfold colex_lt. rewrite rev_app_distr. destruct (exists_last (l := a)) as (u & c & ->); [intros ->; discriminate|].
        rewrite rev_app_distr. apply lex_head. apply Forall_app in F as [_ F]. now apply Forall_inv in F.
    + intro x. rewrite in_app_iff, in_map_iff, M1, subset_succ. split.
      * intros [H|(y & <- & Hy)]; [now left|right]. exists y. split; [reflexivity|]. now apply M2.
      * intros [H|(y & -> & Hy)]; [now left|right]. exists y. split; [reflexivity|]. now apply M2.
Qed.
Lemma gfill_colex k : forall n lo z, length z = k -> gapped 1 n lo z -> z = gfill 1 lo k \/ colex_lt (gfill 1 lo k) z.
Proof.
  induction k as [|k IH]; intros n lo z Hz G.
  - left. now apply length_zero_iff_nil in Hz.
  - destruct z as [|b z]; [discriminate|]. cbn in Hz. destruct G as (G1 & G2 & G3). cbn.
    assert (G4 : gapped 1 n (lo + 1) z) by (eapply gapped_weaken; [|exact G3]; lia).
    destruct (IH n (lo + 1) z ltac:(lia) G4) as [->|L].
    + destruct (Nat.eq_dec b lo) as [->|D]; [now left|right]. apply colex_cons; [reflexivity|]. right. split; [reflexivity|lia].
    + right. apply colex_cons; [rewrite gfill_length; lia|now left].
Qed.
Lemma subset_okx n k x : subset_of n k x <-> okx 1 n k x.
Proof. unfold subset_of, okx. rewrite gapped_1. pose proof (all_ge_0 x). tauto. Qed.
Lemma cchain n k : k <= n -> chain (cnext n) (seq 0 k) (clist n k).
Proof.
  intro Hk. rewrite <- gfill_1. apply (chain_from_least colex_lt (subset_of n k)).
  - exact colex_irr.
  - exact colex_trans.
  - intros x y Px E. apply subset_okx in Px as [L G]. unfold cnext in E. destruct x as [|a x]; [discriminate|].
    pose proof (inc_exclusive_spec n (a :: x) 0 ltac:(discriminate) G) as H. destruct (inc_exclusive n 0 (a :: x)) as [y' e]. destruct e; [discriminate|].
    injection E as ->. destruct H as ((H1 & H2) & H3 & H4). split; [apply subset_okx; split; [lia|exact H1]|]. split; [exact H3|].
    intros z Pz K. apply subset_okx in Pz as [Lz Gz]. apply H4; [lia|exact Gz|exact K].
  - intros x Px E z Pz. apply subset_okx in Px as [L G]. apply subset_okx in Pz as [Lz Gz]. destruct x as [|a x].
    + destruct z; [|cbn in *; lia]. apply colex_irr.
    + unfold cnext in E. pose proof (inc_exclusive_spec n (a :: x) 0 ltac:(discriminate) G) as H. destruct (inc_exclusive n 0 (a :: x)) as [y' e].
      destruct e; [|discriminate]. apply H; [lia|exact Gz].
  - apply clist_spec.
  - apply subset_okx. split; [apply gfill_length|]. apply gfill_gapped. lia.
  - intros z Pz. apply subset_okx in Pz as [Lz Gz]. eapply gfill_colex; eauto.
Qed.
(** one step of the exclusive iterator *)
Lemma comb_step_excl n k x : length x = k ->
  match cnext n x with
  | Some y => comb_step false (mk_comb n k x false) = Ret (mk_comb n k y false)
  | None => exists y, comb_step false (mk_comb n k x false) = Ret (mk_comb n k y true)
  end.
Proof.
  intro L. unfold cnext, comb_step. cbn [cb_k cb_n cb_indices]. destruct x as [|a x].
  - cbn in L. subst k. exists []. reflexivity.
  - destruct (Nat.eqb_spec k 0); [cbn in L; lia|]. destruct (inc_exclusive n 0 (a :: x)) as [y e]. destruct e; [now exists y|reflexivity].
Qed.
Lemma cnext_subset n k x y : subset_of n k x -> cnext n x = Some y -> subset_of n k y.
Proof.
  intros P E. apply subset_okx in P as [L G]. unfold cnext in E. destruct x as [|a x]; [discriminate|].
  pose proof (inc_exclusive_spec n (a :: x) 0 ltac:(discriminate) G) as H. destruct (inc_exclusive n 0 (a :: x)) as [y' e]. destruct e; [discriminate|].
  injection E as ->. destruct H as ((H1 & H2) & _). apply subset_okx. split; [lia|exact H1].
Qed.
Lemma seq_subset n k : k <= n -> subset_of n k (seq 0 k).
Proof. intro H. rewrite <- gfill_1. apply subset_okx. split; [apply gfill_length|]. apply gfill_gapped. lia. Qed.
Lemma excl_run_spec fuel n k : k <= n -> binomial n k <= fuel -> comb_run false fuel n k = Ret (clist n k).
Proof.
  intros Hk Hf. unfold comb_run, comb_start. apply run_remains; [|rewrite clist_length; exact Hf].
  pose proof (cchain n k Hk) as C. pose proof (seq_subset n k Hk) as P. revert C P. generalize (seq 0 k) as x. intros x C. 
  induction C as [x E|x y l E C IH]; intro P; pose proof (comb_step_excl n k x (proj1 P)) as H; rewrite E in H.
  - destruct H as [y H]. apply (rem_step cb_end cb_indices (comb_step false) (mk_comb n k x false) (mk_comb n k y true)); [reflexivity|exact H|now apply rem_done].
  - apply (rem_step cb_end cb_indices (comb_step false) (mk_comb n k x false) (mk_comb n k y false)); [reflexivity|exact H|]. apply IH. eapply cnext_subset; eauto.
Qed.

(* ------------------------------------------------------------ PartitionIterator *)
Lemma in_list_spec x i : in_list x i = true <-> In i x.
Proof. unfold in_list. destruct (in_dec Nat.eq_dec i x); split; auto; discriminate. Qed.
Lemma in_list_ext x y i : (In i x <-> In i y) -> in_list x i = in_list y i.
Proof. intro H. apply eq_true_iff_eq. now rewrite !in_list_spec. Qed.
Lemma parts_scan_spec : forall left i prim, StronglySorted lt prim -> Forall (fun a => i <= a < i + left) prim ->
  parts_scan i left (left - length prim) prim = (filter (fun a => negb (in_list prim a)) (seq i left), map (in_list prim) (seq i left)).
Proof.
  induction left as [|left IH]; intros i prim So F.
  - reflexivity.
  - assert (Len : length prim <= S left).
    { clear IH. revert i left So F. induction prim as [|p prim IHp]; intros i left So F; cbn; [lia|]. apply StronglySorted_inv in So as [So Fp].
      pose proof (Forall_inv F) as Hp. apply Forall_inv_tail in F. destruct left as [|left].
      - destruct prim as [|q prim]; [cbn; lia|]. apply Forall_inv in Fp. apply Forall_inv in F. lia.
      - specialize (IHp (i + 1) left So). apply le_n_S. apply IHp. rewrite Forall_forall in *. intros a Ha. specialize (Fp a Ha). specialize (F a Ha). lia. }
    destruct (S left - length prim) as [|room] eqn:R.
    + (* every remaining index is in the primary part *)
      cbn [parts_scan].
      assert (All : forall a, i <= a < i + S left -> In a prim).
      { intros a Ha. assert (Nd : NoDup prim).
        { clear - So. induction So as [|p l So IHl Fp]; constructor; auto. intro I. rewrite Forall_forall in Fp. specialize (Fp p I). lia. }
        assert (Inc : incl (seq i (S left)) prim).
        { apply NoDup_length_incl; [exact Nd|rewrite seq_length; lia|]. intros b Hb. rewrite Forall_forall in F. specialize (F b Hb). apply in_seq. lia. }
        apply Inc, in_seq. lia. }
      f_equal.
      * symmetry. clear - All. assert (H : forall a, In a (seq i (S left)) -> in_list prim a = true).
        { intros a Ha. apply in_seq in Ha. apply in_list_spec, All. lia. }
        revert H. generalize (seq i (S left)) as l. induction l as [|a l IHl]; intro H; [reflexivity|]. cbn. rewrite H by now left. cbn. apply IHl. intros b Hb. apply H. now right.
      * symmetry. clear - All. assert (H : forall a, In a (seq i (S left)) -> in_list prim a = true).
        { intros a Ha. apply in_seq in Ha. apply in_list_spec, All. lia. }
        transitivity (map (fun _ : nat => true) (seq i (S left))); [apply map_ext_in; exact H|]. 
        replace (S left) with (length (seq i (S left))) at 2 by apply seq_length. generalize (seq i (S left)). induction l as [|a l IHl]; cbn; [reflexivity|]. now rewrite IHl.
    + cbn [parts_scan]. destruct prim as [|p prim].
      * specialize (IH (S i) [] So (Forall_nil _)). cbn [length] in *. replace (left - 0) with room in IH by lia. rewrite IH. reflexivity.
      * pose proof (Forall_inv F) as Hp. apply StronglySorted_inv in So as [So Fp]. cbn [length] in *. destruct (Nat.eqb_spec p i) as [->|D].
        -- specialize (IH (Datatypes.S i) prim So). replace (left - length prim) with (Datatypes.S room) in IH by lia. rewrite IH.
           ++ cbn [seq filter map]. replace (in_list (i :: prim) i) with true by (symmetry; apply in_list_spec; now left). cbn [negb]. f_equal.
              ** apply filter_ext_in. intros a Ha. apply in_seq in Ha. f_equal. apply in_list_ext. cbn. split; [auto|]. intros [E|?]; [lia|assumption].
              ** f_equal. apply map_ext_in. intros a Ha. apply in_seq in Ha. apply in_list_ext. cbn. split; [auto|]. intros [E|?]; [lia|assumption].
           ++ rewrite Forall_forall in *. intros a Ha. specialize (Fp a Ha). specialize (F a ltac:(now right)). lia.
        -- specialize (IH (Datatypes.S i) (p :: prim) ltac:(now constructor)). cbn [length] in IH. replace (left - Datatypes.S (length prim)) with room in IH by lia. rewrite IH.
           ++ cbn [seq filter map]. replace (in_list (p :: prim) i) with false; [reflexivity|].
              symmetry. apply not_true_is_false. rewrite in_list_spec. cbn. intros [E|I]; [congruence|]. rewrite Forall_forall in Fp. specialize (Fp i I). lia.
           ++ rewrite Forall_forall in *. intros a Ha. pose proof (F a Ha). destruct Ha as [<-|Ha]; [lia|]. specialize (Fp a Ha). lia.
Qed.
Definition parts_of (n : nat) (x : list nat) : list nat * list nat * list bool := (x, complement_of n x, membership n x).
Lemma complement_length n k x : subset_of n k x -> length (complement_of n x) = n - k.
Proof.
  intros (L & S & F). unfold complement_of.
  assert (Nd : NoDup x).
  { clear - S. induction S as [|p l S IHl Fp]; constructor; auto. intro I. rewrite Forall_forall in Fp. specialize (Fp p I). lia. }
  assert (E : length (filter (in_list x) (seq 0 n)) = k).
  { rewrite <- L. apply Nat.le_antisymm.
    - apply NoDup_incl_length; [apply NoDup_filter, seq_NoDup|]. intros a Ha. apply filter_In in Ha as [_ Ha]. now apply in_list_spec.
    - apply NoDup_incl_length; [exact Nd|]. intros a Ha. apply filter_In. split; [apply in_seq; rewrite Forall_forall in F; specialize (F a Ha); lia|now apply in_list_spec]. }
  assert (T : length (filter (in_list x) (seq 0 n)) + length (filter (fun i => negb (in_list x i)) (seq 0 n)) = n).
  { rewrite <- (seq_length n 0) at 3. generalize (seq 0 n). induction l as [|a l IHl]; [reflexivity|]. cbn. destruct (in_list x a); cbn; lia. }
  lia.
Qed.
Lemma parts_step_spec n k x : subset_of n k x ->
  match cnext n x with
  | Some y => parts_step (mk_parts (mk_comb n k x false) (complement_of n x) (membership n x) false) =
              Ret (mk_parts (mk_comb n k y false) (complement_of n y) (membership n y) false)
  | None => exists st, parts_step (mk_parts (mk_comb n k x false) (complement_of n x) (membership n x) false) = Ret st /\ pt_done st = true
  end.
Proof.
  intro P. unfold parts_step. cbn [pt_primary pt_complement pt_bits]. pose proof (comb_step_excl n k x (proj1 P)) as H.
  destruct (cnext n x) as [y|] eqn:E.
  - rewrite H. cbn [bind cb_end cb_n cb_indices]. pose proof (cnext_subset n k x y P E) as Py. destruct Py as (Ly & Sy & Fy) eqn:EP.
    rewrite (complement_length n k x P). rewrite <- Ly at 1.
    rewrite parts_scan_spec; [|exact Sy|]; [|eapply Forall_impl; [|exact Fy]; cbn; lia].
    fold (complement_of n y). fold (membership n y). do 2 f_equal. rewrite skipn_all2; [now rewrite app_nil_r|].
    rewrite !(complement_length n k); auto.
  - destruct H as [y H]. rewrite H. cbn. eexists. split; reflexivity.
Qed.
Lemma filter_all (f : nat -> bool) l : (forall a, In a l -> f a = true) -> filter f l = l.
Proof. induction l as [|a l IH]; intro H; [reflexivity|]. cbn [filter]. rewrite H by now left. f_equal. apply IH. intros b Hb. apply H. now right. Qed.
Lemma filter_none (f : nat -> bool) l : (forall a, In a l -> f a = false) -> filter f l = [].
Proof. induction l as [|a l IH]; intro H; [reflexivity|]. cbn [filter]. rewrite H by now left. apply IH. intros b Hb. apply H. now right. Qed.
Lemma map_const_list {X} (f : nat -> X) v l : (forall a, In a l -> f a = v) -> map f l = repeat v (length l).
Proof. induction l as [|a l IH]; intro H; [reflexivity|]. cbn. rewrite H by now left. f_equal. apply IH. intros b Hb. apply H. now right. Qed.
Lemma parts_start_spec n k : k <= n -> parts_start n k = mk_parts (mk_comb n k (seq 0 k) false) (complement_of n (seq 0 k)) (membership n (seq 0 k)) false.
Proof.
  intro H. unfold parts_start, comb_start, complement_of, membership.
  assert (E : seq 0 n = seq 0 k ++ seq k (n - k)) by (replace n with (k + (n - k)) at 1 by lia; apply seq_app).
  assert (H1 : forall a, In a (seq 0 k) -> in_list (seq 0 k) a = true) by (intros a Ha; now apply in_list_spec).
  assert (H2 : forall a, In a (seq k (n - k)) -> in_list (seq 0 k) a = false).
  { intros a Ha. apply in_seq in Ha. apply not_true_is_false. rewrite in_list_spec, in_seq. lia. }
  rewrite E, filter_app, map_app. f_equal.
  - rewrite filter_none by (intros a Ha; now rewrite H1). rewrite filter_all by (intros a Ha; now rewrite H2). reflexivity.
  - rewrite (map_const_list _ true _ H1), (map_const_list _ false _ H2), !seq_length. reflexivity.
Qed.
Lemma parts_run_spec fuel n k : k <= n -> binomial n k <= fuel -> parts_run fuel n k = Ret (map (parts_of n) (clist n k)).
Proof.
  intros Hk Hf. unfold parts_run. apply run_remains; [|rewrite map_length, clist_length; exact Hf].
  rewrite parts_start_spec by exact Hk.
  pose proof (cchain n k Hk) as C. pose proof (seq_subset n k Hk) as P. revert C P. generalize (seq 0 k) as x. intros x C.
  induction C as [x E|x y l E C IH]; intro P; pose proof (parts_step_spec n k x P) as H; rewrite E in H; cbn [map];
    change (parts_of n x) with (parts_current (mk_parts (mk_comb n k x false) (complement_of n x) (membership n x) false)).
  - destruct H as (st & H & D). eapply (rem_step pt_done parts_current parts_step); [reflexivity|exact H|now apply rem_done].
  - eapply (rem_step pt_done parts_current parts_step); [reflexivity|exact H|]. apply IH. eapply cnext_subset; eauto.
Qed.

(* ------------------------------------------------------------ combinations(N, K) *)
Fixpoint rising (first : N) (count : nat) : N := match count with O => 1 | S c => first * rising (first + 1) c end%N.
Lemma wrap_product_mod count : forall first acc, (acc < word64)%N -> wrap_product first count acc = ((acc * rising first count) mod word64)%N.
Proof.
  induction count as [|c IH]; intros first acc H; cbn [wrap_product rising].
  - rewrite N.mul_1_r. symmetry. now apply N.mod_small.
  - rewrite IH by (apply N.mod_lt; discriminate). rewrite N.mul_assoc. rewrite N.mul_mod_idemp_l by discriminate. reflexivity.
Qed.
Lemma rising_snoc count : forall first, rising first (S count) = (rising first count * (first + N.of_nat count))%N.
Proof.
  induction count as [|c IH]; intro first.
  - change (first * 1 = 1 * (first + 0))%N. lia.
  - change (rising first (S (S c))) with (first * rising (first + 1) (S c))%N. rewrite IH. cbn [rising]. rewrite <- N.mul_assoc. do 2 f_equal. lia.
Qed.
Lemma rising_1 k : rising 1 k = N.of_nat (fact k).
Proof.
  induction k as [|k IH]; [reflexivity|]. rewrite rising_snoc, IH. change (fact (S k)) with (S k * fact k). lia.
Qed.
Lemma rising_step first count : (first * rising (first + 1) count = rising first count * (first + N.of_nat count))%N.
Proof. now rewrite <- rising_snoc. Qed.
Lemma falling_binomial n : forall k, k <= n -> rising (N.of_nat (n - k + 1)) k = (N.of_nat (binomial n k) * N.of_nat (fact k))%N.
Proof.
  induction n as [|n IH]; intros [|k] H; try lia; try reflexivity.
  cbn [binomial]. destruct (Nat.eq_dec k n) as [->|D].
  - rewrite (binomial_above n (S n)) by lia. specialize (IH n (le_n n)). rewrite Nat.sub_diag in IH. cbn [Nat.add] in IH.
    rewrite Nat.sub_diag. cbn [Nat.add]. rewrite rising_snoc. change (N.of_nat 1) with 1%N in *. rewrite IH. change (fact (S n)) with (S n * fact n). lia.
  - pose proof (IH k ltac:(lia)) as H1. pose proof (IH (S k) ltac:(lia)) as H2.
    replace (S n - S k + 1) with (n - k + 1) by lia.
    rewrite rising_snoc, H1. change (fact (S k)) with (S k * fact k) in *.
    replace (n - S k + 1) with (n - k) in H2 by lia.
    cbn [rising] in H2. replace (N.of_nat (n - k) + 1)%N with (N.of_nat (n - k + 1)) in H2 by lia. rewrite H1 in H2.
    rewrite !Nat2N.inj_mul in *.
    replace (N.of_nat (n - k + 1) + N.of_nat k)%N with (N.of_nat (n - k) + N.of_nat (S k))%N by lia.
    rewrite (Nat2N.inj_add (binomial n k)).
    remember (N.of_nat (n - k)) as u. remember (N.of_nat (S k)) as v. remember (N.of_nat (binomial n k)) as b.
    remember (N.of_nat (binomial n (S k))) as c. remember (N.of_nat (fact k)) as f.
    transitivity (u * (b * f) + b * (v * f))%N; [ring|]. rewrite H2. ring.
Qed.
Lemma combinations_exact n k : k <= n -> (N.of_nat (binomial n k) * N.of_nat (fact k) < word64)%N -> combinations n k = Some (N.of_nat (binomial n k)).
Proof.
  intros Hk B. unfold combinations. rewrite !wrap_product_mod by reflexivity. rewrite !N.mul_1_l, falling_binomial, rising_1 by exact Hk.
  assert (F : (N.of_nat (fact k) < word64)%N).
  { assert (Hb : 0 < binomial n k).
    { clear B. revert k Hk. induction n as [|n IH]; intros [|k] Hk; try lia; [cbn; lia|cbn; lia|]. cbn [binomial]. specialize (IH k ltac:(lia)). lia. }
    remember (N.of_nat (fact k)) as f. nia. }
  rewrite !N.mod_small by assumption. pose proof (lt_O_fact k) as P.
  destruct (N.eqb_spec (N.of_nat (fact k)) 0) as [E|E]; [lia|]. now rewrite N.div_mul.
Qed.
Lemma binomial_positive n k : k <= n -> 0 < binomial n k.
Proof.
  revert k. induction n as [|n IH]; intros [|k] Hk; try lia; [cbn; lia|cbn; lia|]. cbn [binomial]. specialize (IH k ltac:(lia)). lia.
Qed.
