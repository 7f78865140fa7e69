(** Dictionaries: the generic generator. *)
From Coq Require Import List NArith Arith Bool Lia Sorted.
From Verif Require Import CoreModel CoreSpec CoreProofs AlgModel LocModel LocSpec EnumModel EnumSpec EnumProofs DictModel DictSpec.
Import ListNotations.

Notation entry r := (fun w => mk_hseq (hash (N.of_nat r) w) w SPos).
Lemma res_flat_map_pure {A B} (f : A -> res (list B)) (g : A -> list B) l : (forall x, In x l -> f x = Ret (g x)) ->
  res_flat_map f l = Ret (flat_map g l).
Proof.
  induction l as [|x l IH]; intro H; [reflexivity|]. cbn. rewrite (H x) by now left. cbn. rewrite IH by (intros; apply H; now right). reflexivity.
Qed.
Lemma res_flat_map_app {A B} (f : A -> res (list B)) l m : res_flat_map f (l ++ m) = bind (res_flat_map f l) (fun a => bind (res_flat_map f m) (fun b => Ret (a ++ b))).
Proof.
  induction l as [|x l IH]; cbn; [destruct (res_flat_map f m); reflexivity|]. destruct (f x) as [y| |]; [|reflexivity|reflexivity]. cbn. rewrite IH.
  destruct (res_flat_map f l) as [a| |]; [|reflexivity|reflexivity]. cbn. destruct (res_flat_map f m) as [b| |]; [|reflexivity|reflexivity]. cbn. now rewrite app_assoc.
Qed.
Lemma hseq_const_entry r : hseq_const false = entry r [].
Proof. reflexivity. Qed.
Lemma sorted_app {A} (R : A -> A -> Prop) l m : StronglySorted R l -> StronglySorted R m -> (forall x y, In x l -> In y m -> R x y) -> StronglySorted R (l ++ m).
Proof.
  intros Hl Hm H. induction Hl as [|x l Hl IH Hf]; [exact Hm|]. cbn. constructor; [apply IH; intros; apply H; [now right|assumption]|].
  apply Forall_app. split; [exact Hf|]. apply Forall_forall. intros y Hy. apply H; [now left|exact Hy].
Qed.
Lemma sorted_flat_map {A B} (R : A -> A -> Prop) (Q : B -> B -> Prop) (f : A -> list B) l : StronglySorted R l ->
  (forall x, In x l -> StronglySorted Q (f x)) -> (forall x y u v, In x l -> In y l -> R x y -> In u (f x) -> In v (f y) -> Q u v) -> StronglySorted Q (flat_map f l).
Proof.
  intros Hl HS HR. induction Hl as [|x l Hl IH Hf]; [constructor|]. cbn. apply sorted_app.
  - apply HS. now left.
  - apply IH; [intros; apply HS; now right|]. intros x' y' u v Hx Hy. apply HR; now right.
  - intros u v Hu Hv. apply in_flat_map in Hv as (y & Hy & Hv). rewrite Forall_forall in Hf. eapply HR; [now left|right; exact Hy|now apply Hf|exact Hu|exact Hv].
Qed.
Lemma sorted_filter {A} (R : A -> A -> Prop) f l : StronglySorted R l -> StronglySorted R (filter f l).
Proof.
  intro H. induction H as [|x l H IH Hf]; [constructor|]. cbn. destruct (f x); [|exact IH]. constructor; [exact IH|].
  apply Forall_forall. intros y Hy. apply filter_In in Hy as [Hy _]. rewrite Forall_forall in Hf. now apply Hf.
Qed.
Lemma seq_sorted n : forall a, StronglySorted lt (seq a n).
Proof. induction n as [|n IH]; intro a; constructor; [apply IH|]. apply Forall_forall. intros x Hx. apply in_seq in Hx. lia. Qed.

Lemma pow_enough num L fuel : num ^ L <= fuel -> forall len, 0 < len <= L -> num ^ len <= fuel.
Proof.
  intros H len Hl. destruct (Nat.eq_dec num 0) as [->|Z]; [rewrite Nat.pow_0_l by lia; lia|].
  etransitivity; [|exact H]. apply Nat.pow_le_mono_r; lia.
Qed.
(* ------------------------------------------------------------ generic generator *)
Section Generic.
  Variable num : nat.
  Variable canon : word -> res (option hseq).
  Variable P : word -> Prop.
  Local Notation canon_ok := (DictSpec.canon_ok num canon P).
  (** decide [P] through the test *)
  Definition keepb (w : word) : bool := match canon w with Ret (Some _) => true | _ => false end.
  Definition level_words (len : nat) : list word := filter keepb (box (repeat (0, num) len)).
  Lemma level_words_spec L len : canon_ok L -> 0 < len <= L -> lists_in_order lex_lt (fun w => over num w /\ P w /\ length w = len) (level_words len).
  Proof.
    intros C HL. destruct (box_spec (repeat (0, num) len)) as [S M]. split; [now apply sorted_filter|]. intro w. unfold level_words.
    rewrite filter_In, M. change num with (0 + num) at 1. rewrite moi_in_box. cbn [Nat.add]. unfold keepb. split.
    - intros [[E O] K]. assert (Ov : over num w) by (intros o Ho; destruct (O o Ho); assumption).
      destruct (C w Ov ltac:(lia)) as [[p q]|[p q]]; rewrite q in K; [auto|discriminate].
    - intros (Ov & p & E). split; [split; [exact E|intros o Ho; split; [lia|now apply Ov]]|].
      destruct (C w Ov ltac:(lia)) as [[_ q]|[n _]]; [now rewrite q|contradiction].
  Qed.
  Lemma level_run fuel L len : canon_ok L -> 0 < len <= L -> num ^ len <= fuel ->
    bind (moi_run fuel len num 0) (res_flat_map (keep_canonical canon)) = Ret (map (entry num) (level_words len)).
  Proof.
    intros C HL Hf. rewrite moi_run_spec by (lia || assumption). cbn [bind Nat.add].
    rewrite (res_flat_map_pure _ (fun w => if keepb w then [entry num w] else [])).
    - f_equal. unfold level_words. induction (box (repeat (0, num) len)) as [|w l IH]; [reflexivity|]. cbn. destruct (keepb w); cbn; now rewrite IH.
    - intros w Hw. destruct (box_spec (repeat (0, num) len)) as [_ M]. apply M in Hw.
      change num with (0 + num) in Hw at 1. rewrite moi_in_box in Hw. destruct Hw as [E O].
      assert (Ov : over num w) by (intros o Ho; destruct (O o Ho); assumption). unfold keep_canonical, keepb.
      destruct (C w Ov ltac:(lia)) as [[p q]|[p q]]; rewrite q; reflexivity.
  Qed.
  Definition gen_words (L : nat) : list word := [] :: flat_map level_words (seq 1 L).
  Lemma build_generic_run fuel L : canon_ok L -> (forall len, 0 < len <= L -> num ^ len <= fuel) -> build_generic fuel num canon L = Ret (map (entry num) (gen_words L)).
  Proof.
    intros C Hf. unfold build_generic.
    rewrite (res_flat_map_pure _ (fun len => map (entry num) (level_words len))).
    - cbn [bind gen_words map]. rewrite <- hseq_const_entry. do 2 f_equal. induction (seq 1 L) as [|x l IH]; [reflexivity|]. cbn. now rewrite map_app, IH.
    - intros len Hl. apply in_seq in Hl. apply (level_run fuel L); [exact C|lia|]. apply Hf. lia.
  Qed.
  Lemma gen_words_spec L : canon_ok L -> P [] -> lists_in_order shortlex_lt (fun w => (over num w /\ P w) /\ length w <= L) (gen_words L).
  Proof.
    intros C P0. split.
    - unfold gen_words. constructor.
      + apply (sorted_flat_map lt); [apply seq_sorted| |].
        * intros len Hl. apply in_seq in Hl. destruct (level_words_spec L len C ltac:(lia)) as [S M].
          assert (G : forall l, StronglySorted lex_lt l -> (forall w, In w l -> length w = len) -> StronglySorted shortlex_lt l).
          { clear. intros l H. induction H as [|x l H IH Hf]; intro E; constructor; [apply IH; intros; apply E; now right|].
            rewrite Forall_forall in *. intros y Hy. right. split; [rewrite (E x), (E y); [reflexivity|now right|now left]|now apply Hf]. }
          apply G; [exact S|]. intros w Hw. apply M in Hw. tauto.
        * intros a b u v Ha Hb Hab Hu Hv. apply in_seq in Ha, Hb. apply (level_words_spec L a C ltac:(lia)) in Hu. apply (level_words_spec L b C ltac:(lia)) in Hv. left. lia.
      + apply Forall_forall. intros w Hw. apply in_flat_map in Hw as (len & Hl & Hw). apply in_seq in Hl. apply (level_words_spec L len C ltac:(lia)) in Hw.
        left. cbn. lia.
    - intro w. unfold gen_words. cbn [In]. rewrite in_flat_map. split.
      + intros [<-|(len & Hl & Hw)]; [split; [split; [intros o []|exact P0]|cbn; lia]|]. apply in_seq in Hl.
        apply (level_words_spec L len C ltac:(lia)) in Hw. destruct Hw as (A & B & D). split; [tauto|lia].
      + intros [[O p] Hl]. destruct w as [|o w]; [now left|]. right. exists (length (o :: w)). split; [apply in_seq; cbn in *; lia|].
        apply (level_words_spec L _ C); [cbn in *; lia|]. auto.
  Qed.
  Lemma gen_words_prefix L M : L <= M -> gen_words M = gen_words L ++ flat_map level_words (seq (S L) (M - L)).
  Proof.
    intro H. unfold gen_words. cbn [app]. f_equal. rewrite <- flat_map_app. f_equal. rewrite <- seq_app. f_equal. lia.
  Qed.
End Generic.
Lemma generic_dictionary fuel num canon P L : canon_ok num canon P L -> P [] -> num ^ L <= fuel ->
  exists d, build_generic fuel num canon L = Ret d /\ is_dictionary num shortlex_lt (fun w => over num w /\ P w) L d.
Proof.
  intros C P0 Hf. exists (map (entry num) (gen_words num canon L)). split; [apply (build_generic_run num canon P); [exact C|now apply pow_enough]|].
  exists (gen_words num canon L). split; [reflexivity|]. now apply gen_words_spec.
Qed.
Lemma generic_prefix fuel num canon P L M : L <= M -> canon_ok num canon P M -> num ^ M <= fuel ->
  exists d e, build_generic fuel num canon L = Ret d /\ build_generic fuel num canon M = Ret (d ++ e) /\ (forall q, In q e -> L < length (hs_ops q)).
Proof.
  intros H C Hf. exists (map (entry num) (gen_words num canon L)), (map (entry num) (flat_map (level_words num canon) (seq (S L) (M - L)))).
  assert (CL : canon_ok num canon P L). { intros w O E. apply C; [exact O|lia]. }
  pose proof (pow_enough num M fuel Hf) as E. split; [|split].
  - apply (build_generic_run num canon P); [exact CL|]. intros; apply E; lia.
  - rewrite <- map_app, <- gen_words_prefix by exact H. now apply (build_generic_run num canon P).
  - intros q Hq. apply in_map_iff in Hq as (w & <- & Hw). apply in_flat_map in Hw as (len & Hl & Hw). apply in_seq in Hl.
    apply (level_words_spec num canon P M len C ltac:(lia)) in Hw. cbn [hs_ops]. lia.
Qed.
Lemma hash_sorted num R L d P : (count_words (N.of_nat num) L < two64)%N -> is_dictionary num R (fun w => over num w /\ P w) L d ->
  (forall u v, R u v -> shortlex_lt u v) -> StronglySorted (fun a b => (hs_hash a < hs_hash b)%N) d.
Proof.
  intros S (ws & -> & Sw & M) RS. assert (G : forall w, In w ws -> over num w /\ length w <= L) by (intros w Hw; apply M in Hw; tauto). clear M.
  induction Sw as [|u ws Sw IH Hf]; [constructor|]. cbn. constructor; [apply IH; intros; apply G; now right|].
  rewrite Forall_map. rewrite Forall_forall in *. intros v Hv. cbn.
  destruct (G u (or_introl eq_refl)), (G v (or_intror Hv)). apply (hash_order num L); try assumption. apply RS, Hf, Hv.
Qed.
Lemma dictionary_unique num R P L d e : (forall u, ~ R u u) -> (forall u v w, R u v -> R v w -> R u w) ->
  is_dictionary num R P L d -> is_dictionary num R P L e -> d = e.
Proof.
  intros Irr Tr (u & -> & Su & Mu) (v & -> & Sv & Mv). f_equal.
  assert (E : forall w, In w u <-> In w v) by (intro w; rewrite Mu, Mv; reflexivity). clear Mu Mv. revert v Sv E.
  induction Su as [|x u Su IH Hx]; intros v Sv E.
  - destruct v as [|y v]; [reflexivity|]. destruct (proj2 (E y)). now left.
  - destruct Sv as [|y v Sv Hy]; [destruct (proj1 (E x)); now left|]. rewrite Forall_forall in *.
    assert (x = y) as <-.
    { destruct (proj1 (E x) (or_introl eq_refl)) as [Q|Q]; [now symmetry|]. destruct (proj2 (E y) (or_introl eq_refl)) as [Q'|Q']; [exact Q'|].
      exfalso. apply (Irr x). eapply Tr; [apply Hx, Q'|apply Hy, Q]. }
    f_equal. apply IH; [exact Sv|]. intro w. split; intro Hw.
    + destruct (proj1 (E w) (or_intror Hw)) as [Q|Q]; [|exact Q]. subst. exfalso. apply (Irr w), Hx, Hw.
    + destruct (proj2 (E w) (or_intror Hw)) as [Q|Q]; [|exact Q]. subst. exfalso. apply (Irr w), Hy, Hw.
Qed.
