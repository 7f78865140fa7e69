(** Odometers and multi-partitions enumerate what they should. *)
From Coq Require Import List NArith Arith Bool Lia Sorted.
From Verif Require Import CoreModel CoreSpec AlgModel EnumModel EnumSpec.
Import ListNotations.

(* ------------------------------------------------------------ running iterators *)
Section Run.
  Context {S X : Type}.
  Variables (done : S -> bool) (cur : S -> X) (step : S -> res S).
  Inductive remains : S -> list X -> Prop :=
  | rem_done : forall st, done st = true -> remains st []
  | rem_step : forall st st' l, done st = false -> step st = Ret st' -> remains st' l -> remains st (cur st :: l).
  Lemma run_remains st l : remains st l -> forall fuel, length l <= fuel -> run_iter fuel done cur step st = Ret l.
  Proof.
    induction 1 as [st D|st st' l D E R IH]; intros fuel Hf.
    - destruct fuel; cbn; rewrite D; reflexivity.
    - destruct fuel as [|f]; cbn in Hf; [lia|]. cbn. rewrite D, E. cbn. rewrite (IH f) by lia. reflexivity.
  Qed.
  Lemma run_needs_fuel st l : remains st l -> forall fuel, fuel < length l -> run_iter fuel done cur step st = NoFuel.
  Proof.
    induction 1 as [st D|st st' l D E R IH]; intros fuel Hf; cbn in Hf; [lia|].
    destruct fuel as [|f]; cbn; rewrite D; [reflexivity|]. rewrite E. cbn. rewrite IH by lia. reflexivity.
  Qed.
End Run.

(* ------------------------------------------------------------ odometers *)
Fixpoint box (range : list (nat * nat)) : list (list nat) :=
  match range with
  | [] => [[]]
  | (lo, hi) :: range' => flat_map (fun a => map (cons a) (box range')) (seq lo (hi - lo))
  end.
Fixpoint box_from (range : list (nat * nat)) (x : list nat) : list (list nat) :=
  match range, x with
  | (lo, hi) :: range', a :: x' =>
      map (cons a) (box_from range' x') ++ flat_map (fun b => map (cons b) (box range')) (seq (S a) (hi - S a))
  | _, _ => [[]]
  end.
Definition lows (range : list (nat * nat)) : list nat := map fst range.
Local Arguments lows : simpl never.
Lemma lows_cons r range : lows (r :: range) = fst r :: lows range.
Proof. reflexivity. Qed.
Definition box_ok (range : list (nat * nat)) : Prop := Forall (fun r => fst r < snd r) range.
Lemma box_from_lows range : box_ok range -> box_from range (lows range) = box range.
Proof.
  induction 1 as [|[lo hi] range H _ IH]; [reflexivity|]. rewrite lows_cons. cbn in *. rewrite IH.
  replace (hi - lo) with (S (hi - S lo)) by lia. reflexivity.
Qed.
Lemma odo_inc_lt full range x : (forall a hi, a <= hi -> full a hi = Nat.eqb a hi) -> in_box range x ->
  let (y, over) := odo_inc full range x in
  if over then y = lows range /\ box_from range x = [x] else in_box range y /\ box_from range x = x :: box_from range y.
Proof.
  intros F. induction 1 as [|[lo hi] a range x H HH IH]; [cbn; auto|]. cbn [fst snd] in H. cbn [odo_inc].
  destruct (odo_inc full range x) as [y over]. destruct over.
  - destruct IH as [-> E]. rewrite F by lia. destruct (Nat.eqb_spec (S a) hi) as [Q|Q].
    + split; [reflexivity|]. cbn. rewrite E. cbn. replace (hi - S a) with 0 by lia. reflexivity.
    + assert (B : box_ok range). { clear - HH. induction HH; constructor; [lia|assumption]. }
      assert (Lw : in_box range (lows range)). { clear - B. induction B; constructor; [lia|assumption]. }
      split; [constructor; [cbn; lia|exact Lw]|]. cbn. rewrite E. cbn. rewrite box_from_lows by exact B.
      replace (hi - S a) with (S (hi - S (S a))) by lia. reflexivity.
  - destruct IH as [B E]. split; [constructor; [exact H|exact B]|]. cbn. rewrite E. reflexivity.
Qed.
Lemma box_spec range : lists_in_order lex_lt (in_box range) (box range).
Proof.
  induction range as [|[lo hi] range [S M]].
  - split; [repeat constructor|]. intro x. cbn. split; [intros [<-|[]]; constructor|]. intro H. inversion H. now left.
  - cbn [box].
    assert (G : forall n lo, StronglySorted lex_lt (flat_map (fun a => map (cons a) (box range)) (seq lo n)) /\
       (forall x, In x (flat_map (fun a => map (cons a) (box range)) (seq lo n)) <-> exists a y, x = a :: y /\ lo <= a < lo + n /\ in_box range y)).
    { clear lo hi. induction n as [|n IH]; intro lo; cbn [seq flat_map].
      - split; [constructor|]. intro x. split; [intros []|]. intros (a & y & _ & H & _). lia.
      - destruct (IH (Datatypes.S lo)) as [S1 M1]. split.
        + assert (K : forall l, StronglySorted lex_lt l -> forall r, StronglySorted lex_lt r -> (forall x, In x r -> exists b y, x = b :: y /\ lo < b) ->
             StronglySorted lex_lt (map (cons lo) l ++ r)).
          { clear. intros l Hl r Hr Hx. induction Hl as [|u l Hl IH Hf]; [exact Hr|]. cbn. constructor; [exact IH|].
            apply Forall_app. split.
            - rewrite Forall_map. eapply Forall_impl; [|exact Hf]. intros v Hv. now apply lex_tail.
            - apply Forall_forall. intros v Hv. destruct (Hx v Hv) as (b & y & -> & L). now apply lex_head. }
          apply K; [exact S|exact S1|]. intros x Hx. apply M1 in Hx as (a & y & -> & L & _). exists a, y. split; [reflexivity|lia].
        + intro x. rewrite in_app_iff, M1, in_map_iff. split.
          * intros [(y & <- & Hy)|(a & y & -> & L & Hy)].
            -- exists lo, y. split; [reflexivity|]. split; [lia|]. now apply M.
            -- exists a, y. split; [reflexivity|]. split; [lia|exact Hy].
          * intros (a & y & -> & L & Hy). destruct (Nat.eq_dec a lo) as [->|D].
            -- left. exists y. split; [reflexivity|]. now apply M.
            -- right. exists a, y. split; [reflexivity|]. split; [lia|exact Hy]. }
    destruct (G (hi - lo) lo) as [G1 G2]. split; [exact G1|]. intro x. rewrite G2. split.
    + intros (a & y & -> & L & Hy). constructor; [cbn; lia|exact Hy].
    + intro H. inversion H as [|r a range' y L Hy]; subst. cbn in L. exists a, y. split; [reflexivity|]. split; [lia|exact Hy].
Qed.

Lemma eqb_full a hi : a <= hi -> Nat.eqb a hi = Nat.eqb a hi. Proof. reflexivity. Qed.
Lemma leb_full a hi : a <= hi -> Nat.leb hi a = Nat.eqb a hi.
Proof. intro H. destruct (Nat.leb_spec hi a), (Nat.eqb_spec a hi); try reflexivity; lia. Qed.
Lemma box_length range : length (box range) = fold_right (fun r n => (snd r - fst r) * n) 1 range.
Proof.
  induction range as [|[lo hi] range IH]; [reflexivity|]. cbn [box fold_right fst snd]. generalize (hi - lo) as n. intro n. revert lo.
  induction n as [|n IHn]; intro lo; cbn; [reflexivity|]. rewrite app_length, map_length, IHn, IH. lia.
Qed.
Lemma box_repeat_length lo hi len : length (box (repeat (lo, hi) len)) = (hi - lo) ^ len.
Proof. rewrite box_length. induction len as [|n IH]; cbn; [reflexivity|]. rewrite IH. reflexivity. Qed.
Lemma box_nil_iff range : Exists (fun r => snd r <= fst r) range -> box range = [].
Proof.
  intro H. apply length_zero_iff_nil. rewrite box_length. induction H as [r range H|r range H IH]; cbn.
  - replace (snd r - fst r) with 0 by lia. reflexivity.
  - rewrite IH. lia.
Qed.

Lemma moi_remains range x : in_box range x ->
  remains moi_done moi_indices moi_step (mk_moi range x false) (box_from range x).
Proof.
  intro H. remember (length (box_from range x)) as n eqn:E. revert x H E.
  induction n as [n IH] using lt_wf_ind. intros x H E.
  pose proof (odo_inc_lt Nat.eqb range x eqb_full H) as Q.
  destruct (odo_inc Nat.eqb range x) as [y over] eqn:O. destruct over; destruct Q as [Q1 Q2].
  - rewrite Q2. apply (rem_step moi_done moi_indices moi_step (mk_moi range x false) (mk_moi range y true)).
    + reflexivity.
    + unfold moi_step. cbn. rewrite O. reflexivity.
    + now apply rem_done.
  - rewrite Q2 in *. cbn in E. apply (rem_step moi_done moi_indices moi_step (mk_moi range x false) (mk_moi range y false)).
    + reflexivity.
    + unfold moi_step. cbn. rewrite O. reflexivity.
    + apply (IH (length (box_from range y))); [lia|exact Q1|reflexivity].
Qed.
Lemma lows_repeat lo hi n : lows (repeat (lo, hi) n) = repeat lo n.
Proof. induction n as [|n IH]; [reflexivity|]. cbn [repeat]. rewrite lows_cons, IH. reflexivity. Qed.
Lemma lows_in_box range : box_ok range -> in_box range (lows range).
Proof. induction 1; constructor; [lia|assumption]. Qed.
Lemma moi_run_spec len num offset fuel : 0 < len -> num ^ len <= fuel ->
  moi_run fuel len num offset = Ret (box (repeat (offset, offset + num) len)).
Proof.
  intros HL Hf. unfold moi_run, moi_start.
  assert (Len : length (box (repeat (offset, offset + num) len)) <= fuel).
  { rewrite box_repeat_length. replace (offset + num - offset) with num by lia. exact Hf. }
  destruct (Nat.eqb_spec len 0); [lia|]. cbn [orb]. destruct (Nat.eqb_spec offset (offset + num)) as [Z|Z].
  - rewrite (run_remains moi_done moi_indices moi_step _ []); [|now apply rem_done|cbn; lia].
    rewrite box_nil_iff; [reflexivity|]. destruct len; [lia|]. left. cbn. lia.
  - assert (B : box_ok (repeat (offset, offset + num) len)). { apply Forall_forall. intros r Hr. apply repeat_spec in Hr. subst. cbn. lia. }
    rewrite <- (box_from_lows _ B). apply run_remains; [|rewrite box_from_lows; assumption].
    rewrite <- (lows_repeat offset (offset + num)). apply moi_remains. now apply lows_in_box.
Qed.
Lemma moi_in_box offset num len x : in_box (repeat (offset, offset + num) len) x <-> length x = len /\ forall a, In a x -> offset <= a < offset + num.
Proof.
  revert x. induction len as [|n IH]; intro x; cbn [repeat].
  - split; [intro H; inversion H; split; [reflexivity|intros a []]|]. intros [H _]. apply length_zero_iff_nil in H. subst. constructor.
  - split.
    + intro H. inversion H as [|r a range' y L Hy]; subst. apply IH in Hy as [E M]. cbn in *. split; [now rewrite E|]. intros b [<-|Hb]; [exact L|now apply M].
    + destruct x as [|a x]; [intros [H _]; discriminate|]. intros [H M]. constructor; [apply M; now left|]. apply IH.
      split; [now injection H|]. intros b Hb. apply M. now right.
Qed.
Lemma moi_run_lists len num offset fuel l : 0 < len -> num ^ len <= fuel -> moi_run fuel len num offset = Ret l ->
  lists_in_order lex_lt (fun w => length w = len /\ forall a, In a w -> offset <= a < offset + num) l.
Proof.
  intros HL Hf H. rewrite moi_run_spec in H by assumption. injection H as <-.
  destruct (box_spec (repeat (offset, offset + num) len)) as [S M]. split; [exact S|]. intro x. rewrite M. apply moi_in_box.
Qed.

(* multi-dimensional indices *)
Notation mrange sizes := (map (fun m => (0, m)) sizes).
Lemma mdi_remains sizes x g : in_box (mrange sizes) x ->
  remains mdi_done mdi_indices mdi_step (mk_mdi sizes x g false) (box_from (mrange sizes) x).
Proof.
  intro H. remember (length (box_from (mrange sizes) x)) as n eqn:E. revert x g H E.
  induction n as [n IH] using lt_wf_ind. intros x g H E.
  pose proof (odo_inc_lt (fun a hi => Nat.leb hi a) (mrange sizes) x leb_full H) as Q.
  destruct (odo_inc (fun a hi => Nat.leb hi a) (mrange sizes) x) as [y over] eqn:O. destruct over; destruct Q as [Q1 Q2].
  - rewrite Q2. apply (rem_step mdi_done mdi_indices mdi_step (mk_mdi sizes x g false) (mk_mdi sizes y (S g) true)).
    + reflexivity.
    + unfold mdi_step. cbn [mdi_max mdi_indices]. rewrite O. reflexivity.
    + now apply rem_done.
  - rewrite Q2 in *. cbn in E. apply (rem_step mdi_done mdi_indices mdi_step (mk_mdi sizes x g false) (mk_mdi sizes y (S g) false)).
    + reflexivity.
    + unfold mdi_step. cbn [mdi_max mdi_indices]. rewrite O. reflexivity.
    + apply (IH (length (box_from (mrange sizes) y))); [lia|exact Q1|reflexivity].
Qed.
Lemma mrange_length sizes : length (box (mrange sizes)) = fold_right Nat.mul 1 sizes.
Proof. rewrite box_length. induction sizes as [|m sizes IH]; cbn; [reflexivity|]. rewrite IH, Nat.sub_0_r. reflexivity. Qed.
Lemma lows_mrange sizes : lows (mrange sizes) = repeat 0 (length sizes).
Proof. induction sizes as [|m sizes IH]; [reflexivity|]. cbn [map length repeat]. rewrite lows_cons, IH. reflexivity. Qed.
Lemma mdi_run_spec sizes fuel : sizes <> [] -> fold_right Nat.mul 1 sizes <= fuel -> mdi_run fuel sizes = Ret (box (mrange sizes)).
Proof.
  intros NE Hf. rewrite <- mrange_length in Hf. unfold mdi_run, mdi_start. destruct (Nat.eqb_spec (length sizes) 0) as [Z|_].
  { apply length_zero_iff_nil in Z. contradiction. }
  cbn [orb]. destruct (existsb (Nat.eqb 0) sizes) eqn:E.
  - rewrite (run_remains mdi_done mdi_indices mdi_step _ []); [|now apply rem_done|cbn; lia].
    rewrite box_nil_iff; [reflexivity|]. apply existsb_exists in E as (m & Hm & Q). apply Nat.eqb_eq in Q. subst m.
    apply Exists_exists. exists (0, 0). split; [|cbn; lia]. apply in_map_iff. exists 0. auto.
  - assert (B : box_ok (mrange sizes)).
    { apply Forall_forall. intros r Hr. apply in_map_iff in Hr as (m & <- & Hm). cbn. destruct m; [|lia]. exfalso.
      assert (X : existsb (Nat.eqb 0) sizes = true); [|congruence]. apply existsb_exists. exists 0. auto. }
    rewrite <- (box_from_lows _ B). apply run_remains; [|rewrite box_from_lows; assumption].
    rewrite <- lows_mrange. apply mdi_remains. now apply lows_in_box.
Qed.
