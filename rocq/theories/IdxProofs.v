(** Storages of indices are maps. *)
From Coq Require Import List NArith ZArith Arith Bool Lia Sorted.
From Verif Require Import CoreModel CoreSpec CoreProofs FieldModel PolyModel SymModel SymSpec PolySpec TreeModel TreeSpec TreeProofs MsModel PolyFinalProofs IdxModel IdxSpec.
Import ListNotations.
Local Open Scope nat_scope.

Section Generic.
  Context {K : Type} (ok : K -> Prop) (same : K -> K -> Prop) (sameb : K -> K -> bool) (S : storage K) (at_ : st_state S -> K -> option Z).
  Definition first_with (hist : list (K * Z)) (k : K) : option Z := option_map snd (find (fun e => sameb (fst e) k) hist).
  Hypothesis SB : forall a b, ok a -> ok b -> (sameb a b = true <-> same a b).
  Hypothesis At : forall hist k, valid ok hist -> ok k -> at_ (after S hist) k = first_with hist k.
  Hypothesis HF : forall s k, st_find S s k = match at_ s k with Some o => o | None => (-1)%Z end.
  Hypothesis HC : forall hist k, valid ok hist -> ok k -> st_contains S (after S hist) k = match at_ (after S hist) k with Some o => true | None => false end.
  Hypothesis HI : forall hist k o, valid ok hist -> ok k -> (0 <= o)%Z -> snd (st_insert S (after S hist) k o) = match at_ (after S hist) k with Some o' => (o', false) | None => (o, true) end.
  Lemma valid_cons e hist : valid ok (e :: hist) -> ok (fst e) /\ (0 <= snd e)%Z /\ valid ok hist.
  Proof. intros V. destruct e as [k o]. destruct (V k o (or_introl eq_refl)). split; [assumption|]. split; [assumption|]. intros k' o' I. apply V. now right. Qed.
  Lemma first_stored hist k : valid ok hist -> ok k -> forall o, first_with hist k = Some o <-> stored same hist k o.
  Proof.
    intros V Ok o. split.
    - revert V. unfold first_with. induction hist as [|e hist IH]; [discriminate|]. intros V H. apply valid_cons in V. destruct V as [Oe [_ V]]. cbn in H. destruct (sameb (fst e) k) eqn:E.
      + destruct e as [k' o']. cbn in *. injection H as ->. exists [], k', hist. split; [reflexivity|]. split; [now apply SB|intros e []].
      + destruct (IH V H) as [b [k' [l [-> [B C]]]]]. exists (e :: b), k', l. split; [reflexivity|]. split; [exact B|]. intros e' [<-|I]; [|now apply C]. rewrite <- SB by assumption. congruence.
    - intros [b [k' [l [-> [B C]]]]]. revert V. unfold first_with. induction b as [|e b IH]; intros V; cbn in V; apply valid_cons in V; destruct V as [Oe [_ V]].
      + cbn in *. apply SB in B; [|assumption|assumption]. now rewrite B.
      + cbn. destruct (sameb (fst e) k) eqn:E; [|apply IH; [intros; apply C; now right|exact V]]. exfalso. apply (C e); [now left|]. now apply SB.
  Qed.
  Lemma first_missing hist k : valid ok hist -> ok k -> missing same hist k -> first_with hist k = None.
  Proof.
    intros V Ok M. unfold first_with. induction hist as [|e hist IH]; [reflexivity|]. apply valid_cons in V. destruct V as [Oe [_ V]]. cbn. destruct (sameb (fst e) k) eqn:E.
    - exfalso. apply (M e); [now left|]. now apply SB.
    - apply IH; [exact V|]. intros e' I. apply M. now right.
  Qed.
  Lemma faithful_from : faithful ok same S.
  Proof.
    constructor.
    - intros hist k o V Ok H. apply first_stored in H; [|assumption|assumption]. now rewrite HF, At, H.
    - intros hist k V Ok H. apply first_missing in H; [|assumption|assumption]. now rewrite HF, At, H.
    - intros hist k V Ok. rewrite HC, At by assumption. split.
      + destruct (first_with hist k) as [o|] eqn:E; [|discriminate]. intros _. exists o. now apply first_stored.
      + intros [o H]. apply first_stored in H; [|assumption|assumption]. now rewrite H.
    - intros hist k o o' V Ok H G. apply first_stored in H; [|assumption|assumption]. now rewrite HI, At, H.
    - intros hist k o' V Ok H G. apply first_missing in H; [|assumption|assumption]. now rewrite HI, At, H.
  Qed.
End Generic.
Lemma valid_app {K} (ok : K -> Prop) hist e : valid ok (hist ++ [e]) -> valid ok hist /\ ok (fst e) /\ (0 <= snd e)%Z.
Proof. intros V. split; [intros k o I; apply V, in_or_app; now left|]. destruct e as [k o]. apply V, in_or_app. right. now left. Qed.
Lemma after_app {K} (S : storage K) hist e : after S (hist ++ [e]) = fst (st_insert S (after S hist) (fst e) (snd e)).
Proof. unfold after. now rewrite fold_left_app. Qed.
Lemma first_app {K} sameb (hist : list (K * Z)) e k : first_with sameb (hist ++ [e]) k = match first_with sameb hist k with Some o => Some o | None => if sameb (fst e) k then Some (snd e) else None end.
Proof. unfold first_with. induction hist as [|a hist IH]; cbn; [destruct (sameb (fst e) k); reflexivity|]. destruct (sameb (fst a) k); [reflexivity|exact IH]. Qed.

(** * std::map *)
Section Map.
  Context {K : Type} (ok : K -> Prop) (less : K -> K -> bool).
  Hypothesis SW : strict_weak ok less.
  Definition neither (a b : K) : bool := negb (less a b) && negb (less b a).
  Definition good (m : list (K * Z)) : Prop := StronglySorted (fun a b => less (fst a) (fst b) = true) m /\ Forall (fun e => ok (fst e)) m.
  Lemma neither_true a b : neither a b = true <-> less a b = false /\ less b a = false.
  Proof. unfold neither. destruct (less a b), (less b a); cbn; intuition discriminate. Qed.
  Lemma asym a b : ok a -> ok b -> less a b = true -> less b a = false.
  Proof. intros A B E. destruct (less b a) eqn:F; [|reflexivity]. rewrite <- (sw_irr _ _ SW a A). symmetry. now apply (sw_trans _ _ SW a b a). Qed.
  Lemma map_at_first m k : good m -> ok k -> map_at less m k = first_with neither m k.
  Proof.
    intros [So F] Ok. unfold first_with. induction So as [|e m So IH H]; [reflexivity|]. inversion F as [|? ? Oe F']; subst. cbn. unfold neither at 1.
    destruct (less (fst e) k) eqn:E1; cbn; [now apply IH|]. destruct (less k (fst e)) eqn:E2; cbn; [|reflexivity].
    destruct (find (fun e0 => neither (fst e0) k) m) as [e'|] eqn:Fd; [|reflexivity]. exfalso. apply find_some in Fd. destruct Fd as [I N]. apply neither_true in N.
    rewrite Forall_forall in H, F'. pose proof (sw_trans _ _ SW k (fst e) (fst e') Ok Oe (F' _ I) E2 (H _ I)). destruct N; congruence.
  Qed.
  Lemma map_add_good m k o : good m -> ok k -> good (map_add less m k o).
  Proof.
    intros [So F] Ok. split.
    - induction So as [|e m So IH H]; [repeat constructor|]. inversion F as [|? ? Oe F']; subst. cbn. destruct (less (fst e) k) eqn:E1.
      + constructor; [now apply IH|]. clear - H E1. induction m as [|a m IH]; [repeat constructor; exact E1|]. inversion H; subst. cbn. destruct (less (fst a) k); [constructor; auto|]. destruct (less k (fst a)); [|exact H].
        constructor; [exact E1|exact H].
      + destruct (less k (fst e)) eqn:E2; [|now constructor]. constructor; [now constructor|]. constructor; [exact E2|]. rewrite Forall_forall in H, F' |- *. intros e' I. now apply (sw_trans _ _ SW k (fst e) (fst e')); auto.
    - clear So. induction F as [|e m Oe F IH]; [repeat constructor; assumption|]. cbn. destruct (less (fst e) k); [now constructor|]. destruct (less k (fst e)); [constructor; [exact Ok|now constructor]|now constructor].
  Qed.
  Lemma map_add_first m k o k' : good m -> ok k -> ok k' ->
    first_with neither (map_add less m k o) k' = match first_with neither m k' with Some x => Some x | None => if neither k k' then Some o else None end.
  Proof.
    intros [So F] Ok Ok'. unfold first_with. induction So as [|e m So IH H]; [cbn; destruct (neither k k'); reflexivity|]. inversion F as [|? ? Oe F']; subst. cbn. destruct (less (fst e) k) eqn:E1; cbn.
    - destruct (neither (fst e) k') eqn:N; [reflexivity|]. now apply IH.
    - destruct (less k (fst e)) eqn:E2; cbn.
      + destruct (neither k k') eqn:N; cbn.
        * apply neither_true in N. destruct N as [N1 N2].
          assert (Zn : forall e', In e' (e :: m) -> neither (fst e') k' = false).
          { intros e' I. assert (Oe' : ok (fst e')) by (rewrite Forall_forall in F; now apply F).
            assert (less k (fst e') = true) as L by (destruct I as [<-|I]; [exact E2|]; rewrite Forall_forall in H, F'; now apply (sw_trans _ _ SW k (fst e) (fst e')); auto).
            destruct (sw_cotrans _ _ SW k k' (fst e') Ok Ok' Oe' L) as [X|X]; [congruence|]. unfold neither. rewrite X. apply andb_false_r. }
          rewrite (Zn e (or_introl eq_refl)). replace (find (fun e0 => neither (fst e0) k') m) with (@None (K * Z)); [reflexivity|]. symmetry.
          destruct (find (fun e0 => neither (fst e0) k') m) as [e'|] eqn:Fd; [|reflexivity]. apply find_some in Fd. destruct Fd as [I N]. rewrite (Zn e' (or_intror I)) in N. discriminate.
        * destruct (neither (fst e) k'); [reflexivity|]. destruct (find (fun e0 => neither (fst e0) k') m); reflexivity.
      + destruct (neither (fst e) k') eqn:N; [reflexivity|]. destruct (neither k k') eqn:N2; [|destruct (find (fun e0 => neither (fst e0) k') m); reflexivity]. exfalso.
        apply neither_true in N2. destruct N2 as [N2 N3]. assert (X : neither (fst e) k' = true); [|congruence]. apply neither_true. split.
        * destruct (less (fst e) k') eqn:L; [|reflexivity]. destruct (sw_cotrans _ _ SW (fst e) k k' Oe Ok Ok' L); congruence.
        * destruct (less k' (fst e)) eqn:L; [|reflexivity]. destruct (sw_cotrans _ _ SW k' k (fst e) Ok' Ok Oe L); congruence.
  Qed.
  Lemma map_after hist : valid ok hist -> good (after (map_storage less) hist) /\ forall k, ok k -> first_with neither (after (map_storage less) hist) k = first_with neither hist k.
  Proof.
    induction hist as [|e hist IH] using rev_ind; intros V; [split; [split; constructor|reflexivity]|]. apply valid_app in V. destruct V as [V [Oe _]]. destruct (IH V) as [G A]. rewrite after_app. cbn [map_storage st_insert map_insert fst].
    split; [now apply map_add_good|]. intros k Ok. rewrite map_add_first, A, first_app by assumption. reflexivity.
  Qed.
  Lemma map_values hist : valid ok hist -> Forall (fun e => (0 <= snd e)%Z) (after (map_storage less) hist).
  Proof.
    induction hist as [|e hist IH] using rev_ind; intros V; [constructor|]. apply valid_app in V. destruct V as [V [_ Pe]]. specialize (IH V). rewrite after_app. cbn [map_storage st_insert map_insert fst].
    induction IH as [|a m Pa Pm IH']; [repeat constructor; exact Pe|]. cbn. destruct (less (fst a) (fst e)); [now constructor|]. destruct (less (fst e) (fst a)); [constructor; [exact Pe|now constructor]|now constructor].
  Qed.
  Variable same : K -> K -> Prop.
  Hypothesis SM : forall a b, ok a -> ok b -> (less a b = false /\ less b a = false <-> same a b).
  Lemma map_faithful : faithful ok same (map_storage less).
  Proof.
    apply (faithful_from ok same neither (map_storage less) (map_at less)).
    - intros a b A B. rewrite neither_true. now apply SM.
    - intros hist k V Ok. destruct (map_after hist V) as [G A]. rewrite <- A by exact Ok. now apply map_at_first.
    - reflexivity.
    - reflexivity.
    - reflexivity.
  Qed.
  Lemma polynomial_faithful : faithful ok same (polynomial_storage less).
  Proof.
    apply (faithful_from ok same neither (polynomial_storage less) (map_at less)).
    - intros a b A B. rewrite neither_true. now apply SM.
    - intros hist k V Ok. destruct (map_after hist V) as [G A]. rewrite <- A by exact Ok. now apply map_at_first.
    - reflexivity.
    - intros hist k V Ok. cbn [polynomial_storage st_contains]. unfold map_find. change (after (polynomial_storage less) hist) with (after (map_storage less) hist).
      destruct (map_at less (after (map_storage less) hist) k) as [o|] eqn:E; [|reflexivity]. destruct (map_after hist V) as [G A]. rewrite map_at_first in E by assumption. unfold first_with in E.
      destruct (find _ _) as [e|] eqn:Fd; [|discriminate]. injection E as <-. apply find_some in Fd. pose proof (map_values hist V) as P. rewrite Forall_forall in P. destruct Fd as [I _]. specialize (P _ I). now apply Z.leb_le.
    - reflexivity.
  Qed.
End Map.

(** * Orders of pairs *)
Section Pair.
  Context {A B : Type} (oka : A -> Prop) (okb : B -> Prop) (la : A -> A -> bool) (lb : B -> B -> bool).
  Hypothesis SA : strict_weak oka la.
  Hypothesis SB : strict_weak okb lb.
  Hypothesis EA : forall a b, oka a -> oka b -> la a b = false -> la b a = false -> a = b.
  Definition okp (x : A * B) : Prop := oka (fst x) /\ okb (snd x).
  Lemma lex_true x y : okp x -> okp y -> (lex_pair la lb x y = true <-> la (fst x) (fst y) = true \/ (fst x = fst y /\ lb (snd x) (snd y) = true)).
  Proof.
    intros [X1 X2] [Y1 Y2]. unfold lex_pair. destruct (la (fst x) (fst y)) eqn:E1; [tauto|]. destruct (la (fst y) (fst x)) eqn:E2.
    - split; [discriminate|]. intros [H|[H _]]; [discriminate|]. rewrite H, (sw_irr _ _ SA) in E2; [discriminate|exact Y1].
    - pose proof (EA _ _ X1 Y1 E1 E2). intuition discriminate.
  Qed.
  Lemma lex_sw : strict_weak okp (lex_pair la lb).
  Proof.
    constructor.
    - intros x X. destruct (lex_pair la lb x x) eqn:E; [|reflexivity]. apply lex_true in E; [|exact X|exact X]. destruct X as [X1 X2]. destruct E as [E|[_ E]]; [rewrite (sw_irr _ _ SA) in E|rewrite (sw_irr _ _ SB) in E]; congruence.
    - intros x y z X Y Z. rewrite !lex_true by assumption. destruct X as [X1 X2], Y as [Y1 Y2], Z as [Z1 Z2]. intros [H|[H H']] [G|[G G']].
      + left. now apply (sw_trans _ _ SA _ (fst y)).
      + left. now rewrite <- G.
      + left. now rewrite H.
      + right. split; [congruence|]. now apply (sw_trans _ _ SB _ (snd y)).
    - intros x y z X Y Z. rewrite !lex_true by assumption. destruct X as [X1 X2], Y as [Y1 Y2], Z as [Z1 Z2]. intros [H|[H H']].
      + destruct (la (fst x) (fst y)) eqn:E1; [now left; left|]. destruct (la (fst y) (fst z)) eqn:E2; [now right; left|].
        destruct (sw_cotrans _ _ SA _ (fst y) _ X1 Y1 Z1 H); congruence.
      + destruct (la (fst x) (fst y)) eqn:E1; [now left; left|]. destruct (la (fst y) (fst x)) eqn:E2; [right; left; now rewrite <- H|].
        pose proof (EA _ _ X1 Y1 E1 E2) as E. destruct (sw_cotrans _ _ SB _ (snd y) _ X2 Y2 Z2 H'); [left; right; auto|right; right; split; [congruence|assumption]].
  Qed.
  Lemma lex_tie x y : okp x -> okp y -> (lex_pair la lb x y = false /\ lex_pair la lb y x = false <-> fst x = fst y /\ lb (snd x) (snd y) = false /\ lb (snd y) (snd x) = false).
  Proof.
    intros [X1 X2] [Y1 Y2]. unfold lex_pair. destruct (la (fst x) (fst y)) eqn:E1, (la (fst y) (fst x)) eqn:E2.
    - split; [intros [? ?]; discriminate|]. intros [H _]. rewrite H, (sw_irr _ _ SA) in E1; [discriminate|exact Y1].
    - split; [intros [? ?]; discriminate|]. intros [H _]. rewrite H, (sw_irr _ _ SA) in E1; [discriminate|exact Y1].
    - split; [intros [? ?]; discriminate|]. intros [H _]. rewrite H, (sw_irr _ _ SA) in E2; [discriminate|exact Y1].
    - pose proof (EA _ _ X1 Y1 E1 E2). tauto.
  Qed.
End Pair.
Lemma nat_sw : strict_weak any Nat.ltb.
Proof. constructor; intros *; repeat intros ?; rewrite ?Nat.ltb_lt, ?Nat.ltb_ge in *; lia. Qed.
Lemma nat_tie a b : any a -> any b -> Nat.ltb a b = false -> Nat.ltb b a = false -> a = b.
Proof. rewrite !Nat.ltb_ge. lia. Qed.
Lemma z_sw : strict_weak any Z.ltb.
Proof. constructor; intros *; repeat intros ?; rewrite ?Z.ltb_lt, ?Z.ltb_ge in *; lia. Qed.
Lemma z_tie a b : any a -> any b -> Z.ltb a b = false -> Z.ltb b a = false -> a = b.
Proof. rewrite !Z.ltb_ge. lia. Qed.
Lemma word_sw P : strict_weak P word_less.
Proof. unfold word_less. constructor; intros *; repeat intros ?; rewrite ?N.ltb_lt, ?N.ltb_ge in *; lia. Qed.
Lemma word_tie r L a b : (count_words (N.of_nat r) L < two64)%N -> hashed r L a -> hashed r L b -> (word_less a b = false /\ word_less b a = false <-> hs_ops a = hs_ops b).
Proof.
  intros C [A1 [A2 A3]] [B1 [B2 B3]]. unfold word_less. rewrite !N.ltb_ge, A3, B3. split; [|intros ->; lia].
  intros [H G]. apply (hash_inj r L); auto. lia.
Qed.
Lemma nn_sw : strict_weak any nn_less.
Proof. pose proof (lex_sw any any Nat.ltb Nat.ltb nat_sw nat_sw nat_tie) as [A B C]. constructor; intros; [apply A|apply (B x y z)|apply C]; repeat split; try assumption. Qed.
Lemma nn_tie a b : any a -> any b -> nn_less a b = false -> nn_less b a = false -> a = b.
Proof.
  intros _ _ E F. destruct (proj1 (lex_tie any any Nat.ltb Nat.ltb nat_sw nat_tie a b ltac:(split; exact I) ltac:(split; exact I)) (Logic.conj E F)) as [X [Y Z]].
  pose proof (nat_tie _ _ I I Y Z). destruct a, b. cbn in *. congruence.
Qed.
