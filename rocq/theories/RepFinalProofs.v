(** Representations of all lengths, for all histories of calls. *)
From Coq Require Import List Arith NArith Bool Lia Sorted.
From Verif Require Import CoreModel AlgModel RepModel RepSpec RepListProofs RepMapProofs.
Import ListNotations.

Section Final.
  Variables (A : algebra) (W : Type) (hash : W -> N) (prod_hash : W -> W -> N) (osg : N -> list W) (ev : W -> vt A).
  Hypothesis OK : words_ok A W hash prod_hash osg ev.
  Variable phis : list (vt A -> vt A).
  Hypothesis phis_mul : Forall (multiplicative A) phis.
  Notation size := (length phis).
  Notation k0 := (s0 A). Notation k1 := (s1 A). Notation ka := (sadd A). Notation km := (smul A).
  Notation rep := (rep (sc A)).
  Definition good_rep (wl : N) (r : rep) : Prop := Forall2 (fun phi d => represents A phi (map ev (osg wl)) d) phis r.
  Definition good_map (wl : N) (m : mapper) : Prop :=
    mp_length m = wl /\ mp_dim m = length (osg wl) /\
    ((2 <= wl)%N -> let (a, b) := parents wl in mp_left m = length (osg a) /\ mp_right m = length (osg b) /\ mp_raw m = length (osg a) * length (osg b) /\ vector_remap hash prod_hash osg a b wl = Some (mp_remap m)).
  Lemma upd_same {X} (f : N -> option X) k v : upd f k v k = Some v. Proof. unfold upd. now rewrite N.eqb_refl. Qed.
  Lemma upd_other {X} (f : N -> option X) k v x : x <> k -> upd f k v x = f x. Proof. intros H. unfold upd. now rewrite (proj2 (N.eqb_neq x k) H). Qed.

  Lemma make_mapper_good wl a b : (2 <= wl)%N -> good_map (fst (parents wl)) a -> good_map (snd (parents wl)) b -> exists m, make_mapper hash prod_hash osg a b wl = Some m /\ good_map wl m.
  Proof.
    intros Hw [La [Da _]] [Lb [Db _]]. destruct (parents_sum wl Hw) as [Es [Hb _]]. destruct (remap_spec A W hash prod_hash osg ev OK (fst (parents wl)) (snd (parents wl)) Hb) as [rm [R _]]. rewrite Es in R.
    unfold make_mapper. rewrite La, Lb, R. eexists. split; [reflexivity|]. split; [reflexivity|]. split; [reflexivity|]. intros _. destruct (parents wl) as [pa pb]. cbn [fst snd mp_left mp_right mp_raw mp_remap] in *. rewrite Da, Db. now repeat split.
  Qed.
  Lemma make_rep_good wl m ra rb : (2 <= wl)%N -> good_map wl m -> good_rep (fst (parents wl)) ra -> good_rep (snd (parents wl)) rb -> exists r, make_rep k0 k1 ka km m ra rb size = Some r /\ good_rep wl r.
  Proof.
    intros Hw [_ [Dm Hm]] Ga Gb. specialize (Hm Hw). destruct (parents_sum wl Hw) as [Es [Hb _]]. destruct (parents wl) as [pa pb]. cbn [fst snd] in *. destruct Hm as [M1 [M2 [M3 M4]]].
    destruct (remap_spec A W hash prod_hash osg ev OK pa pb Hb) as [rm [R [R1 [R2 R3]]]]. rewrite Es in R. rewrite M4 in R. injection R as <-. rewrite Es in R2, R3.
    assert (Em : m = mk_mapper (mp_length m) (length (osg pa)) (length (osg pb)) (length (osg pa) * length (osg pb)) (length (osg wl)) (mp_remap m)) by (destruct m; cbn in *; congruence).
    assert (One : forall phi x y, multiplicative A phi -> represents A phi (map ev (osg pa)) x -> represents A phi (map ev (osg pb)) y -> represents A phi (map ev (osg wl)) (apply_mapper k0 k1 ka km m x y)).
    { intros phi x y P1 P2 P3. rewrite Em. pose proof (one_mapper A (map ev (osg pa)) (map ev (osg pb)) (map ev (osg wl)) (mp_remap m) phi x y) as Z. rewrite !map_length in Z. apply Z; assumption. }
    unfold make_rep. clear Em M1 M2 M3 M4 R1 R2 R3 Dm Hb Es. unfold good_rep in *. revert ra rb Ga Gb phis_mul. generalize phis. induction phis0 as [|phi ps IH]; intros ra rb Ga Gb PM.
    - exists []. split; [reflexivity|constructor].
    - inversion Ga as [|? x ? xs P1 P2 E1]. inversion Gb as [|? y ? ys Q1 Q2 E2]. inversion PM as [|? ? PM1 PM2]. subst. destruct (IH xs ys P2 Q2 PM2) as [r [S1 S2]]. exists (apply_mapper k0 k1 ka km m x y :: r). split; [|constructor; [now apply One|exact S2]].
      cbn [length seq map nth_error sequence]. rewrite <- seq_shift, map_map. cbn [nth_error]. now rewrite S1.
  Qed.

  Definition maps_ok (maps : N -> option mapper) : Prop := maps 1%N <> None /\ forall w m, maps w = Some m -> good_map w m.
  Definition reps_ok (reps : N -> option rep) : Prop := reps 1%N <> None /\ forall w r, reps w = Some r -> good_rep w r.
  Definition within (l : list N) (known : N -> Prop) : Prop :=
    forall w, In w l -> (2 <= w)%N /\ (fst (parents w) = 1%N \/ In (fst (parents w)) l \/ known (fst (parents w))) /\ (snd (parents w) = 1%N \/ In (snd (parents w)) l \/ known (snd (parents w))).
  Lemma within_tail w l known : StronglySorted N.lt (w :: l) -> within (w :: l) known -> within l (fun x => known x \/ x = w).
  Proof. intros _ H x I. destruct (H x (or_intror I)) as [A1 [B C]]. split; [exact A1|]. split; [destruct B as [B|[[B|B]|B]]|destruct C as [C|[[C|C]|C]]]; auto. Qed.
  Lemma head_parents w l known : StronglySorted N.lt (w :: l) -> within (w :: l) known -> (fst (parents w) = 1%N \/ known (fst (parents w))) /\ (snd (parents w) = 1%N \/ known (snd (parents w))).
  Proof.
    intros Hs H. destruct (H w (or_introl eq_refl)) as [A1 [B C]]. destruct (parents_sum w A1) as [E1 [E2 E3]]. inversion_clear Hs as [|? ? _ F]. rewrite Forall_forall in F.
    assert (X : forall x, (x < w)%N -> In x (w :: l) -> False). { intros x Hx [->|I]; [lia|]. specialize (F x I). lia. }
    split; [destruct B as [B|[B|B]]|destruct C as [C|[C|C]]]; auto; exfalso; [apply (X (fst (parents w))); [lia|exact B]|apply (X (snd (parents w))); [lia|exact C]].
  Qed.
  Lemma build_maps_ok : forall todo maps, StronglySorted N.lt todo -> maps_ok maps -> within todo (fun w => maps w <> None) ->
    exists maps', build_maps hash prod_hash osg maps todo = Some maps' /\ maps_ok maps' /\ (forall w m, maps w = Some m -> maps' w = Some m) /\ (forall w, In w todo -> maps' w <> None).
  Proof.
    induction todo as [|wl todo IH]; intros maps Hs Hm Hw; cbn [build_maps]; [exists maps; split; [reflexivity|]; split; [exact Hm|]; split; [auto|contradiction]|]. inversion_clear Hs as [|? ? Hs' Hf]. pose proof (within_tail _ _ _ (SSorted_cons wl Hs' Hf) Hw) as Hw'.
    destruct (maps wl) as [m|] eqn:Em.
    - destruct (IH maps Hs' Hm) as [maps' [R1 [R2 [R3 R4]]]]; [intros x I; destruct (Hw' x I) as [A1 [B C]]; split; [exact A1|]; split; [destruct B as [B|[B|[B| ->]]]|destruct C as [C|[C|[C| ->]]]]; auto; right; right; congruence|].
      exists maps'. split; [exact R1|]. split; [exact R2|]. split; [exact R3|]. intros w [<-|I]; [rewrite (R3 wl m Em); discriminate|now apply R4].
    - destruct (head_parents _ _ _ (SSorted_cons wl Hs' Hf) Hw) as [Pa Pb]. destruct (Hw wl (or_introl eq_refl)) as [H2 _]. pose proof (make_mapper_good wl) as MM. destruct (parents wl) as [a b]. cbn [fst snd] in *.
      assert (Xa : exists ma, maps a = Some ma) by (destruct (maps a) as [ma|] eqn:Q; [now exists ma|]; exfalso; destruct Pa as [->|Pa]; [now apply (proj1 Hm)|now apply Pa]). assert (Xb : exists mb, maps b = Some mb) by (destruct (maps b) as [mb|] eqn:Q; [now exists mb|]; exfalso; destruct Pb as [->|Pb]; [now apply (proj1 Hm)|now apply Pb]).
      destruct Xa as [ma Ea], Xb as [mb Eb]. rewrite Ea, Eb. destruct (MM ma mb H2 (proj2 Hm a ma Ea) (proj2 Hm b mb Eb)) as [m [Mm Gm]]. rewrite Mm.
      assert (K : forall w x, maps w = Some x -> upd maps wl m w = Some x) by (intros w x E; rewrite upd_other; [exact E|intros ->; congruence]).
      destruct (IH (upd maps wl m) Hs') as [maps' [R1 [R2 [R3 R4]]]].
      + split; [destruct (maps 1%N) as [x|] eqn:Q; [rewrite (K 1%N x Q); discriminate|now destruct (proj1 Hm)]|]. intros w x. unfold upd. destruct (N.eqb_spec w wl) as [->|Ne]; [intros E; now injection E as <-|apply (proj2 Hm)].
      + assert (K2 : forall x, maps x <> None \/ x = wl -> upd maps wl m x <> None). { intros x [H| ->]; [destruct (maps x) as [y|] eqn:Q; [rewrite (K x y Q); discriminate|contradiction]|rewrite upd_same; discriminate]. }
        intros x I. destruct (Hw' x I) as [A1 [B C]]. split; [exact A1|]. split; [destruct B as [B|[B|B]]|destruct C as [C|[C|C]]]; auto.
      + exists maps'. split; [exact R1|]. split; [exact R2|]. split; [intros w x E; apply R3, K, E|]. intros w [<-|I]; [rewrite (R3 wl m (upd_same _ _ _)); discriminate|now apply R4].
  Qed.
  Lemma build_reps_ok maps : maps_ok maps -> forall todo reps, StronglySorted N.lt todo -> reps_ok reps -> within todo (fun w => reps w <> None) -> (forall w, In w todo -> reps w = None /\ maps w <> None) ->
    exists reps', build_reps k0 k1 ka km maps size reps todo = Some reps' /\ reps_ok reps' /\ (forall w r, reps w = Some r -> reps' w = Some r) /\ (forall w, In w todo -> reps' w <> None).
  Proof.
    intros Hm. induction todo as [|wl todo IH]; intros reps Hs Hr Hw Hn; cbn [build_reps]; [exists reps; split; [reflexivity|]; split; [exact Hr|]; split; [auto|contradiction]|]. inversion_clear Hs as [|? ? Hs' Hf]. pose proof (within_tail _ _ _ (SSorted_cons wl Hs' Hf) Hw) as Hw'.
    destruct (head_parents _ _ _ (SSorted_cons wl Hs' Hf) Hw) as [Pa Pb]. destruct (Hw wl (or_introl eq_refl)) as [H2 _]. pose proof (make_rep_good wl) as MR. destruct (parents wl) as [a b]. cbn [fst snd] in *.
    assert (Xa : exists ra, reps a = Some ra) by (destruct (reps a) as [ra|] eqn:Q; [now exists ra|]; exfalso; destruct Pa as [->|Pa]; [now apply (proj1 Hr)|now apply Pa]). assert (Xb : exists rb, reps b = Some rb) by (destruct (reps b) as [rb|] eqn:Q; [now exists rb|]; exfalso; destruct Pb as [->|Pb]; [now apply (proj1 Hr)|now apply Pb]).
    destruct Xa as [ra Ea], Xb as [rb Eb]. rewrite Ea, Eb. destruct (Hn wl (or_introl eq_refl)) as [N1 N2]. destruct (maps wl) as [m|] eqn:Em; [|contradiction]. destruct (MR m ra rb H2 (proj2 Hm wl m Em) (proj2 Hr a ra Ea) (proj2 Hr b rb Eb)) as [r [Mr Gr]]. rewrite Mr.
    assert (K : forall w x, reps w = Some x -> upd reps wl r w = Some x) by (intros w x E; rewrite upd_other; [exact E|intros ->; congruence]).
    destruct (IH (upd reps wl r) Hs') as [reps' [R1 [R2 [R3 R4]]]].
    - split; [destruct (reps 1%N) as [x|] eqn:Q; [rewrite (K 1%N x Q); discriminate|now destruct (proj1 Hr)]|]. intros w x. unfold upd. destruct (N.eqb_spec w wl) as [->|Ne]; [intros E; now injection E as <-|apply (proj2 Hr)].
    - assert (K2 : forall x, reps x <> None \/ x = wl -> upd reps wl r x <> None). { intros x [H| ->]; [destruct (reps x) as [y|] eqn:Q; [rewrite (K x y Q); discriminate|contradiction]|rewrite upd_same; discriminate]. }
      intros x I. destruct (Hw' x I) as [A1 [B C]]. split; [exact A1|]. split; [destruct B as [B|[B|B]]|destruct C as [C|[C|C]]]; auto.
    - intros w I. destruct (Hn w (or_intror I)) as [Z1 Z2]. split; [|exact Z2]. rewrite upd_other; [exact Z1|]. intros ->. rewrite Forall_forall in Hf. specialize (Hf wl I). lia.
    - exists reps'. split; [exact R1|]. split; [exact R2|]. split; [intros w x E; apply R3, K, E|]. intros w [<-|I]; [rewrite (R3 wl r (upd_same _ _ _)); discriminate|now apply R4].
  Qed.
  Definition g_ok (g : gstate (sc A)) : Prop := maps_ok (g_maps g) /\ reps_ok (g_reps g).
  Lemma create_ok fuel g wl : g_ok g -> (1 <= wl)%N -> N.size_nat wl <= fuel -> exists g' r, create hash prod_hash osg k0 k1 ka km fuel size g wl = Made g' r /\ g_ok g' /\ good_rep wl r /\ g_reps g' wl = Some r /\ (forall w x, g_reps g w = Some x -> g_reps g' w = Some x).
  Proof.
    intros [Gm Gr] H1 Hf. unfold create. assert (Q0 : (wl =? 0)%N = false) by (apply N.eqb_neq; lia). rewrite Q0. destruct (g_reps g wl) as [r|] eqn:Er.
    - exists g, r. split; [reflexivity|]. split; [now split|]. split; [now apply (proj2 Gr)|]. now split.
    - assert (H2 : (2 <= wl)%N) by (assert (wl <> 1%N) by (intros ->; now apply (proj1 Gr)); lia). destruct (decompose_spec wl H2) as [l [[Sl [[front Fl] [Bl Pl]]] Dl]]. unfold identify_and_build. rewrite (Dl fuel Hf). rewrite Forall_forall in Bl.
      destruct (build_maps_ok l (g_maps g) Sl Gm) as [maps [M1 [M2 [M3 M4]]]]; [intros w I; split; [now apply Bl|]; destruct (Pl w I) as [[B|B] [C|C]]; auto|]. rewrite M1.
      assert (Su : StronglySorted N.lt (unbuilt (g_reps g) l)). { clear - Sl. unfold unbuilt. induction Sl as [|a l S1 IH F]; [constructor|]. cbn. destruct (g_reps g a); [exact IH|]. constructor; [exact IH|]. rewrite Forall_forall in *. intros x I. apply filter_In in I. now apply F. }
      assert (Iu : forall w, In w (unbuilt (g_reps g) l) <-> In w l /\ g_reps g w = None). { intros w. unfold unbuilt. rewrite filter_In. destruct (g_reps g w); intuition discriminate. }
      assert (Iu2 : forall x, In x l -> In x (unbuilt (g_reps g) l) \/ g_reps g x <> None). { intros x I. destruct (g_reps g x) as [y|] eqn:Q; [right; discriminate|left; apply Iu; now split]. }
      destruct (build_reps_ok maps M2 (unbuilt (g_reps g) l) (g_reps g) Su Gr) as [reps [R1 [R2 [R3 R4]]]].
      + intros w I. apply Iu in I. destruct I as [I _]. split; [now apply Bl|]. destruct (Pl w I) as [B C]. split; [destruct B as [B|B]|destruct C as [C|C]]; auto.
      + intros w I. apply Iu in I. split; [apply I|apply M4, I].
      + rewrite R1. cbn [g_reps]. assert (Iw : In wl (unbuilt (g_reps g) l)) by (apply Iu; split; [rewrite Fl; apply in_or_app; right; now left|exact Er]). specialize (R4 wl Iw). destruct (reps wl) as [r|] eqn:Q; [|contradiction].
        exists (mk_g reps maps), r. split; [reflexivity|]. split; [now split|]. split; [now apply (proj2 R2)|]. now split.
  Qed.
  Lemma new_ok fund g : good_rep 1 fund -> new_group osg (length (osg 1%N)) fund = Some g -> g_ok g /\ g_reps g 1%N = Some fund.
  Proof.
    intros Gf E. unfold new_group in E. rewrite Nat.eqb_refl in E. injection E as <-. split; [|cbn [g_reps]; apply upd_same]. split; (split; [cbn [g_maps g_reps]; rewrite upd_same; discriminate|]); intros w x; cbn [g_maps g_reps]; unfold upd; destruct (N.eqb_spec w 1) as [->|Ne]; try discriminate; intros E; injection E as <-; [|exact Gf].
    split; [reflexivity|]. split; [reflexivity|]. intros H. lia.
  Qed.
  Lemma creates_ok fuel : forall wls g, g_ok g -> Forall (fun wl => (1 <= wl)%N /\ N.size_nat wl <= fuel) wls -> exists g' rs, creates hash prod_hash osg k0 k1 ka km fuel size g wls = Some (g', rs) /\ g_ok g' /\ Forall2 good_rep wls rs /\ Forall2 (fun wl r => g_reps g' wl = Some r) wls rs /\ (forall w x, g_reps g w = Some x -> g_reps g' w = Some x).
  Proof.
    induction wls as [|wl wls IH]; intros g Gg F; cbn [creates].
    - exists g, []. split; [reflexivity|]. split; [exact Gg|]. split; [constructor|]. split; [constructor|auto].
    - inversion_clear F as [|? ? [F1 F2] F3]. destruct (create_ok fuel g wl Gg F1 F2) as [g1 [r [C1 [C2 [C3 [C4 C5]]]]]]. rewrite C1. destruct (IH g1 C2 F3) as [g2 [rs [D1 [D2 [D3 [D4 D5]]]]]]. rewrite D1. exists g2, (r :: rs). split; [reflexivity|]. split; [exact D2|]. split; [now constructor|]. split; [constructor; [now apply D5|exact D4]|]. intros ww xx E. now apply D5, C5.
  Qed.
  Lemma f_representations fuel fund g wls : Forall2 (fun phi d => represents A phi (map ev (osg 1%N)) d) phis fund -> new_group osg (length (osg 1%N)) fund = Some g -> Forall (fun wl => (1 <= wl)%N /\ N.size_nat wl <= fuel) wls ->
    exists g' rs, creates hash prod_hash osg k0 k1 ka km fuel size g wls = Some (g', rs) /\
      Forall2 (fun wl r => g_reps g' wl = Some r /\ Forall2 (fun phi d => represents A phi (map ev (osg wl)) d) phis r) wls rs.
  Proof.
    intros Hf Hn F. destruct (new_ok fund g Hf Hn) as [Gg _]. destruct (creates_ok fuel wls g Gg F) as [g' [rs [C1 [_ [C3 [C4 _]]]]]]. exists g', rs. split; [exact C1|]. clear - C3 C4. induction C3 as [|wl r wls rs P Q IH]; inversion_clear C4; constructor; [split; assumption|now apply IH].
  Qed.
End Final.
(** the list of lengths *)
Lemma f_list n : (2 <= n)%N -> exists l, (forall fuel, N.size_nat n <= fuel -> decompose fuel n = Ret l) /\ StronglySorted N.lt l /\ (exists front, l = front ++ [n]) /\ Forall (fun w => (2 <= w)%N) l /\
  forall w, In w l -> let (a, b) := parents w in (a + b)%N = w /\ (1 <= b <= a)%N /\ (a = 1%N \/ In a l) /\ (b = 1%N \/ In b l).
Proof.
  intros Hn. destruct (decompose_spec n Hn) as [l [[Sl [Fl [Bl Pl]]] Dl]]. exists l. split; [exact Dl|]. split; [exact Sl|]. split; [exact Fl|]. split; [exact Bl|]. intros w I. rewrite Forall_forall in Bl. destruct (parents_sum w (Bl w I)) as [E1 [E2 _]]. specialize (Pl w I). destruct (parents w) as [a b]. cbn [fst snd] in *. tauto.
Qed.
