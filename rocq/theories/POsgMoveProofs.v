(** Words on translates of a site list, by shifting hashes. *)
From Coq Require Import List NArith Arith Bool Lia Sorted Permutation.
From Verif Require Import CoreModel CoreSpec AlgModel EnumModel EnumSpec EnumProofs PauliModel SiteModel SiteSpec SiteBitProofs SiteWordProofs SiteThmProofs POsgModel POsgSpec POsgProofs POsgListProofs POsgChainProofs POsgRingProofs POsgPairProofs POsgFillProofs.
Import ListNotations.

Section Moved.
  Variable c : pctx.
  Variable h : hasher.
  Hypothesis Hh : hasher_ok h.
  Hypothesis QN : h_qubits h = pc_qubits c.
  Let n := pc_qubits c.

  Definition held (b : hseq) (d : datum) : Prop := packed h d /\ forall q, site d q = letter (hs_ops b) q.
  Lemma base_hashes_ok base : (forall b, In b base -> pauli_word n (hs_ops b)) -> exists ds, base_hashes h base = DOk ds /\ Forall2 held base ds.
  Proof.
    induction base as [|b base IH]; intro W; [exists []; split; [reflexivity|constructor]|].
    destruct (site_hash_correct h (hs_ops b) Hh) as (d & E & P & L); [rewrite QN; apply W; now left|].
    destruct IH as (ds & E2 & F); [intros x X; apply W; now right|]. exists (d :: ds). cbn [base_hashes]. rewrite E. cbn [of_site dbind]. rewrite E2. cbn [dbind].
    split; [reflexivity|]. constructor; [now split|exact F].
  Qed.

  Variables p pi : nat -> nat.
  Hypothesis PI : forall q, q < n -> p q < n /\ pi q < n /\ pi (p q) = q /\ p (pi q) = q.
  Variable shift : datum -> sout datum.
  Hypothesis SH : forall d, packed h d -> exists e, shift d = SOk e /\ packed h e /\ forall q, q < n -> site e (p q) = site d q.

  Lemma letter_high w q : pauli_word n w -> n <= q -> letter w q = 0%N.
  Proof.
    intros W Q. destruct (N.eq_dec (letter w q) 0) as [E|E]; [exact E|]. apply letter_support in E. apply (support_lt n w q W) in E. lia.
  Qed.
  Lemma moved_support w w' : pauli_word n w' -> (forall q, q < n -> letter w' (p q) = letter w q) -> length w' <= length w.
  Proof.
    intros W' M. assert (LS : forall v, length v = length (support v)) by (intro v; symmetry; apply map_length). rewrite (LS w'), (LS w), <- (map_length p (support w)).
    apply NoDup_incl_length; [now apply (support_nodup n)|]. intros q I. assert (Q := support_lt n w' q W' I). destruct (PI q Q) as (_ & Q2 & _ & E).
    rewrite <- E. apply in_map. apply letter_support. rewrite <- M by exact Q2. rewrite E. now apply letter_support.
  Qed.
  Definition moved_to (b s : hseq) : Prop :=
    hs_sign s = SPos /\ hs_hash s = hash (N.of_nat (3 * n)) (hs_ops s) /\ pauli_word n (hs_ops s) /\ forall q, q < n -> letter (hs_ops s) (p q) = letter (hs_ops b) q.
  Lemma shifted_ok b d : length (hs_ops b) <= 16 -> held b d -> exists s, shifted c shift d = DOk [s] /\ moved_to b s.
  Proof.
    intros L [P S]. destruct (SH d P) as (e & E & Pe & M). destruct (unhash_correct h e Pe) as (w & U & W & LW). rewrite QN in W. fold n in W.
    assert (MW : forall q, q < n -> letter w (p q) = letter (hs_ops b) q) by (intros q Q; rewrite LW, M by exact Q; apply S).
    unfold shifted. rewrite E. cbn [sbind]. rewrite U. cbn [of_site dbind]. eexists. split; [reflexivity|].
    assert (L' : length w <= 16) by (assert (X := moved_support (hs_ops b) w W MW); lia). rewrite presorted_ok by exact L'. split; [reflexivity|].
    split; [reflexivity|]. now split.
  Qed.
  Lemma moved_list base ds : (forall b, In b base -> length (hs_ops b) <= 16) -> Forall2 held base ds ->
    exists l, each (shifted c shift) ds = DOk l /\ Forall2 moved_to base l.
  Proof.
    intros L F. induction F as [|b d base ds H F IH]; [exists []; split; [reflexivity|constructor]|].
    destruct (shifted_ok b d (L b (or_introl eq_refl)) H) as (s & E & M). destruct IH as (l & E2 & F2); [intros x X; apply L; now right|].
    exists (s :: l). cbn [each]. rewrite E. cbn [dbind]. rewrite E2. cbn [dbind]. split; [reflexivity|]. now constructor.
  Qed.
  Lemma forall2_in_r {A B} (R : A -> B -> Prop) l m y : Forall2 R l m -> In y m -> exists x, In x l /\ R x y.
  Proof. intros F. induction F as [|a b l m H F IH]; intro I; [destruct I|]. destruct I as [<-|I]; [exists a; split; [now left|exact H]|]. destruct (IH I) as (x & X & Y). exists x. split; [now right|exact Y]. Qed.
  Lemma forall2_in_l {A B} (R : A -> B -> Prop) l m x : Forall2 R l m -> In x l -> exists y, In y m /\ R x y.
  Proof. intros F. induction F as [|a b l m H F IH]; intro I; [destruct I|]. destruct I as [<-|I]; [exists b; split; [now left|exact H]|]. destruct (IH I) as (y & X & Y). exists y. split; [now right|exact Y]. Qed.
  Lemma moved_acts w w' sites : pauli_word n w -> pauli_word n w' -> (forall q, q < n -> letter w' (p q) = letter w q) -> (forall q, In q sites -> q < n) ->
    (acts_on sites w <-> acts_on (map p sites) w').
  Proof.
    intros W W' M B. split.
    - intros A q. split.
      + intro I. assert (Q := support_lt n w' q W' I). destruct (PI q Q) as (_ & Q2 & _ & E). rewrite <- E. apply in_map. apply A. apply letter_support.
        rewrite <- M by exact Q2. rewrite E. now apply letter_support.
      + intro I. apply in_map_iff in I. destruct I as (x & <- & X). apply letter_support. rewrite M by now apply B. apply letter_support. now apply A.
    - intros A q. split.
      + intro I. assert (Q := support_lt n w q W I). assert (J : In (p q) (support w')) by (apply letter_support; rewrite M by exact Q; now apply letter_support).
        apply A in J. apply in_map_iff in J. destruct J as (x & E & X). assert (XN := B x X). destruct (PI q Q) as (_ & _ & E1 & _), (PI x XN) as (_ & _ & E2 & _).
        replace q with x; [exact X|]. rewrite <- E1, <- E2. now rewrite E.
      + intro I. assert (Q := B q I). apply letter_support. rewrite <- M by exact Q. apply letter_support, A. now apply in_map.
  Qed.
  Lemma moved_fill sites : NoDup sites -> (forall q, In q sites -> q < n) -> length sites <= 16 ->
    exists ds, base_hashes h (fill_words n sites) = DOk ds /\ Forall2 held (fill_words n sites) ds /\
    exists l, each (shifted c shift) ds = DOk l /\ lists_once n (acts_on (map p sites)) l.
  Proof.
    intros ND B L16. destruct (fill_words_once n sites ND B) as [[B1 B2] B3].
    assert (BW : forall b, In b (fill_words n sites) -> pauli_word n (hs_ops b) /\ acts_on sites (hs_ops b)) by (intros b I; apply B2; now apply in_map).
    destruct (base_hashes_ok (fill_words n sites)) as (ds & E & F); [intros b I; apply BW, I|]. exists ds. split; [exact E|]. split; [exact F|].
    destruct (moved_list (fill_words n sites) ds) as (l & E2 & M); [|exact F|].
    { intros b I. destruct (BW b I) as [W A]. rewrite (acts_length n _ sites W ND A). exact L16. }
    exists l. split; [exact E2|]. split; [split|].
    - intros s I. destruct (forall2_in_r _ _ _ _ M I) as (b & _ & S1 & S2 & _). now split.
    - intro w. split.
      + intro I. apply in_map_iff in I. destruct I as (s & <- & I). destruct (forall2_in_r _ _ _ _ M I) as (b & Ib & _ & _ & W' & MV).
        destruct (BW b Ib) as [W A]. split; [exact W'|]. now apply (moved_acts (hs_ops b)).
      + intros [W' A']. set (g := fun q => letter w (p q)). assert (G4 : forall q, (g q < 4)%N) by (intro q; apply letter_lt).
        assert (W := spell_word g n G4).
        assert (MV : forall q, q < n -> letter w (p q) = letter (spell g n) q) by (intros q Q; rewrite (spell_letter g n q G4 Q); reflexivity).
        assert (A := proj2 (moved_acts (spell g n) w sites W W' MV B) A').
        assert (I := proj2 (B2 (spell g n)) (conj W A)). apply in_map_iff in I. destruct I as (b & Eb & Ib). destruct (forall2_in_l _ _ _ _ M Ib) as (s & Is & _ & _ & Ws & MV2).
        apply in_map_iff. exists s. split; [|exact Is]. apply (word_unique n); auto. intros q Q. destruct (PI q Q) as (_ & Q2 & _ & EQ). rewrite <- EQ.
        rewrite MV2, MV by exact Q2. now rewrite Eb.
    - clear E E2 F. assert (X : forall base l, Forall2 moved_to base l -> NoDup (map hs_ops base) -> (forall b, In b base -> pauli_word n (hs_ops b)) -> NoDup (map hs_ops l)).
      { clear -PI. intros base l M. induction M as [|b s base l H M IH]; intros N W; [constructor|]. cbn [map] in *. apply NoDup_cons_iff in N. destruct N as [N1 N2].
        constructor; [|apply IH; [exact N2|intros x X; apply W; now right]]. intro I. apply in_map_iff in I. destruct I as (s' & Es & Is).
        destruct (forall2_in_r _ _ _ _ M Is) as (b' & Ib & H'). apply N1. apply in_map_iff. exists b'. split; [|exact Ib].
        apply (word_unique n); [apply W; now right|apply W; now left|]. intros q Q. destruct H as (_ & _ & _ & H), H' as (_ & _ & _ & H'). rewrite <- H, <- H' by exact Q. now rewrite Es. }
      apply (X (fill_words n sites)); auto. intros b I. apply BW, I.
  Qed.
End Moved.

(** the same hashes for every shift: a family of translates *)
Lemma moved_family {G} c h (act : G -> nat -> nat) (shift : G -> datum -> sout datum) (gs : list G) sites :
  hasher_ok h -> h_qubits h = pc_qubits c -> NoDup sites -> (forall q, In q sites -> q < pc_qubits c) -> length sites <= 16 ->
  (forall g, In g gs -> exists pi, forall q, q < pc_qubits c -> act g q < pc_qubits c /\ pi q < pc_qubits c /\ pi (act g q) = q /\ act g (pi q) = q) ->
  (forall g, In g gs -> forall d, packed h d -> exists e, shift g d = SOk e /\ packed h e /\ forall q, q < pc_qubits c -> site e (act g q) = site d q) ->
  exists ds f, base_hashes h (fill_words (pc_qubits c) sites) = DOk ds /\ Forall2 (held h) (fill_words (pc_qubits c) sites) ds /\
    forall g, In g gs -> each (shifted c (shift g)) ds = DOk (f g) /\ lists_once (pc_qubits c) (acts_on (map (act g) sites)) (f g).
Proof.
  intros Hh QN ND B L HI HS. set (n := pc_qubits c) in *.
  assert (BW : forall b, In b (fill_words n sites) -> pauli_word n (hs_ops b)).
  { intros b I. destruct (fill_words_once n sites ND B) as [[_ B2] _]. apply B2. now apply in_map. }
  destruct (base_hashes_ok c h Hh QN (fill_words n sites) BW) as (ds & E & F).
  exists ds, (fun g => match each (shifted c (shift g)) ds with DOk l => l | _ => [] end). split; [exact E|]. split; [exact F|].
  intros g Ig. destruct (HI g Ig) as (pi & P). destruct (moved_fill c h Hh QN (act g) pi P (shift g) (HS g Ig) sites ND B L) as (ds' & E' & _ & l & V & X).
  fold n in E'. assert (ds' = ds) by congruence. subst ds'. rewrite V. split; [reflexivity|exact X].
Qed.
(** lists over a family, all together *)
Lemma family_words {G} n (P : G -> word -> Prop) (f : G -> list hseq) gs : (forall g, In g gs -> lists_once n (P g) (f g)) ->
  lists_words n (fun w => exists g, In g gs /\ P g w) (flat_map f gs).
Proof.
  intro H. split.
  - intros s I. apply in_flat_map in I. destruct I as (g & Ig & I). destruct (H g Ig) as [[A _] _]. now apply A.
  - intro w. rewrite map_flat, in_flat_map. split.
    + intros (g & Ig & I). destruct (H g Ig) as [[_ A] _]. apply A in I. split; [apply I|]. exists g. now split.
    + intros [W (g & Ig & X)]. exists g. split; [exact Ig|]. destruct (H g Ig) as [[_ A] _]. apply A. now split.
Qed.
Lemma family_once {G} n (P : G -> word -> Prop) (f : G -> list hseq) gs : (forall g, In g gs -> lists_once n (P g) (f g)) -> NoDup gs ->
  (forall g g' w, In g gs -> In g' gs -> P g w -> P g' w -> pauli_word n w -> g = g') -> lists_once n (fun w => exists g, In g gs /\ P g w) (flat_map f gs).
Proof.
  intros H N D. split; [now apply family_words|]. rewrite map_flat. apply nodup_flat; [exact N| |].
  - intros g Ig. apply (H g Ig).
  - intros g g' w Ig Ig' I I'. destruct (H g Ig) as [[_ A] _], (H g' Ig') as [[_ A'] _]. apply A in I. apply A' in I'.
    apply (D g g' w); auto; tauto.
Qed.
