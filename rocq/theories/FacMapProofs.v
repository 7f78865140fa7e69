(** The workers' maps: what identification and the tree of merges gather. *)
From Coq Require Import List NArith ZArith Arith Bool Lia.
From Verif Require Import CoreModel CoreSpec FieldModel FieldProofs SymModel SymSpec SymProofs SymFinalProofs PolyModel ParModel ParProofs MatModel MatProofs FacModel FacSpec FacProofs FacRunProofs.
Import ListNotations.

(** * Levels *)
Lemma pow_pos k : 0 < 2 ^ k. Proof. induction k; cbn; lia. Qed.
  Lemma mod_split v l w : w < 2 ^ l -> v mod 2 ^ l = w -> v mod 2 ^ S l = w \/ v mod 2 ^ S l = w + 2 ^ l.
  Proof.
    intros W E. pose proof (pow_pos l). change (2 ^ S l) with (2 * 2 ^ l). rewrite (Nat.mul_comm 2), Nat.mod_mul_r by lia. rewrite E. assert (K : (v / 2 ^ l) mod 2 < 2) by (apply Nat.mod_upper_bound; lia).
    destruct ((v / 2 ^ l) mod 2) as [|[|]]; lia.
  Qed.
Section Levels.
  Variable N : nat.
  Hypothesis NP : 0 < N.
  Notation first := (first_merge_level N).
  Notation final := final_merge_level.
  Notation top := (bit_width N).
  Lemma log_N : 2 ^ Nat.log2 N <= N < 2 ^ S (Nat.log2 N). Proof. apply Nat.log2_spec. exact NP. Qed.
  Lemma floor_N : bit_floor N = 2 ^ Nat.log2 N.
  Proof. unfold bit_floor. destruct (Nat.eqb_spec N 0); [lia|reflexivity]. Qed.
  Lemma width_pow k : bit_width (2 ^ k) = S k.
  Proof. unfold bit_width. pose proof (pow_pos k). destruct (Nat.eqb_spec (2 ^ k) 0); [lia|]. now rewrite Nat.log2_pow2 by lia. Qed.
  Lemma top_N : top = S (Nat.log2 N).
  Proof. unfold bit_width. destruct (Nat.eqb_spec N 0); [lia|reflexivity]. Qed.
  Lemma final_pos w : 0 < w -> final w = S (Nat.log2 w).
  Proof. intro H. unfold final_merge_level, bit_floor. destruct (Nat.eqb_spec w 0); [lia|]. apply width_pow. Qed.
  Lemma final_0 : final 0 = 0. Proof. reflexivity. Qed.
  Lemma final_lt w : w < 2 ^ final w.
  Proof. destruct (Nat.eq_dec w 0) as [->|H]; [cbn; lia|]. rewrite final_pos by lia. apply Nat.log2_spec. lia. Qed.
  Lemma first_cases w : (first w = Nat.log2 N /\ (N = 2 ^ Nat.log2 N \/ (w < 2 ^ Nat.log2 N /\ N <= w + 2 ^ Nat.log2 N))) \/
    (first w = S (Nat.log2 N) /\ (2 ^ Nat.log2 N <= w \/ w + 2 ^ Nat.log2 N < N)).
  Proof.
    unfold first_merge_level. rewrite floor_N, width_pow. cbn zeta. destruct (Nat.eqb_spec (2 ^ Nat.log2 N) N) as [E|E]; [left; split; [lia|auto]|].
    destruct (Nat.leb_spec (2 ^ Nat.log2 N) w) as [A|A]; [right; split; [lia|auto]|]. destruct (Nat.ltb_spec (w + 2 ^ Nat.log2 N) N) as [B|B]; [right; split; [lia|auto]|left; split; [lia|auto]].
  Qed.
  Lemma first_top w : first w <= top.
  Proof. rewrite top_N. destruct (first_cases w) as [[E _]|[E _]]; lia. Qed.
  Lemma final_first w : w < N -> final w <= first w.
  Proof.
    intro H. destruct (Nat.eq_dec w 0) as [->|Z]; [rewrite final_0; lia|]. rewrite final_pos by lia. pose proof log_N. pose proof (Nat.log2_spec w ltac:(lia)) as L.
    assert (LE : Nat.log2 w <= Nat.log2 N) by (apply Nat.log2_le_mono; lia). destruct (first_cases w) as [[E D]|[E D]]; [|lia].
    rewrite E. assert (w < 2 ^ Nat.log2 N) by (destruct D as [D|D]; lia). destruct (Nat.eq_dec (Nat.log2 w) (Nat.log2 N)) as [Eq|]; [rewrite Eq in L; lia|lia].
  Qed.
  Lemma partner w l : w < N -> final w <= l -> l < first w -> w < 2 ^ l /\ w + 2 ^ l < N /\ final (w + 2 ^ l) = S l.
  Proof.
    intros H A B. assert (W : w < 2 ^ l) by (pose proof (final_lt w); assert (2 ^ final w <= 2 ^ l) by (apply Nat.pow_le_mono_r; lia); lia). split; [exact W|]. split.
    - pose proof log_N. destruct (first_cases w) as [[E D]|[E D]].
      + assert (2 ^ S l <= 2 ^ Nat.log2 N) by (apply Nat.pow_le_mono_r; lia). cbn in *. lia.
      + destruct (Nat.eq_dec l (Nat.log2 N)) as [->|]; [lia|]. assert (2 ^ S l <= 2 ^ Nat.log2 N) by (apply Nat.pow_le_mono_r; lia). cbn in *. lia.
    - pose proof (pow_pos l). rewrite final_pos by lia. f_equal. apply Nat.log2_unique; cbn; lia.
  Qed.
  Definition parent (w : nat) : nat := w - 2 ^ (final w - 1).
  Lemma parent_of w l : w < 2 ^ l -> final (w + 2 ^ l) = S l -> parent (w + 2 ^ l) = w.
  Proof. intros A E. unfold parent. rewrite E. cbn [Nat.sub]. rewrite Nat.sub_0_r. lia. Qed.
  Lemma alone w v l : w < N -> v < N -> first w <= l -> v mod 2 ^ l = w -> v = w.
  Proof.
    intros H Hv L E. pose proof log_N. destruct (first_cases w) as [[F D]|[F D]].
    - destruct (Nat.eq_dec l (Nat.log2 N)) as [->|].
      + destruct D as [D|[D1 D2]]; [rewrite Nat.mod_small in E by lia; exact E|]. pose proof (pow_pos (Nat.log2 N)) as P0. pose proof (Nat.div_mod v (2 ^ Nat.log2 N) ltac:(lia)) as Q. rewrite E in Q.
        destruct (v / 2 ^ Nat.log2 N) as [|k]; [lia|]. cbn in *. nia.
      + assert (2 ^ S (Nat.log2 N) <= 2 ^ l) by (apply Nat.pow_le_mono_r; lia). rewrite Nat.mod_small in E by lia. exact E.
    - assert (2 ^ S (Nat.log2 N) <= 2 ^ l) by (apply Nat.pow_le_mono_r; lia). rewrite Nat.mod_small in E by lia. exact E.
  Qed.
End Levels.

Section Maps.
  Variable c : sctx.
  Variable V : hseq -> Prop.
  Hypothesis LW : lawful c V.
  Variables (dim : nat) (m : list hseq) (hermitian : bool).
  Hypothesis EO : elements_ok V dim m.
  Hypothesis HM : hermitian = true -> hermitian_matrix c dim m.
  Notation from := (from c V m).
  Notation covers := (covers c V).

  Definition keyed (u : umap) : Prop := forall k s, In (k, s) u -> sy_hash s = Some k.
  Definition good (u : umap) : Prop := keyed u /\ Forall from (map snd u).
  Definition mcov (u : umap) (h : N) : Prop := covers (map snd u) h.
  Lemma keyed_hashes u : keyed u -> map sy_hash (map snd u) = map Some (map fst u).
  Proof. intro K. rewrite !map_map. apply map_ext_in. intros [k s] H. now apply (K k s). Qed.
  Lemma emplace_in h s u k s' : In (k, s') (map_emplace h s u) -> (k = h /\ s' = s) \/ In (k, s') u.
  Proof.
    induction u as [|[k0 s0] u IH]; cbn; [intros [E|[]]; injection E as <- <-; auto|]. destruct (N.ltb h k0); [intros [E|H]; [injection E as <- <-; auto|auto]|].
    destruct (N.eqb h k0); [auto|]. intros [H|H]; [auto|]. destruct (IH H); auto.
  Qed.
  Lemma emplace_good h s u : good u -> sy_hash s = Some h -> from s -> good (map_emplace h s u).
  Proof.
    intros [K F] Hs Fs. split; [intros k s' H; destruct (emplace_in _ _ _ _ _ H) as [[-> ->]|H']; [exact Hs|now apply K]|]. now apply map_emplace_all.
  Qed.
  Lemma emplace_incl h s u : good u -> sy_hash s = Some h -> from s -> incl (map sy_hash (map snd u)) (map sy_hash (map snd (map_emplace h s u))) /\ In (Some h) (map sy_hash (map snd (map_emplace h s u))).
  Proof.
    intros G Hs Fs. pose proof (emplace_good h s u G Hs Fs) as G'. rewrite (keyed_hashes _ (proj1 G)), (keyed_hashes _ (proj1 G')). split.
    - intros x H. apply in_map_iff in H as (k & <- & H). apply in_map. apply (emplace_keys h s u). now right.
    - apply in_map. apply (emplace_keys h s u). now left.
  Qed.

  Definition mt_inv (st : list N * umap) : Prop := (forall h, known h (fst st) = true -> mcov (snd st) h) /\ good (snd st).
  Lemma mt_start_inv w : mt_inv (mt_start w).
  Proof.
    unfold mt_start. destruct (Nat.eqb w 0).
    - split.
      + intros h H. destruct (lw_zero c V LW) as [Z0 _]. destruct (lw_one c V LW) as [O0 _]. cbn in H. rewrite orb_false_r in H. apply orb_true_iff in H as [H|H]; apply N.eqb_eq in H; subst h.
        * exists (hseq_const true). split; [now left|]. split; [exact Z0|now left].
        * exists (hseq_const false). split; [right; now left|]. split; [exact O0|now left].
      + split; [intros k s H; cbn in H; destruct H as [H|[H|[]]]; injection H as <- <-; reflexivity|]. cbn. constructor; [split; [constructor|auto]|]. constructor; [split; [constructor|auto]|constructor].
    - split; [intros h H; discriminate|]. split; [intros k s []|constructor].
  Qed.
  Lemma mt_note_inv st q : mt_inv st -> mine c V m q ->
    mt_inv (mt_note st q (cx_conj c q)) /\ mcov (snd (mt_note st q (cx_conj c q))) (hs_hash q) /\ incl (map sy_hash (map snd (snd st))) (map sy_hash (map snd (snd (mt_note st q (cx_conj c q))))).
  Proof.
    intros [K G] M. pose proof (proj1 M) as Vq. unfold mt_note. destruct (known (hs_hash q) (fst st)) eqn:Kn.
    - split; [split; assumption|]. split; [now apply K|apply incl_refl].
    - destruct (Z.eqb (hs_compare_same_negation q (cx_conj c q)) 1) eqn:EH.
      + apply (compare_eq c V LW q Vq) in EH. destruct (one_from c V m q M EH) as [F1 H1]. destruct (emplace_incl _ _ _ G H1 F1) as [I1 J1]. cbn [fst snd].
        assert (Cq : mcov (map_emplace (hs_hash q) (symbol_one q) (snd st)) (hs_hash q)) by (exists q; auto).
        split; [split; [|now apply emplace_good]|split; [exact Cq|exact I1]]. cbn [fst snd]. intros h H. apply known_cons in H as [->|H]; [exact Cq|]. eapply covers_incl; [exact I1|now apply K].
      + cbn [fst snd]. set (u := if N.ltb (hs_hash q) (hs_hash (cx_conj c q)) then map_emplace (hs_hash q) (symbol_pair q (cx_conj c q)) (snd st) else map_emplace (hs_hash (cx_conj c q)) (symbol_pair (cx_conj c q) q) (snd st)).
        assert (U : good u /\ incl (map sy_hash (map snd (snd st))) (map sy_hash (map snd u)) /\ mcov u (hs_hash q)).
        { unfold u. destruct (N.ltb (hs_hash q) (hs_hash (cx_conj c q))).
          - destruct (pair_from c V m q M) as [A B]. destruct (emplace_incl _ _ _ G B A) as [I1 J1]. split; [now apply emplace_good|]. split; [exact I1|]. exists q. auto.
          - destruct (pair_from' c V LW m (proj2 EO) q M) as [A B]. destruct (emplace_incl _ _ _ G B A) as [I1 J1]. split; [now apply emplace_good|]. split; [exact I1|]. exists (cx_conj c q). split; [exact J1|].
            split; [now apply (lw_conj c V LW)|right]. unfold ch. now rewrite (lw_invol c V LW). }
        destruct U as (U1 & U2 & U3). split; [split; [|exact U1]|split; assumption]. cbn [fst snd]. intros h H. apply known_cons in H as [->|H]; [now apply (covers_back c V LW _ q)|].
        apply known_cons in H as [->|H]; [exact U3|]. eapply covers_incl; [exact U2|now apply K].
  Qed.
  Lemma identify_loop l : (forall o o', In (o, o') l -> exists row col, row < dim /\ col < dim /\ o = col * dim + row /\ o' = row * dim + col) ->
    forall st, mt_inv st -> exists u, mt_identify_loop c m hermitian l st = Some u /\ good u /\ incl (map sy_hash (map snd (snd st))) (map sy_hash (map snd u)) /\
      (forall o o' q, In (o, o') l -> nth_error m o = Some q -> mcov u (hs_hash q)).
  Proof.
    induction l as [|[o o'] l IH]; intros B st I.
    - exists (snd st). cbn. split; [reflexivity|]. split; [apply I|]. split; [apply incl_refl|intros o o' q []].
    - destruct (B o o' (or_introl eq_refl)) as (row & col & Hr & Hc & Eo & Eo'). destruct (elem_at V dim m EO o) as (q & Q & Iq & Vq); [subst; now apply cell_lt|].
      assert (T : (if hermitian then nth_error m o' else option_map (cx_conj c) (nth_error m o)) = Some (cx_conj c q)).
      { destruct hermitian eqn:H; [|now rewrite Q]. subst o o'. apply (transposed c V dim m EO true HM row col q eq_refl Hr Hc Q). }
      cbn. rewrite Q in *. rewrite T. destruct (mt_note_inv st q I (mine_in c V m (proj2 EO) q Iq)) as (I1 & C1 & N1).
      destruct (IH (fun o o' H => B o o' (or_intror H)) _ I1) as (u & E & Gu & Nu & Cu). exists u. split; [exact E|]. split; [exact Gu|]. split; [eapply incl_tran; eassumption|].
      intros x x' y [H|H] Y; [|eauto]. injection H as <- <-. assert (y = q) as -> by congruence. eapply covers_incl; [exact Nu|exact C1].
  Qed.
  Variable N : nat.
  Hypothesis NP : 0 < N.
  Lemma in_identify w o o' : w < N -> In (o, o') (identify_cells dim hermitian N w) <->
    exists row col, row < dim /\ col < dim /\ col mod N = w /\ (hermitian = true -> col <= row) /\ o = col * dim + row /\ o' = row * dim + col.
  Proof.
    intro Hw. unfold identify_cells. rewrite in_flat_map. split.
    - intros (col & Hc & H). apply (strided_mod N dim w col Hw) in Hc as [Hc Hm]. apply in_map_iff in H as (row & E & Hr). injection E as <- <-.
      exists row, col. destruct hermitian; apply in_seq in Hr; repeat split; try lia; discriminate.
    - intros (row & col & Hr & Hc & Hm & L & -> & ->). exists col. split; [now apply (strided_mod N dim w col Hw)|]. apply in_map_iff. exists row. split; [reflexivity|].
      destruct hermitian; apply in_seq; [specialize (L eq_refl); lia|lia].
  Qed.
  Definition ident (w : nat) : umap := match mt_identify c dim m hermitian N w with Some u => u | None => [] end.
  Lemma identified w : w < N -> mt_identify c dim m hermitian N w = Some (ident w) /\ good (ident w) /\
    (forall row col q, row < dim -> col < dim -> col mod N = w -> (hermitian = true -> col <= row) -> nth_error m (col * dim + row) = Some q -> mcov (ident w) (hs_hash q)).
  Proof.
    intro Hw. destruct (identify_loop (identify_cells dim hermitian N w)) with (st := mt_start w) as (u & E & G & _ & C).
    - intros o o' H. apply (in_identify w o o' Hw) in H as (row & col & A & B & _ & _ & D). eauto.
    - apply mt_start_inv.
    - assert (X : mt_identify c dim m hermitian N w = Some u) by exact E. unfold ident. rewrite X. split; [reflexivity|]. split; [exact G|].
      intros row col q Hr Hc Hm L Q. apply (C (col * dim + row) (row * dim + col) q); [|exact Q]. apply (in_identify w _ _ Hw). exists row, col. auto 7.
  Qed.
  Lemma all_identified q : In q m -> exists v, v < N /\ mcov (ident v) (hs_hash q).
  Proof.
    intro Iq. pose proof EO as [Lm Vm]. apply In_nth_error in Iq as (o & Q). assert (Bo : o < dim * dim) by (rewrite <- Lm; apply nth_error_Some; congruence).
    destruct (cell_split dim o Bo) as (row & col & Hr & Hc & ->). assert (MB : forall x, x mod N < N) by (intro; apply Nat.mod_upper_bound; lia).
    assert (D : (hermitian = true -> col <= row) \/ (hermitian = true /\ row < col)).
    { destruct hermitian; [|left; discriminate]. destruct (le_lt_dec col row); [left; auto|right; auto]. }
    destruct D as [D|[H D]].
    - exists (col mod N). split; [apply MB|]. apply (identified (col mod N) (MB col)) with (row := row) (col := col); auto.
    - exists (row mod N). split; [apply MB|]. assert (Vq : V q) by (rewrite Forall_forall in Vm; apply Vm; eapply nth_error_In; exact Q). apply (covers_conj c V LW _ q Vq).
      apply (identified (row mod N) (MB row)) with (row := col) (col := row); auto; [lia|]. now apply (transposed c V dim m EO hermitian HM).
  Qed.

  (** * The tree of merges *)
  Lemma merge_good b : forall a, good a -> good b -> good (merge_maps a b) /\ incl (map sy_hash (map snd a)) (map sy_hash (map snd (merge_maps a b))) /\
    incl (map sy_hash (map snd b)) (map sy_hash (map snd (merge_maps a b))).
  Proof.
    unfold merge_maps. induction b as [|[k s] b IH]; intros a Ga [Kb Fb]; cbn [fold_left].
    - split; [exact Ga|]. split; [apply incl_refl|intros x []].
    - cbn [map snd] in Fb. inversion Fb as [|? ? Fs Fb']; subst. assert (Hs : sy_hash s = Some k) by (apply Kb; now left). cbn [fst snd].
      destruct (emplace_incl k s a Ga Hs Fs) as [I1 J1]. destruct (IH (map_emplace k s a)) as (G & A & B); [now apply emplace_good|split; [intros x y H; apply Kb; now right|exact Fb']|].
      split; [exact G|]. split; [eapply incl_tran; eassumption|]. intros x [<-|H]; [cbn [snd]; rewrite Hs; now apply A|now apply B].
  Qed.
  Notation top := (bit_width N).
  Notation first := (first_merge_level N).
  Notation final := final_merge_level.
  (** [gathered f w]: what worker [w]'s map holds at level [top - f] *)
  Fixpoint gathered (f w : nat) : umap :=
    match f with
    | 0 => ident w
    | S f' => if Nat.leb (first w) (top - f) then ident w else merge_maps (gathered f' w) (gathered f' (w + 2 ^ (top - f)))
    end.
  Definition at_level (w l : nat) : umap := gathered (top - l) w.
  Lemma at_first w l : first w <= l -> at_level w l = ident w.
  Proof.
    intro H. unfold at_level. pose proof (first_top N NP w). destruct (top - l) as [|f] eqn:E; [reflexivity|]. cbn [gathered]. destruct (Nat.leb_spec (first w) (top - S f)); [reflexivity|lia].
  Qed.
  Lemma at_merge w l : l < first w -> at_level w l = merge_maps (at_level w (S l)) (at_level (w + 2 ^ l) (S l)).
  Proof.
    intro H. unfold at_level. pose proof (first_top N NP w) as T. replace (top - l) with (S (top - S l)) by lia. cbn [gathered]. replace (top - S (top - S l)) with l by lia.
    destruct (Nat.leb_spec (first w) l); [lia|reflexivity].
  Qed.
  Lemma level_good d : forall w l, top - l <= d -> w < N -> final w <= l -> good (at_level w l) /\ (forall v h, v < N -> v mod 2 ^ l = w -> mcov (ident v) h -> mcov (at_level w l) h).
  Proof.
    induction d as [|d IH]; intros w l B Hw F.
    - rewrite at_first by (pose proof (first_top N NP w); lia). split; [now apply identified|]. intros v h Hv E C. rewrite (alone N NP w v l Hw Hv) in C; [exact C|pose proof (first_top N NP w); lia|exact E].
    - destruct (le_lt_dec (first w) l) as [L|L].
      + rewrite at_first by exact L. split; [now apply identified|]. intros v h Hv E C. rewrite (alone N NP w v l Hw Hv) in C; [exact C|exact L|exact E].
      + destruct (partner N NP w l Hw F L) as (W & Wn & Fn). pose proof (first_top N NP w) as T. rewrite at_merge by exact L.
        destruct (IH w (S l)) as [G1 C1]; [lia|exact Hw|lia|]. destruct (IH (w + 2 ^ l) (S l)) as [G2 C2]; [lia|exact Wn|lia|].
        destruct (merge_good (at_level (w + 2 ^ l) (S l)) (at_level w (S l)) G1 G2) as (G & A & A'). split; [exact G|].
        intros v h Hv E C. destruct (mod_split v l w W E) as [E'|E']; [eapply covers_incl; [exact A|now apply (C1 v)]|eapply covers_incl; [exact A'|now apply (C2 v)]].
  Qed.
  Lemma root_good : Forall from (map snd (at_level 0 0)) /\ (forall q, In q m -> covers (map snd (at_level 0 0)) (hs_hash q)).
  Proof.
    destruct (level_good (top - 0) 0 0 (le_n _) NP (le_n 0)) as [[_ F] C]. split; [exact F|]. intros q Iq. destruct (all_identified q Iq) as (v & Hv & K). apply (C v); [exact Hv|now rewrite Nat.mod_1_r|exact K].
  Qed.
End Maps.
