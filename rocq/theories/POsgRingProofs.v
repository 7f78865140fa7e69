(** The dictionaries of open chains and of rings. *)
From Coq Require Import List NArith Arith Bool Lia Sorted Permutation.
From Verif Require Import CoreModel CoreSpec AlgModel EnumModel EnumSpec EnumProofs PauliModel SiteModel SiteSpec SiteWordProofs POsgModel POsgSpec POsgProofs POsgListProofs POsgChainProofs.
Import ListNotations.

Lemma chain_list_single n wrap d s : length s = 1 -> (chain_list n wrap d s <-> In s (map (fun q => [q]) (seq 0 n))).
Proof.
  intro L. split.
  - intros (f & cs & F & G & B & ->). destruct cs; [|cbn in L; discriminate]. cbn [map]. rewrite pos_zero by exact F. apply (in_map (fun q => [q])).
    apply in_seq. lia.
  - intro I. apply in_map_iff in I. destruct I as (f & <- & F). apply in_seq in F. exists f, []. split; [lia|]. split; [exact Logic.I|].
    split; [intros a []|]. cbn [map]. now rewrite pos_zero by lia.
Qed.
Lemma chain_list_pos n wrap d s : chain_list n wrap d s -> 0 < length s.
Proof. intros (f & cs & _ & _ & _ & ->). cbn. lia. Qed.
Definition listed (n : nat) (wrap : bool) (d L : nat) (s : list nat) : Prop := s = [] \/ (length s <= L /\ chain_list n wrap d s).

Lemma lengths_combine n wrap d L (g : nat -> list (list nat)) : 2 <= L ->
  (forall k, 2 <= k <= L -> NoDup (g k)) -> (forall k s, 2 <= k <= L -> (In s (g k) <-> length s = k /\ chain_list n wrap d s)) ->
  let ss := [[]] ++ map (fun q => [q]) (seq 0 n) ++ flat_map g (seq 2 (L - 1)) in
  NoDup ss /\ forall s, In s ss <-> listed n wrap d L s.
Proof.
  intros L2 N M ss. assert (X : forall s, In s (flat_map g (seq 2 (L - 1))) <-> 2 <= length s <= L /\ chain_list n wrap d s).
  { intro s. rewrite in_flat_map. split.
    - intros (k & K & I). apply in_seq in K. apply M in I; [|lia]. destruct I as [<- C]. split; [lia|exact C].
    - intros [K C]. exists (length s). split; [apply in_seq; lia|]. apply M; [lia|]. now split. }
  split.
  - cbn [ss app]. constructor.
    + rewrite in_app_iff. intros [I|I]; [apply in_map_iff in I; destruct I as (q & E & _); discriminate|]. apply X in I. cbn in I. lia.
    + apply nodup_app.
      * apply FinFun.Injective_map_NoDup; [intros x y E; congruence|apply seq_NoDup].
      * apply nodup_flat; [apply seq_NoDup| |].
        -- intros k K. apply in_seq in K. apply N. lia.
        -- intros k k' s K K' I I'. apply in_seq in K, K'. apply M in I; [|lia]. apply M in I'; [|lia]. destruct I as [<- _], I' as [<- _]. reflexivity.
      * intros s I J. apply X in J. apply in_map_iff in I. destruct I as (q & <- & _). cbn in J. lia.
  - intro s. unfold listed. cbn [ss app In]. rewrite in_app_iff, X. split.
    + intros [<-|[I|[K C]]]; [now left| |right; split; [lia|exact C]]. right. assert (length s = 1) by (apply in_map_iff in I; destruct I as (q & <- & _); reflexivity).
      split; [lia|]. now apply chain_list_single.
    + intros [->|[K C]]; [now left|]. assert (P := chain_list_pos _ _ _ _ C). destruct (Nat.eq_dec (length s) 1) as [E|NE].
      * right. left. now apply (chain_list_single n wrap d).
      * right. right. split; [lia|exact C].
Qed.
Lemma chain_value wide c level d : is_lattice c = false -> 0 < d -> exists ss, pauli_osg wide c level d = DOk (flat_map (fill_words (pc_qubits c)) ss) /\
  NoDup ss /\ forall s, In s ss <-> listed (pc_qubits c) (pc_wrap c) d (Nat.min level (pc_qubits c)) s.
Proof.
  intros IL D. unfold pauli_osg. destruct (Nat.eqb_spec d 0) as [|_]; [lia|]. cbn [negb]. unfold compute_neighbours. rewrite IL. cbn [andb].
  set (n := pc_qubits c) in *. set (L := Nat.min level n).
  destruct (Nat.ltb_spec L 1) as [L0|L1].
  { exists [[]]. split; [reflexivity|]. split; [repeat constructor; intros []|]. intro s. unfold listed. cbn [In]. split.
    - intros [<-|[]]. now left.
    - intros [->|[K C]]; [now left|]. apply chain_list_pos in C. lia. }
  destruct (Nat.ltb_spec L 2) as [L2|L2].
  { exists ([[]] ++ map (fun q => [q]) (seq 0 n)). split; [rewrite flat_map_app; now rewrite one_value|]. split.
    - cbn [app]. constructor.
      + intro I. apply in_map_iff in I. destruct I as (q & E & _). discriminate.
      + apply FinFun.Injective_map_NoDup; [intros x y E; congruence|apply seq_NoDup].
    - intro s. unfold listed. cbn [app In]. split.
      + intros [<-|I]; [now left|]. right. assert (length s = 1) by (apply in_map_iff in I; destruct I as (q & <- & _); reflexivity).
        split; [lia|]. now apply chain_list_single.
      + intros [->|[K C]]; [now left|]. assert (P := chain_list_pos _ _ _ _ C). right. apply (chain_list_single n (pc_wrap c) d); [lia|exact C]. }
  assert (LN : L <= n) by (unfold L; lia).
  assert (T : forall g, flat_map (fill_words n) ([[]] ++ map (fun q => [q]) (seq 0 n) ++ flat_map g (seq 2 (L - 1))) =
    add_length_zero ++ add_length_one c ++ flat_map (fun k => flat_map (fill_words n) (g k)) (seq 2 (L - 1))).
  { intro g. rewrite !flat_map_app, flat_flat, one_value. reflexivity. }
  destruct (Nat.eqb_spec 1 d) as [<-|ND].
  - exists ([[]] ++ map (fun q => [q]) (seq 0 n) ++ flat_map (nn_sites c) (seq 2 (L - 1))). split.
    + rewrite T. unfold chain_nn_sequences. rewrite (each_ok _ (fun k => flat_map (fill_words n) (nn_sites c k))).
      * cbn [dbind]. destruct (Nat.leb_spec 2 L) as [_|]; [|lia]. f_equal. f_equal. f_equal.
        replace (L - 1) with (S (L - 2)) by lia. cbn [seq flat_map]. f_equal. apply nn_pairs_value. lia.
      * intros k K. apply in_seq in K. apply nn_value. fold n. lia.
    + apply lengths_combine; [exact L2| |].
      * intros k K. apply nn_sites_nodup. fold n. lia.
      * intros k s K. apply nn_sites_in. fold n. lia.
  - exists ([[]] ++ map (fun q => [q]) (seq 0 n) ++ flat_map (next_sites c d) (seq 2 (L - 1))). split.
    + rewrite T. unfold chain_next_nn_sequences. rewrite (each_ok _ (fun k => flat_map (fill_words n) (next_sites c d k))).
      * reflexivity.
      * intros k K. apply in_seq in K. apply next_nn_value. fold n. lia.
    + apply lengths_combine; [exact L2| |].
      * intros k K. apply next_sites_nodup. fold n. lia.
      * intros k s K. apply next_sites_in. fold n. lia.
Qed.
Lemma listed_good n wrap d L s : listed n wrap d L s -> good_sites n s.
Proof. intros [->|[_ C]]; [split; [constructor|intros q []]|]. now apply (chain_list_good n wrap d). Qed.

(** * Open chains *)
Lemma shift_gapped d f cs : forall a, gapped d a cs <-> gapped d (f + a) (map (fun x => f + x) cs).
Proof.
  induction cs as [|b cs IH]; intro a; [reflexivity|]. cbn [gapped map]. rewrite (IH b). split; intros [A B]; (split; [lia|exact B]).
Qed.
Lemma near_gapped d w : forall a t, support w = a :: t -> StronglySorted lt (support w) -> (near d w <-> gapped d a t).
Proof.
  unfold near. assert (LW : length w = length (support w)) by (symmetry; apply map_length). rewrite LW. generalize (support w). clear.
  intros s a t -> SS. revert a SS. induction t as [|b t IH]; intros a SS.
  - split; [intros _; exact Logic.I|intros _ i Hi; cbn in Hi; lia].
  - inversion SS as [|? ? S1 F1]; subst. rewrite Forall_forall in F1. specialize (IH b S1). cbn [gapped]. rewrite <- IH. split.
    + intro H. split.
      * specialize (H 0 ltac:(cbn; lia)). cbn in H. specialize (F1 b (or_introl eq_refl)). lia.
      * intros i Hi. specialize (H (S i) ltac:(cbn in *; lia)). exact H.
    + intros [A B] [|i] Hi; [cbn; lia|]. apply (B i). cbn in *. lia.
Qed.
Lemma near_nil d : near d [].
Proof. intros i Hi. cbn in Hi. lia. Qed.
Lemma nodup_below n l : NoDup l -> (forall q, In q l -> q < n) -> length l <= n.
Proof. intros N B. rewrite <- (seq_length n 0). apply NoDup_incl_length; [exact N|]. intros q Q. apply in_seq. specialize (B q Q). lia. Qed.
Lemma word_length n w : pauli_word n w -> length w <= n.
Proof.
  intro W. replace (length w) with (length (support w)) by apply map_length. apply nodup_below; [now apply (support_nodup n)|].
  intros q Q. now apply (support_lt n w).
Qed.
Lemma open_listed n d L s w : pauli_word n w -> support w = s -> (listed n false d (Nat.min L n) s <-> length w <= L /\ near d w).
Proof.
  intros W E. assert (LW : length w = length s) by (subst s; symmetry; apply map_length). assert (WN := word_length n w W).
  assert (SS := support_sorted n w W). unfold listed. split.
  - intros [->|[K (f & cs & F & G & B & C)]].
    + destruct w; [|discriminate]. split; [cbn; lia|apply near_nil].
    + split; [lia|]. cbn [map] in C. apply (near_gapped d w _ _ (eq_trans E C) SS). unfold pos. cbn [map]. now apply shift_gapped.
  - intros [K N]. destruct s as [|f t]; [now left|]. right. split; [lia|]. rewrite E in SS.
    assert (ALL : forall q, In q (f :: t) -> q < n) by (intros q Q; apply (support_lt n w q W); now rewrite E).
    exists f, (map (fun x => x - f) t). split; [apply ALL; now left|]. inversion SS as [|? ? S1 F1]; subst. rewrite Forall_forall in F1.
    assert (BK : map (fun x => f + x) (map (fun x => x - f) t) = t).
    { rewrite map_map. rewrite <- (map_id t) at 2. apply map_ext_in. intros x X. specialize (F1 x X). lia. }
    split; [|split].
    + apply (proj2 (shift_gapped d f _ 0)). rewrite Nat.add_0_r, BK. apply (near_gapped d w f t E); [now rewrite E|exact N].
    + intros a A. apply in_map_iff in A. destruct A as (x & <- & X). unfold fits. specialize (F1 x X). assert (x < n) by (apply ALL; now right). lia.
    + cbn [map]. unfold pos. rewrite Nat.add_0_r. f_equal. now rewrite BK.
Qed.
Theorem open_chain_listed wide c level d : is_lattice c = false -> pc_wrap c = false -> 0 < d ->
  exists l, pauli_osg wide c level d = DOk l /\ lists_once (pc_qubits c) (fun w => length w <= level /\ near d w) l.
Proof.
  intros IL W D. destruct (chain_value wide c level d IL D) as (ss & V & N & M). rewrite V. eexists. split; [reflexivity|]. rewrite W in M.
  apply lists_once_ext with (P := fun w => In (support w) ss).
  - intros w PW. rewrite M. now apply (open_listed (pc_qubits c)).
  - apply sorted_fills_once; [|exact N]. intros s I. apply M in I. split; [|apply (listed_good _ _ _ _ _ I)].
    destruct I as [->|[_ (f & cs & F & G & B & ->)]]; [constructor|]. unfold pos. cbn [map]. apply gapped_sorted with (d := d).
    now apply shift_gapped.
Qed.

(** * Rings *)
(** a word with given letters *)
Definition spell (g : nat -> N) (n : nat) : word := flat_map (fun q => match g q with N0 => [] | p => [q * 3 + (N.to_nat p - 1)] end) (seq 0 n).
Lemma spell_in g n o : (forall q, (g q < 4)%N) -> (In o (spell g n) <-> o / 3 < n /\ g (o / 3) = N.of_nat (o mod 3 + 1)).
Proof.
  intro B. unfold spell. rewrite in_flat_map. split.
  - intros (q & Q & I). apply in_seq in Q. specialize (B q). destruct (g q) as [|p] eqn:E; [destruct I|]. destruct I as [<-|[]].
    assert (P : N.to_nat (N.pos p) - 1 < 3) by lia. destruct (op_parts q _ P) as [-> ->]. split; [lia|]. rewrite E. lia.
  - intros [Q E]. exists (o / 3). split; [apply in_seq; lia|]. rewrite E. assert (M := Nat.div_mod o 3 ltac:(lia)).
    destruct (N.of_nat (o mod 3 + 1)) as [|p] eqn:E2; [lia|]. left. rewrite <- E2, Nnat.Nat2N.id. rewrite M at 3. lia.
Qed.
Lemma spell_word g n : (forall q, (g q < 4)%N) -> pauli_word n (spell g n).
Proof.
  intro B. split.
  - unfold spell. assert (H : forall k a, StronglySorted (fun x y => x / 3 < y / 3) (flat_map (fun q => match g q with N0 => [] | p => [q * 3 + (N.to_nat p - 1)] end) (seq a k)) /\
      Forall (fun x => a <= x / 3) (flat_map (fun q => match g q with N0 => [] | p => [q * 3 + (N.to_nat p - 1)] end) (seq a k))).
    { induction k as [|k IH]; intro a; [split; constructor|]. cbn [seq flat_map]. destruct (IH (S a)) as [S1 F1]. rewrite Forall_forall in F1.
      assert (G := B a). destruct (g a) as [|p]; cbn [app].
      - split; [exact S1|]. apply Forall_forall. intros x X. specialize (F1 x X). lia.
      - assert (P : N.to_nat (N.pos p) - 1 < 3) by lia. destruct (op_parts a _ P) as [E _]. split.
        + constructor; [exact S1|]. apply Forall_forall. intros x X. rewrite E. specialize (F1 x X). lia.
        + constructor; [rewrite E; lia|]. apply Forall_forall. intros x X. specialize (F1 x X). lia. }
    apply H.
  - intros o I. apply spell_in in I; [|exact B]. destruct I as [I _]. assert (M := Nat.div_mod o 3 ltac:(lia)). assert (U := Nat.mod_upper_bound o 3 ltac:(lia)). lia.
Qed.
Lemma spell_letter g n q : (forall q, (g q < 4)%N) -> q < n -> letter (spell g n) q = g q.
Proof.
  intros B Q. assert (S := proj1 (spell_word g n B)). destruct (g q) as [|p] eqn:E.
  - apply letter_none. intros o I EQ. apply spell_in in I; [|exact B]. destruct I as [_ I]. rewrite EQ, E in I. lia.
  - assert (G := B q). rewrite E in G. assert (P : N.to_nat (N.pos p) - 1 < 3) by lia. destruct (op_parts q _ P) as [E1 E2].
    rewrite <- E1 at 1. rewrite (letter_in _ (q * 3 + (N.to_nat (N.pos p) - 1))); [rewrite E2; lia|exact S|].
    apply spell_in; [exact B|]. rewrite E1, E2. split; [exact Q|]. rewrite E. lia.
Qed.
Lemma mod_back n k q u : q < n -> u < n -> ((q + k) mod n = u <-> q = (u + (n - k mod n)) mod n).
Proof.
  intros Q U. assert (NZ : n <> 0) by lia. assert (K := Nat.mod_upper_bound k n NZ). set (m := k mod n) in *.
  assert (E : (q + k) mod n = (q + m) mod n) by (unfold m; now rewrite Nat.add_mod_idemp_r). rewrite E. clear E.
  assert (H : forall x, x < 2 * n -> x mod n = if x <? n then x else x - n).
  { intros x X. destruct (Nat.ltb_spec x n); [now apply Nat.mod_small|]. symmetry. apply (Nat.mod_unique _ _ 1); lia. }
  rewrite H by lia. destruct (Nat.eq_dec m 0) as [->|M0].
  - rewrite Nat.sub_0_r. rewrite (H (u + n)) by lia. destruct (Nat.ltb_spec (q + 0) n), (Nat.ltb_spec (u + n) n); lia.
  - rewrite (H (u + (n - m))) by lia. destruct (Nat.ltb_spec (q + m) n), (Nat.ltb_spec (u + (n - m)) n); lia.
Qed.
Lemma ring_listed n d L w : pauli_word n w -> ((exists s, listed n true d (Nat.min L n) s /\ acts_on s w) <-> length w <= L /\ ring_near n d w).
Proof.
  intro W. assert (WN := word_length n w W). split.
  - intros (s & C & A). assert (LW : length w = length s) by (apply (acts_length n); [exact W|apply (listed_good _ _ _ _ _ C)|exact A]).
    destruct C as [->|[K (f & cs & F & G & B & ->)]].
    + destruct w as [|x w]; [|discriminate]. split; [cbn; lia|]. exists 0, []. split; [|apply near_nil]. split; [exact W|reflexivity].
    + split; [lia|]. set (g := fun q => letter w ((q + f) mod n)). assert (BG : forall q, (g q < 4)%N) by (intro q; apply letter_lt).
      assert (W' := spell_word g n BG). assert (G0 : forall a, In a (0 :: cs) -> a < n) by (intros a [<-|I]; [lia|apply (B a I)]).
      assert (SW : support (spell g n) = 0 :: cs).
      { apply (acts_sorted n); [exact W'|now apply (gapped_sorted d)|]. intro q. split.
        - intro I. assert (Q := support_lt n _ q W' I). apply letter_support in I. rewrite spell_letter in I by assumption. unfold g in I.
          apply letter_support, A in I. apply in_map_iff in I. destruct I as (a & E & I). unfold pos in E.
          rewrite (Nat.add_comm f a) in E. rewrite (Nat.add_comm a f), (Nat.add_comm q f) in E. apply add_mod_inj in E; [now subst q|now apply G0|exact Q].
        - intro I. assert (Q := G0 q I). apply letter_support. rewrite spell_letter by assumption. unfold g. apply letter_support, A.
          rewrite (Nat.add_comm q f). apply (in_map (pos n true f)), I. }
      exists (n - f), (spell g n). split.
      * split; [exact W'|]. intros q Q. rewrite spell_letter; [|exact BG|apply Nat.mod_upper_bound; lia]. unfold g. f_equal.
        rewrite Nat.add_mod_idemp_l by lia. replace (q + (n - f) + f) with (q + 1 * n) by lia. rewrite Nat.mod_add by lia. now apply Nat.mod_small.
      * apply (near_gapped d _ 0 cs SW); [rewrite SW; now apply (gapped_sorted d)|exact G].
  - intros [K (k & w' & [W' M] & N)].
    assert (IN : forall q, q < n -> (In q (support w) <-> In ((q + k) mod n) (support w'))).
    { intros q Q. rewrite <- !letter_support, (M q Q). reflexivity. }
    destruct n as [|n0].
    + exists []. split; [now left|]. destruct w as [|x w]; [intro q; reflexivity|]. destruct W as [_ O]. specialize (O x (or_introl eq_refl)). lia.
    + set (n := S n0) in *. assert (SS := support_sorted n w' W'). assert (LT := fun q => support_lt n w' q W').
      assert (NG := near_gapped d w'). destruct (support w') as [|u t] eqn:E.
      * exists []. split; [now left|]. intro q. split; [|intros []]. intro I. apply IN in I; [destruct I|]. now apply (support_lt n w).
      * specialize (NG u t eq_refl SS). apply NG in N. inversion SS as [|? ? S1 F1]; subst. rewrite Forall_forall in F1.
        set (m := n - k mod n). set (f := (u + m) mod n). set (cs := map (fun x => x - u) t).
        assert (BK : map (fun x => u + x) cs = t).
        { unfold cs. rewrite map_map. rewrite <- (map_id t) at 2. apply map_ext_in. intros x X. specialize (F1 x X). lia. }
        assert (C : chain_list n true d (map (pos n true f) (0 :: cs))).
        { exists f, cs. split; [apply Nat.mod_upper_bound; unfold n; lia|]. split; [apply (proj2 (shift_gapped d u cs 0)); now rewrite Nat.add_0_r, BK|].
          split; [|reflexivity]. intros a A. unfold cs in A. apply in_map_iff in A. destruct A as (x & <- & X). unfold fits.
          assert (x < n) by (apply LT; now right). lia. }
        assert (A : acts_on (map (pos n true f) (0 :: cs)) w).
        { intro q. assert (P : forall x, pos n true f x = (u + x + m) mod n).
          { intro x. unfold pos, f. rewrite Nat.add_mod_idemp_l by (unfold n; lia). f_equal. lia. }
          split.
          - intro I. assert (Q := support_lt n w q W I). apply IN in I; [|exact Q]. assert (U : (q + k) mod n < n) by (apply Nat.mod_upper_bound; unfold n; lia).
            assert (EQ := proj1 (mod_back n k q _ Q U) eq_refl). fold m in EQ. rewrite EQ. destruct I as [<-|I].
            + left. rewrite P. f_equal. lia.
            + right. rewrite <- BK in I. apply in_map_iff in I. destruct I as (x & <- & X). rewrite <- P. now apply in_map.
          - intro I. apply in_map_iff in I. destruct I as (x & <- & X). rewrite P. apply IN; [apply Nat.mod_upper_bound; unfold n; lia|].
            assert (X' : In (u + x) (u :: t)).
            { destruct X as [<-|X]; [left; lia|right]. rewrite <- BK. now apply (in_map (fun x => u + x)). }
            assert (U := LT _ X'). assert (Q : (u + x + m) mod n < n) by (apply Nat.mod_upper_bound; unfold n; lia).
            assert (EQ := proj2 (mod_back n k _ (u + x) Q U) eq_refl). rewrite EQ. exact X'. }
        exists (map (pos n true f) (0 :: cs)). split; [|exact A]. right. split; [|exact C].
        rewrite <- (acts_length n w _ W (proj1 (chain_list_good _ _ _ _ C)) A). lia.
Qed.
Theorem ring_words_listed wide c level d : is_lattice c = false -> pc_wrap c = true -> 0 < d ->
  exists l, pauli_osg wide c level d = DOk l /\ lists_words (pc_qubits c) (fun w => length w <= level /\ ring_near (pc_qubits c) d w) l.
Proof.
  intros IL W D. destruct (chain_value wide c level d IL D) as (ss & V & N & M). rewrite V. eexists. split; [reflexivity|]. rewrite W in M.
  apply lists_words_ext with (P := on_sites ss).
  - intros w PW. rewrite <- (ring_listed (pc_qubits c) d level w PW). unfold on_sites. split; intros (s & I & A); exists s; (split; [now apply M|exact A]).
  - apply fills_list. intros s I. apply M in I. now apply (listed_good _ _ _ _ _ I).
Qed.

(** no word twice, when no word can close up around the ring *)
Lemma ring_start n d k f cs f' cs' : f < n -> f' < n -> gapped d 0 cs -> gapped d 0 cs' -> (forall a, In a cs -> a < n) -> (forall a, In a cs' -> a < n) ->
  length cs < k -> length cs' < k -> k * d < n -> same_set (map (pos n true f) (0 :: cs)) (map (pos n true f') (0 :: cs')) -> f = f'.
Proof.
  intros F F' G G' B B' K K' KD E. assert (NZ : n <> 0) by lia.
  assert (I : In f (map (pos n true f') (0 :: cs'))).
  { apply E. left. now apply pos_zero. }
  apply in_map_iff in I. destruct I as (c' & EC & [<-|I]); [rewrite pos_zero in EC by exact F'; congruence|]. exfalso.
  destruct (gapped_pred d cs' 0 c' G' I) as (p & P & Q).
  assert (J : In (pos n true f' p) (map (pos n true f) (0 :: cs))) by (apply E, in_map, P).
  apply in_map_iff in J. destruct J as (x & EX & J). unfold pos in EC, EX.
  assert (X : x + d < n).
  { destruct J as [<-|J]; [nia|]. assert (U := gapped_upper d cs 0 x G J). nia. }
  rewrite <- EC in EX. rewrite Nat.add_mod_idemp_l in EX by exact NZ.
  assert (CN := B' c' I). assert (PN : p < n) by lia.
  replace (f' + c' + x) with ((f' + p) + (c' - p + x)) in EX by lia. replace (f' + p) with ((f' + p) + 0) in EX at 2 by lia.
  apply add_mod_inj in EX; lia.
Qed.
Lemma same_pos n f cs cs' d : gapped d 0 cs -> gapped d 0 cs' -> (forall a, In a cs -> a < n) -> (forall a, In a cs' -> a < n) -> f < n ->
  same_set (map (pos n true f) (0 :: cs)) (map (pos n true f) (0 :: cs')) -> cs = cs'.
Proof.
  intros G G' B B' F E. assert (H : forall a b l, In b l -> a < n -> (forall x, In x l -> x < n) -> pos n true f b = pos n true f a -> In a l).
  { intros a b l I A BL EQ. assert (b = a); [|now subst]. apply (pos_inj n true f); [apply (BL b I)|exact A|exact EQ]. }
  assert (B0 : forall a, In a (0 :: cs) -> a < n) by (intros a [<-|I]; [lia|now apply B]).
  assert (B0' : forall a, In a (0 :: cs') -> a < n) by (intros a [<-|I]; [lia|now apply B']).
  assert (X : 0 :: cs = 0 :: cs').
  { apply sorted_same; [now apply (gapped_sorted d)|now apply (gapped_sorted d)|]. intro q. split; intro I.
    - assert (J := proj1 (E _) (in_map (pos n true f) _ _ I)). apply in_map_iff in J. destruct J as (b & EQ & J). apply (H q b); auto.
    - assert (J := proj2 (E _) (in_map (pos n true f) _ _ I)). apply in_map_iff in J. destruct J as (b & EQ & J). apply (H q b); auto. }
  congruence.
Qed.
Lemma singleton_same (s s' : list nat) : length s <= 1 -> length s' <= 1 -> same_set s s' -> s = s'.
Proof.
  intros L L' E. destruct s as [|a [|? ?]]; [| |cbn in L; lia]; (destruct s' as [|b [|? ?]]; [| |cbn in L'; lia]).
  - reflexivity.
  - exfalso. apply (proj2 (E b)). now left.
  - exfalso. apply (proj1 (E a)). now left.
  - destruct (proj1 (E a) (or_introl eq_refl)) as [<-|[]]. reflexivity.
Qed.
Theorem ring_listed_once wide c level d : is_lattice c = false -> pc_wrap c = true -> 0 < d -> level <= 1 \/ Nat.min level (pc_qubits c) * d < pc_qubits c ->
  exists l, pauli_osg wide c level d = DOk l /\ lists_once (pc_qubits c) (fun w => length w <= level /\ ring_near (pc_qubits c) d w) l.
Proof.
  intros IL W D H. destruct (chain_value wide c level d IL D) as (ss & V & N & M). rewrite V. eexists. split; [reflexivity|]. rewrite W in M.
  apply lists_once_ext with (P := on_sites ss).
  - intros w PW. rewrite <- (ring_listed (pc_qubits c) d level w PW). unfold on_sites. split; intros (s & I & A); exists s; (split; [now apply M|exact A]).
  - apply fills_once; [|exact N|].
    + intros s I. apply M in I. now apply (listed_good _ _ _ _ _ I).
    + intros s s' I I' E. apply M in I, I'. destruct H as [H|H].
      * apply singleton_same; [| |exact E].
        -- destruct I as [->|[I _]]; [cbn; lia|lia].
        -- destruct I' as [->|[I' _]]; [cbn; lia|lia].
      * destruct I as [->|[K (f & cs & F & G & B & ->)]], I' as [->|[K' (f' & cs' & F' & G' & B' & ->)]].
        -- reflexivity.
        -- exfalso. apply (proj2 (E (pos (pc_qubits c) true f' 0))). now left.
        -- exfalso. apply (proj1 (E (pos (pc_qubits c) true f 0))). now left.
        -- cbn in K, K'. rewrite map_length in K, K'.
           assert (f = f') by (apply (ring_start (pc_qubits c) d (Nat.min level (pc_qubits c)) f cs f' cs'); auto; lia). subst f'.
           f_equal. f_equal. now apply (same_pos (pc_qubits c) f cs cs' d).
Qed.
