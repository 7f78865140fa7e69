(** Site hashes and canonical words: the statements. *)
From Coq Require Import List NArith ZArith Arith Bool Lia Sorted.
From Verif Require Import CoreModel SiteModel SiteSpec SiteBitProofs SiteShiftProofs SiteRowProofs SiteWordProofs SiteCanonProofs.
Import ListNotations.

Section Final.
  Variable wide : bool -> N -> N -> sout N.
  Variable h : hasher.
  Hypothesis Hh : hasher_ok h.
  Let n := h_qubits h.
  Let ch := h_col h.
  Let rw := h_row h.

  Lemma n_pos : 0 < n. Proof. apply Hh. Qed.
  Lemma nchrw : n = ch * rw. Proof. reflexivity. Qed.
  Lemma chp : 0 < ch. Proof. pose proof n_pos as A. rewrite nchrw in A. nia. Qed.
  Lemma rwp : 0 < rw. Proof. pose proof n_pos as A. rewrite nchrw in A. nia. Qed.

  Lemma cyclic_sites d offset : packed h d -> offset <= n \/ h_slides h <> 1 ->
    exists e, cyclic_shift wide h d offset = SOk e /\ packed h e /\ forall q, q < n -> site e ((q + offset) mod n) = site d q.
  Proof.
    intros P Ho. destruct (cyclic_correct wide h Hh d offset P Ho) as (e & E & Pe & R). exists e. split; [exact E|]. split; [exact Pe|].
    intros q Hq. pose proof n_pos. pose proof (Nat.mod_upper_bound offset n ltac:(lia)).
    rewrite <- Nat.add_mod_idemp_r by lia. apply (rotated_fwd h (offset mod n) d e q); auto; lia.
  Qed.

  (** chain *)
  Definition chain_act (k q : nat) : nat := (q + k) mod n.
  Lemma chain_act_in g q : q < n -> chain_act g q < n.
  Proof. intros. apply Nat.mod_upper_bound. lia. Qed.
  Lemma chain_act_comp g g' : exists g2, forall q, q < n -> chain_act g2 q = chain_act g (chain_act g' q).
  Proof.
    exists (g' + g). intros q Hq. unfold chain_act. rewrite Nat.add_mod_idemp_l by lia. f_equal. lia.
  Qed.
  Lemma mod_move a b m : a < m -> b < m -> exists t, (a + t) mod m = b.
  Proof.
    intros A B. exists (m - a + b). replace (a + (m - a + b)) with (b + 1 * m) by lia. rewrite Nat.mod_add by lia. now apply Nat.mod_small.
  Qed.
  Lemma mod_add_inj a b k m : a < m -> b < m -> (a + k) mod m = (b + k) mod m -> a = b.
  Proof.
    intros A B E. pose proof (Nat.mod_upper_bound k m ltac:(lia)) as K.
    assert (X : ((a + k) mod m + (m - k mod m)) mod m = ((b + k) mod m + (m - k mod m)) mod m) by now rewrite E.
    assert (Y : forall x, x < m -> ((x + k) mod m + (m - k mod m)) mod m = x).
    { intros x Hx. rewrite <- (Nat.add_mod_idemp_r x k) by lia. rewrite Nat.add_mod_idemp_l by lia.
      replace (x + k mod m + (m - k mod m)) with (x + 1 * m) by lia. rewrite Nat.mod_add by lia. now apply Nat.mod_small. }
    rewrite !Y in X by assumption. exact X.
  Qed.
  Lemma mod_free a g g' m : 0 < m -> (a + g) mod m = (a + g') mod m -> forall p, (p + g) mod m = (p + g') mod m.
  Proof.
    intros M E p. pose proof (Nat.mod_upper_bound g m ltac:(lia)). pose proof (Nat.mod_upper_bound g' m ltac:(lia)).
    assert (G : g mod m = g' mod m).
    { rewrite <- (Nat.add_mod_idemp_r a g), <- (Nat.add_mod_idemp_r a g') in E by lia.
      rewrite (Nat.add_comm a (g mod m)), (Nat.add_comm a (g' mod m)) in E. now apply (mod_add_inj _ _ a m). }
    rewrite <- (Nat.add_mod_idemp_r p g), <- (Nat.add_mod_idemp_r p g') by lia. now rewrite G.
  Qed.
  Lemma mod_inv g m : 0 < m -> exists g', forall q, q < m -> ((q + g) mod m + g') mod m = q /\ ((q + g') mod m + g) mod m = q.
  Proof.
    intros M. pose proof (Nat.mod_upper_bound g m ltac:(lia)). exists (m - g mod m). intros q Hq. split.
    - rewrite <- (Nat.add_mod_idemp_r q g) by lia. rewrite Nat.add_mod_idemp_l by lia.
      replace (q + g mod m + (m - g mod m)) with (q + 1 * m) by lia. rewrite Nat.mod_add by lia. now apply Nat.mod_small.
    - rewrite Nat.add_mod_idemp_l by lia. rewrite <- Nat.add_mod_idemp_r by lia.
      replace (q + (m - g mod m) + g mod m) with (q + 1 * m) by lia. rewrite Nat.mod_add by lia. now apply Nat.mod_small.
  Qed.
  Lemma chain_act_free g g' q : q < n -> chain_act g q = chain_act g' q -> forall p, p < n -> chain_act g p = chain_act g' p.
  Proof. intros Hq E p Hp. unfold chain_act in *. now apply (mod_free q g g' n); [lia|]. Qed.
  Lemma chain_act_inv g : exists g', forall q, q < n -> chain_act g' (chain_act g q) = q /\ chain_act g (chain_act g' q) = q.
  Proof. apply (mod_inv g n n_pos). Qed.
  Lemma chain_cand d op : packed h d -> op / 3 < n ->
    exists e g, candidate wide false h d op = SOk e /\ gmoved h nat chain_act g d e /\ chain_act g (op / 3) = 0.
  Proof.
    intros P Hq. unfold candidate. cbn match. fold n. destruct (cyclic_sites d (n - op / 3) P ltac:(left; lia)) as (e & E & Pe & S).
    exists e, (n - op / 3). split; [exact E|]. split; [split; [exact Pe|exact S]|]. unfold chain_act.
    replace (op / 3 + (n - op / 3)) with n by lia. apply Nat.mod_same. lia.
  Qed.

  (** lattice *)
  Lemma row_sites k d e row col : ch <= 32 -> row_rotated h k d e -> k <= ch -> row < ch -> col < rw ->
    site e (col * ch + (row + k) mod ch) = site d (col * ch + row).
  Proof.
    intros H32 R Hk Hr Hcol. pose proof (col_in h col Hcol) as Hin. fold ch n in Hin.
    set (r' := (row + k) mod ch). assert (Hr' : r' < ch) by (apply Nat.mod_upper_bound; lia).
    assert (E : r' = row + k \/ r' = row + k - ch /\ ch <= row + k).
    { unfold r'. destruct (Nat.lt_ge_cases (row + k) ch); [left; now apply Nat.mod_small|]. right. split; [|assumption].
      destruct (Nat.lt_ge_cases (row + k - ch) ch).
      - symmetry. apply (Nat.mod_unique _ ch 1); lia.
      - lia. }
    assert (B : forall t, t < 2 -> bit e (2 * (col * ch + r') + t) = bit d (2 * (col * ch + row) + t)).
    { intros t Ht. rewrite R by (fold n; lia). unfold rowbit. fold ch.
      replace (2 * (col * ch + r') + t) with (2 * (col * ch) + (2 * r' + t)) by lia.
      replace ((2 * (col * ch) + (2 * r' + t)) mod (2 * ch)) with (2 * r' + t).
      2:{ apply (Nat.mod_unique _ (2 * ch) col); lia. }
      destruct E as [E|[E Hge]]; rewrite E.
      - destruct (Nat.ltb_spec (2 * (row + k) + t) (2 * k)); [lia|]. f_equal. lia.
      - destruct (Nat.ltb_spec (2 * (row + k - ch) + t) (2 * k)); [|lia]. f_equal. lia. }
    rewrite !site_bits. pose proof (B 0 ltac:(lia)) as B0. rewrite !Nat.add_0_r in B0. rewrite B0, (B 1) by lia. reflexivity.
  Qed.

  Hypothesis Rok : rows_ok wide h.
  (** row offsets the hasher handles *)
  Definition row_offset_ok (offset : nat) : Prop := offset <= ch \/ h_slides h <= 2 \/ ch = rw.
  Lemma row_shift_sites d offset : packed h d -> row_offset_ok offset ->
    exists e, row_cyclic_shift wide h d offset = SOk e /\ packed h e /\
      forall row col, row < ch -> col < rw -> site e (col * ch + (row + offset) mod ch) = site d (col * ch + row).
  Proof.
    intros P Ro. pose proof chp as Cp. pose proof rwp as Rp. unfold row_cyclic_shift. unfold rows_ok in Rok. pose proof (s_pos h Hh) as Sp.
    pose proof Hh as (A & B & _). fold n in A, B.
    assert (Fin : forall k e, packed h e -> ch <= 32 -> row_rotated h k d e -> k <= ch -> k mod ch = offset mod ch ->
      forall row col, row < ch -> col < rw -> site e (col * ch + (row + offset) mod ch) = site d (col * ch + row)).
    { intros k e Pe H32 R Hk Em row col Hr Hcol. rewrite <- Nat.add_mod_idemp_r by lia. rewrite <- Em. rewrite Nat.add_mod_idemp_r by lia. now apply row_sites. }
    pose proof (Nat.mod_upper_bound offset ch ltac:(lia)) as Hm. fold ch rw in Rok.
    destruct (h_slides h) as [|[|[|s']]] eqn:Es; [lia| | |].
    - assert (H32 : ch <= 32) by (rewrite nchrw in B; nia).
      destruct (row_1_correct wide h Hh H32 d offset Es P) as (e & E & Pe & R). exists e. split; [exact E|]. split; [exact Pe|].
      apply (Fin (offset mod ch)); auto; [fold ch; lia|]. apply Nat.mod_mod. lia.
    - destruct Rok as [H32 Hw]. destruct (row_2_correct wide h Hh H32 Es Hw d offset P) as (e & E & Pe & R).
      exists e. split; [exact E|]. split; [exact Pe|].
      apply (Fin (offset mod ch)); auto; [fold ch; lia|]. apply Nat.mod_mod. lia.
    - destruct Rok as [Hcr H32]. 
      assert (Hk : offset mod rw <= ch /\ (offset mod rw) mod ch = offset mod ch).
      { destruct Ro as [Ho|[Ho|Ho]]; [|lia|].
        - destruct (Nat.lt_ge_cases offset rw) as [Hl|Hl]; [rewrite (Nat.mod_small offset rw) by exact Hl; auto|].
          assert (offset = rw) by lia. subst offset. assert (ch = rw) as -> by lia. rewrite !Nat.mod_same by lia. rewrite Nat.mod_0_l by lia. lia.
        - rewrite Ho. pose proof (Nat.mod_upper_bound offset rw ltac:(lia)). split; [lia|]. apply Nat.mod_mod. lia. }
      destruct Hk as [Hk1 Hk2]. assert (H32' : ch <= 32) by lia.
      destruct (row_n_correct wide h Hh H32' d offset P) as (e & E & Pe & R); [exact Hk1|fold rw; lia|].
      exists e. split; [exact E|]. split; [exact Pe|]. now apply (Fin (offset mod rw)).
  Qed.

  Lemma col_shift_sites d offset : packed h d ->
    exists e, col_shift wide h d offset = SOk e /\ packed h e /\
      forall row col, row < ch -> col < rw -> site e ((col + offset) mod rw * ch + row) = site d (col * ch + row).
  Proof.
    intros P. pose proof chp. pose proof rwp. unfold col_shift. fold rw ch. pose proof (Nat.mod_upper_bound offset rw ltac:(lia)) as Hm.
    destruct (cyclic_sites d (offset mod rw * ch) P) as (e & E & Pe & S).
    { left. rewrite nchrw. nia. }
    exists e. split; [exact E|]. split; [exact Pe|]. intros row col Hr Hcol.
    pose proof (col_in h col Hcol) as Hin. fold ch n in Hin. rewrite <- (S (col * ch + row)) by lia. f_equal.
    rewrite <- (Nat.add_mod_idemp_r col offset) by lia. set (t := offset mod rw) in *.
    destruct (Nat.lt_ge_cases (col + t) rw) as [L|L].
    - rewrite (Nat.mod_small (col + t)) by exact L. rewrite Nat.mod_small by (rewrite nchrw; nia). nia.
    - replace ((col + t) mod rw) with (col + t - rw) by (apply (Nat.mod_unique _ rw 1); lia).
      apply (Nat.mod_unique _ n 1); rewrite nchrw; nia.
  Qed.

  Definition lat_act (g : nat * nat) (q : nat) : nat := (q / ch + snd g) mod rw * ch + (q mod ch + fst g) mod ch.
  Lemma lat_parts a b : b < ch -> (a * ch + b) / ch = a /\ (a * ch + b) mod ch = b.
  Proof.
    intros Hb. split.
    - symmetry. apply (Nat.div_unique _ ch a b); lia.
    - symmetry. apply (Nat.mod_unique _ ch a b); lia.
  Qed.
  Lemma lat_range q : q < n -> q / ch < rw /\ q mod ch < ch /\ q = q / ch * ch + q mod ch.
  Proof.
    intros Hq. pose proof chp. split; [apply Nat.div_lt_upper_bound; [lia|rewrite <- nchrw; exact Hq]|].
    split; [apply Nat.mod_upper_bound; lia|]. rewrite (Nat.mul_comm _ ch). apply Nat.div_mod. lia.
  Qed.
  Lemma lat_act_parts g q : lat_act g q / ch = (q / ch + snd g) mod rw /\ lat_act g q mod ch = (q mod ch + fst g) mod ch.
  Proof. pose proof chp. unfold lat_act. apply lat_parts. apply Nat.mod_upper_bound. lia. Qed.
  Lemma lat_act_in g q : q < n -> lat_act g q < n.
  Proof.
    intros Hq. unfold lat_act. pose proof chp. pose proof rwp.
    pose proof (Nat.mod_upper_bound (q / ch + snd g) rw ltac:(lia)). pose proof (Nat.mod_upper_bound (q mod ch + fst g) ch ltac:(lia)).
    rewrite nchrw. nia.
  Qed.
  Lemma lat_act_comp g g' : exists g2, forall q, q < n -> lat_act g2 q = lat_act g (lat_act g' q).
  Proof.
    exists (fst g' + fst g, snd g' + snd g). intros q Hq. unfold lat_act at 1 2. destruct (lat_act_parts g' q) as [-> ->]. cbn [fst snd].
    pose proof chp. pose proof rwp. rewrite (Nat.add_mod_idemp_l (q / ch + snd g')), (Nat.add_mod_idemp_l (q mod ch + fst g')) by lia. rewrite !Nat.add_assoc. reflexivity.
  Qed.
  Lemma lat_act_free g g' q : q < n -> lat_act g q = lat_act g' q -> forall p, p < n -> lat_act g p = lat_act g' p.
  Proof.
    intros Hq E p Hp. pose proof chp. pose proof rwp. destruct (lat_act_parts g q) as [A1 A2]. destruct (lat_act_parts g' q) as [B1 B2]. rewrite E in A1, A2.
    unfold lat_act. f_equal; [f_equal|].
    - apply (mod_free (q / ch)); [lia|]. congruence.
    - apply (mod_free (q mod ch)); [lia|]. congruence.
  Qed.
  Lemma lat_act_inv g : exists g', forall q, q < n -> lat_act g' (lat_act g q) = q /\ lat_act g (lat_act g' q) = q.
  Proof.
    pose proof chp as C. pose proof rwp as R. destruct (mod_inv (fst g) ch C) as [a Ha]. destruct (mod_inv (snd g) rw R) as [b Hb].
    exists (a, b). intros q Hq. destruct (lat_range q Hq) as (Q1 & Q2 & Q3). destruct (Ha _ Q2) as [A1 A2]. destruct (Hb _ Q1) as [B1 B2]. split.
    - unfold lat_act at 1. destruct (lat_act_parts g q) as [-> ->]. cbn [fst snd]. rewrite A1, B1. now symmetry.
    - unfold lat_act at 1. destruct (lat_act_parts (a, b) q) as [-> ->]. cbn [fst snd]. rewrite A2, B2. now symmetry.
  Qed.
  Lemma lattice_shift_sites d r c : packed h d -> row_offset_ok r ->
    exists e, lattice_shift wide h d r c = SOk e /\ gmoved h (nat * nat) lat_act (r, c) d e.
  Proof.
    intros P Hr. unfold lattice_shift. destruct (col_shift_sites d c P) as (x & -> & Px & Sx). cbn [sbind].
    destruct (row_shift_sites x r Px Hr) as (e & E & Pe & Se). exists e. split; [exact E|]. split; [exact Pe|]. intros q Hq.
    destruct (lat_range q Hq) as (Q1 & Q2 & Q3). pose proof rwp. unfold lat_act. cbn [fst snd].
    rewrite Se by (try assumption; apply Nat.mod_upper_bound; lia). rewrite Sx by assumption. now rewrite <- Q3.
  Qed.
  Lemma lat_cand d op : packed h d -> op / 3 < n ->
    exists e g, candidate wide true h d op = SOk e /\ gmoved h (nat * nat) lat_act g d e /\ lat_act g (op / 3) = 0.
  Proof.
    intros P Hq. unfold candidate. fold ch rw. set (q := op / 3) in *. destruct (lat_range q Hq) as (Q1 & Q2 & Q3).
    destruct (lattice_shift_sites d (ch - q mod ch) (rw - q / ch) P) as (e & E & M); [left; lia|].
    exists e, (ch - q mod ch, rw - q / ch). split; [exact E|]. split; [exact M|]. unfold lat_act. cbn [fst snd].
    replace (q / ch + (rw - q / ch)) with rw by lia. replace (q mod ch + (ch - q mod ch)) with ch by lia.
    pose proof chp. pose proof rwp. rewrite !Nat.mod_same by lia. reflexivity.
  Qed.
End Final.

Section Chain.
  Variable wide : bool -> N -> N -> sout N.
  Variable h : hasher.
  Hypothesis Hh : hasher_ok h.
  Hypothesis H1 : h_row h = 1.
  Let n := h_qubits h.
  Lemma chain_mode : false = negb (Nat.eqb (h_row h) 1). Proof. now rewrite H1. Qed.
  Lemma chain_word g w w' : word_moved h nat (chain_act h) g w w' <-> chain_moved n g w w'.
  Proof. reflexivity. Qed.
  Lemma chain_canonical_translate w : pauli_word n w -> exists w0 k, wrap_canonical wide h w = SOk w0 /\ chain_moved n k w w0.
  Proof. apply (generic_translate wide h Hh false nat (chain_act h) 0 (chain_act_in h) (chain_act_free h) (chain_act_inv h Hh) (chain_cand wide h Hh) chain_mode). Qed.
  Lemma chain_canonical_decides w w' : pauli_word n w -> pauli_word n w' ->
    (wrap_canonical wide h w = wrap_canonical wide h w' <-> chain_equivalent n w w').
  Proof. apply (generic_decides wide h Hh false nat (chain_act h) 0 (chain_act_in h) (chain_act_free h) (chain_act_comp h) (chain_act_inv h Hh) (chain_cand wide h Hh) chain_mode). Qed.
  Lemma chain_canonical_is w : pauli_word n w ->
    exists r, wrap_is_canonical wide h w = SOk r /\ (r = true <-> wrap_canonical wide h w = SOk w).
  Proof. apply (generic_is_canonical wide h Hh false nat (chain_act h) (chain_act_in h) (chain_act_free h) (chain_act_inv h Hh) (chain_cand wide h Hh) chain_mode). Qed.
  Lemma chain_canonical_minimal w : pauli_word n w -> w <> [] ->
    exists w0, wrap_canonical wide h w = SOk w0 /\ letter w0 0 <> 0%N /\
    forall k w', chain_moved n k w w' -> letter w' 0 <> 0%N -> w' <> w0 ->
      exists q, q < n /\ (letter w0 q < letter w' q)%N /\ forall t, q < t -> letter w0 t = letter w' t.
  Proof. apply (generic_minimal wide h Hh false nat (chain_act h) (chain_act_in h) (chain_act_free h) (chain_act_inv h Hh) (chain_cand wide h Hh) chain_mode). Qed.
End Chain.

Section Lattice.
  Variable wide : bool -> N -> N -> sout N.
  Variable h : hasher.
  Hypothesis Hh : hasher_ok h.
  Hypothesis H1 : h_row h <> 1.
  Hypothesis Rok : rows_ok wide h.
  Let n := h_qubits h.
  Let ch := h_col h.
  Let rw := h_row h.
  Lemma lat_mode : true = negb (Nat.eqb (h_row h) 1). Proof. apply Nat.eqb_neq in H1. now rewrite H1. Qed.
  Lemma lat_word r c w w' : word_moved h (nat * nat) (lat_act h) (r, c) w w' <-> lattice_moved ch rw r c w w'.
  Proof.
    unfold word_moved, lattice_moved. fold n. replace (ch * rw) with n by reflexivity. split; intros [W M]; (split; [exact W|]).
    - intros row col Hr Hc. pose proof (col_in h col Hc) as Hin. fold ch n in Hin. fold ch in Hr.
      specialize (M (col * ch + row) ltac:(lia)). unfold lat_act in M. fold ch rw in M. cbn [fst snd] in M.
      destruct (lat_parts h col row Hr) as [A B]. fold ch in A, B. rewrite A, B in M. exact M.
    - intros q Hq. destruct (lat_range h Hh q Hq) as (Q1 & Q2 & Q3). fold ch in Q1, Q2, Q3. unfold lat_act. fold ch rw. cbn [fst snd].
      rewrite M by assumption. now rewrite <- Q3.
  Qed.
  Lemma lat_canonical_translate w : pauli_word n w -> exists w0 r c, wrap_canonical wide h w = SOk w0 /\ lattice_moved ch rw r c w w0.
  Proof.
    intros W. destruct (generic_translate wide h Hh true _ (lat_act h) (0, 0) (lat_act_in h Hh) (lat_act_free h Hh) (lat_act_inv h Hh)
      (lat_cand wide h Hh Rok) lat_mode w W) as (w0 & [r c] & E & M). exists w0, r, c. split; [exact E|]. now apply lat_word.
  Qed.
  Lemma lat_canonical_decides w w' : pauli_word n w -> pauli_word n w' ->
    (wrap_canonical wide h w = wrap_canonical wide h w' <-> lattice_equivalent ch rw w w').
  Proof.
    intros W W'. rewrite (generic_decides wide h Hh true _ (lat_act h) (0, 0) (lat_act_in h Hh) (lat_act_free h Hh) (lat_act_comp h Hh) (lat_act_inv h Hh)
      (lat_cand wide h Hh Rok) lat_mode w w' W W'). split.
    - intros [[r c] M]. exists r, c. now apply lat_word.
    - intros (r & c & M). exists (r, c). now apply lat_word.
  Qed.
  Lemma lat_canonical_is w : pauli_word n w ->
    exists r, wrap_is_canonical wide h w = SOk r /\ (r = true <-> wrap_canonical wide h w = SOk w).
  Proof. apply (generic_is_canonical wide h Hh true _ (lat_act h) (lat_act_in h Hh) (lat_act_free h Hh) (lat_act_inv h Hh) (lat_cand wide h Hh Rok) lat_mode). Qed.
  Lemma lat_canonical_minimal w : pauli_word n w -> w <> [] ->
    exists w0, wrap_canonical wide h w = SOk w0 /\ letter w0 0 <> 0%N /\
    forall r c w', lattice_moved ch rw r c w w' -> letter w' 0 <> 0%N -> w' <> w0 ->
      exists q, q < n /\ (letter w0 q < letter w' q)%N /\ forall t, q < t -> letter w0 t = letter w' t.
  Proof.
    intros W Ne. destruct (generic_minimal wide h Hh true _ (lat_act h) (lat_act_in h Hh) (lat_act_free h Hh) (lat_act_inv h Hh)
      (lat_cand wide h Hh Rok) lat_mode w W Ne) as (w0 & E & L & M). exists w0. split; [exact E|]. split; [exact L|].
    intros r c w' Mv. apply (M (r, c)). now apply lat_word.
  Qed.
End Lattice.
