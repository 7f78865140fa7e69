(** A representation mapper gives a representation. *)
From Coq Require Import List Arith NArith Bool Lia Ring.
From Verif Require Import CoreModel AlgModel RepModel RepSpec.
Import ListNotations.

(** * Lists of pairs *)
Lemma nth_flat {A B C} (f : A -> B -> C) (R : list B) a0 b0 c0 : forall (L : list A) i, i < length L * length R -> nth i (flat_map (fun l => map (f l) R) L) c0 = f (nth (i / length R) L a0) (nth (i mod length R) R b0).
Proof.
  induction L as [|l L IH]; intros i Hi; [cbn in Hi; lia|]. cbn [flat_map]. assert (Hr : length R <> 0) by (intros E; cbn in Hi; rewrite E in Hi; lia). destruct (lt_dec i (length R)) as [Li|Li].
  - rewrite app_nth1 by (now rewrite map_length). rewrite Nat.div_small, Nat.mod_small by exact Li. cbn. rewrite (nth_indep _ c0 (f l b0)) by (now rewrite map_length). apply map_nth.
  - rewrite app_nth2, map_length by (rewrite map_length; lia). rewrite IH by (cbn in Hi; lia). assert (Ei : i = (i - length R) + 1 * length R) by lia. rewrite Ei at 3 4. rewrite Nat.div_add, Nat.mod_add by exact Hr. rewrite Nat.add_1_r. reflexivity.
Qed.
Lemma flat_length {A B C} (f : A -> B -> C) (R : list B) (L : list A) : length (flat_map (fun l => map (f l) R) L) = length L * length R.
Proof. induction L as [|l L IH]; [reflexivity|]. cbn. now rewrite app_length, map_length, IH. Qed.
Lemma sequence_all {X} : forall (l : list (option X)), (forall x, In x l -> x <> None) -> exists r, sequence l = Some r /\ l = map Some r.
Proof.
  induction l as [|x l IH]; intros H; [exists []; split; reflexivity|]. destruct IH as [r [E F]]; [intros y I; apply H; now right|]. destruct x as [x|]; [|exfalso; apply (H None); [now left|reflexivity]].
  exists (x :: r). cbn. rewrite E. split; [reflexivity|]. now rewrite F at 1.
Qed.
Fixpoint firstpos (m : nat) (l : list nat) : option nat :=
  match l with [] => None | x :: l' => if x =? m then Some 0 else option_map S (firstpos m l') end.
Lemma firstpos_some m : forall l i, firstpos m l = Some i -> i < length l /\ nth i l 0 = m.
Proof.
  induction l as [|x l IH]; intros i; [discriminate|]. cbn [firstpos]. destruct (Nat.eqb_spec x m) as [->|Ne]; [intros H; injection H as <-; cbn; split; [lia|reflexivity]|].
  destruct (firstpos m l) as [j|]; [|discriminate]. intros H. injection H as <-. destruct (IH j eq_refl). cbn. split; [lia|assumption].
Qed.
Lemma firstpos_in m l : In m l -> exists i, firstpos m l = Some i.
Proof. induction l as [|x l IH]; [contradiction|]. cbn [firstpos]. destruct (Nat.eqb_spec x m) as [->|Ne]; [now exists 0|]. intros [E|I]; [contradiction|]. destruct (IH I) as [i ->]. now exists (S i). Qed.

Section Map.
  Variable A : algebra.
  Notation K := (sc A). Notation k0 := (s0 A). Notation k1 := (s1 A). Notation ka := (sadd A). Notation km := (smul A). Notation va := (vadd A). Notation vs := (vscale A). Notation vm := (vmul A). Notation vz := (v0 A).
  Add Ring Kr : (s_ring A).
  Notation ft := (from_triplets k0 k1 ka).
  Notation ksum := (sum k0 ka).

  (** * Sums *)
  Lemma v_unit_r a : va a vz = a. Proof. rewrite v_comm. apply v_unit. Qed.
  Lemma scale_v0 k : vs k vz = vz.
  Proof. rewrite <- (v_scale_0 A vz), <- v_scale_mul. f_equal. ring. Qed.
  Definition vfold (l : list nat) (f : nat -> vt A) : vt A := fold_right (fun i a => va (f i) a) vz l.
  Definition kfold (l : list nat) (f : nat -> K) : K := fold_right (fun i a => ka (f i) a) k0 l.
  Lemma vfold_cons x l f : vfold (x :: l) f = va (f x) (vfold l f). Proof. reflexivity. Qed.
  Lemma vfold_nil f : vfold [] f = vz. Proof. reflexivity. Qed.
  Lemma kfold_cons x l f : kfold (x :: l) f = ka (f x) (kfold l f). Proof. reflexivity. Qed.
  Lemma kfold_nil f : kfold [] f = k0. Proof. reflexivity. Qed.
  Ltac vc := cbn [app map]; rewrite ?vfold_cons, ?vfold_nil, ?kfold_cons, ?kfold_nil.
  Lemma vfold_ext l f g : (forall i, In i l -> f i = g i) -> vfold l f = vfold l g.
  Proof. induction l as [|x l IH]; intros H; [reflexivity|]. vc. rewrite H, IH; [reflexivity| |now left]. intros i I. apply H. now right. Qed.
  Lemma vsum_ext n f g : (forall i, i < n -> f i = g i) -> vsum A n f = vsum A n g.
  Proof. intros H. apply vfold_ext. intros i I. apply H. apply in_seq in I. lia. Qed.
  Lemma vfold_zero l : vfold l (fun _ => vz) = vz.
  Proof. induction l as [|x l IH]; [reflexivity|]. vc. now rewrite v_unit. Qed.
  Lemma vfold_add l f g : vfold l (fun i => va (f i) (g i)) = va (vfold l f) (vfold l g).
  Proof.
    induction l as [|x l IH]; vc; [now rewrite v_unit|]. rewrite IH. rewrite !v_assoc. f_equal. rewrite <- !v_assoc. f_equal. apply v_comm.
  Qed.
  Lemma vfold_swap l m (f : nat -> nat -> vt A) : vfold l (fun i => vfold m (f i)) = vfold m (fun j => vfold l (fun i => f i j)).
  Proof. induction l as [|x l IH]; [symmetry; apply vfold_zero|]. vc. rewrite IH, <- vfold_add. reflexivity. Qed.
  Lemma vfold_scale l k f : vs k (vfold l f) = vfold l (fun i => vs k (f i)).
  Proof. induction l as [|x l IH]; vc; [apply scale_v0|]. now rewrite v_scale_vadd, IH. Qed.
  Lemma kfold_scale l f v : vs (kfold l f) v = vfold l (fun i => vs (f i) v).
  Proof. induction l as [|x l IH]; vc; [apply v_scale_0|]. now rewrite v_scale_add, IH. Qed.
  Lemma mul_v0_l v : vm vz v = vz. Proof. rewrite <- (v_scale_0 A vz) at 1. rewrite v_mul_sl. apply v_scale_0. Qed.
  Lemma mul_v0_r v : vm v vz = vz. Proof. rewrite <- (v_scale_0 A vz) at 1. rewrite v_mul_sr. apply v_scale_0. Qed.
  Lemma vfold_mul l m f g : vm (vfold l f) (vfold m g) = vfold l (fun i => vfold m (fun j => vm (f i) (g j))).
  Proof.
    induction l as [|x l IH]; vc; [apply mul_v0_l|]. rewrite v_mul_l, IH. f_equal. clear. induction m as [|y m IH]; vc; [apply mul_v0_r|]. now rewrite v_mul_r, IH.
  Qed.
  Lemma vfold_app l m f : vfold (l ++ m) f = va (vfold l f) (vfold m f).
  Proof. induction l as [|x l IH]; vc; [now rewrite v_unit|]. now rewrite IH, v_assoc. Qed.
  Lemma vfold_map g l f : vfold (map g l) f = vfold l (fun i => f (g i)).
  Proof. induction l as [|x l IH]; vc; [reflexivity|]. now rewrite IH. Qed.
  Lemma seq_shift_by : forall n k, seq k n = map (fun y => k + y) (seq 0 n).
  Proof. induction n as [|n IH]; intros k; [reflexivity|]. cbn [seq map]. rewrite Nat.add_0_r. f_equal. rewrite IH, (IH 1), map_map. apply map_ext. intros a. lia. Qed.
  Lemma vsum_block q f : forall p, vsum A (p * q) f = vsum A p (fun x => vsum A q (fun y => f (x * q + y))).
  Proof.
    assert (V : forall n g, vsum A n g = vfold (seq 0 n) g) by reflexivity.
    induction p as [|p IH]; [reflexivity|]. rewrite (V (S p)). replace (S p) with (p + 1) by lia. rewrite seq_app. cbn [seq plus]. rewrite vfold_app, vfold_cons, vfold_nil, v_unit_r. rewrite <- (V p), <- IH, !V.
    replace ((p + 1) * q) with (p * q + q) by lia. rewrite seq_app, vfold_app. f_equal. cbn [plus]. now rewrite seq_shift_by, vfold_map.
  Qed.
  (** a sum with one term *)
  Lemma vfold_one l f i : NoDup l -> In i l -> (forall j, In j l -> j <> i -> f j = vz) -> vfold l f = f i.
  Proof.
    induction l as [|x l IH]; intros N I H; [contradiction|]. inversion_clear N as [|? ? Nx Nl]. vc. destruct I as [->|I].
    - rewrite (vfold_ext l f (fun _ => vz)), vfold_zero, v_unit_r; [reflexivity|]. intros j Ij. apply H; [now right|]. intros ->. contradiction.
    - rewrite H; [|now left|intros ->; contradiction]. rewrite v_unit. apply IH; [exact Nl|exact I|]. intros j Ij. apply H. now right.
  Qed.
  Lemma kfold_zero l f : (forall j, In j l -> f j = k0) -> kfold l f = k0.
  Proof. induction l as [|y l IH]; intros H; [reflexivity|]. vc. rewrite (H y), IH; [ring| |now left]. intros j Ij. apply H. now right. Qed.
  Lemma kfold_one l f i : NoDup l -> In i l -> (forall j, In j l -> j <> i -> f j = k0) -> kfold l f = f i.
  Proof.
    induction l as [|x l IH]; intros N I H; [contradiction|]. inversion_clear N as [|? ? Nx Nl]. vc. destruct I as [->|I].
    - assert (Z : kfold l f = k0) by (apply kfold_zero; intros j Ij; apply H; [now right|intros ->; contradiction]).
      change (ka (f i) (kfold l f) = f i). rewrite Z. ring.
    - change (ka (f x) (kfold l f) = f i). rewrite H; [|now left|intros ->; contradiction]. rewrite IH; [ring|exact Nl|exact I|]. intros j Ij. apply H. now right.
  Qed.

  (** * The two matrices of the mapper *)
  Lemma lhs_entry : forall rm raw r c, ft (lhs_triplets raw rm) r c = if (raw <=? c) && (c <? raw + length rm) && (nth (c - raw) rm 0 =? S r) then k1 else k0.
  Proof.
    induction rm as [|m rm IH]; intros raw r c; cbn [lhs_triplets length].
    - unfold from_triplets. cbn [fold_right]. rewrite Nat.add_0_r. destruct (raw <=? c) eqn:Q; [|reflexivity]. apply Nat.leb_le in Q. assert (Q2 : (c <? raw) = false) by (apply Nat.ltb_ge; lia). now rewrite Q2.
    - unfold from_triplets. rewrite fold_right_app. fold (ft (lhs_triplets (S raw) rm) r c). rewrite IH. destruct (Nat.eq_dec c raw) as [->|Ne].
      + assert (Q1 : (S raw <=? raw) = false) by (apply Nat.leb_gt; lia). rewrite Q1. cbn [andb]. rewrite Nat.leb_refl, Nat.sub_diag. assert (Q2 : (raw <? raw + S (length rm)) = true) by (apply Nat.ltb_lt; lia). rewrite Q2. cbn [andb nth]. destruct m as [|m]; cbn; [reflexivity|].
        rewrite Nat.sub_0_r, Nat.eqb_refl, andb_true_r. destruct (m =? r); [ring|reflexivity].
      + assert (X : fold_right (fun t a => if (fst t =? r) && (snd t =? c) then ka k1 a else a) (if (S raw <=? c) && (c <? S raw + length rm) && (nth (c - S raw) rm 0 =? S r) then k1 else k0) (if 0 <? m then [(m - 1, raw)] else []) = if (S raw <=? c) && (c <? S raw + length rm) && (nth (c - S raw) rm 0 =? S r) then k1 else k0).
        { destruct (0 <? m); [|reflexivity]. cbn [fold_right fst snd]. assert (Q : (raw =? c) = false) by (apply Nat.eqb_neq; lia). now rewrite Q, andb_false_r. }
        rewrite X. replace (raw + S (length rm)) with (S raw + length rm) by lia. destruct (S raw <=? c) eqn:Q1.
        * apply Nat.leb_le in Q1. assert (Q2 : (raw <=? c) = true) by (apply Nat.leb_le; lia). rewrite Q2. replace (c - raw) with (S (c - S raw)) by lia. reflexivity.
        * apply Nat.leb_gt in Q1. assert (Q2 : (raw <=? c) = false) by (apply Nat.leb_gt; lia). now rewrite Q2.
  Qed.
  Lemma rhs_entry : forall rm raw done r c, ft (rhs_triplets raw done rm) r c = if existsb (Nat.eqb c) done then k0 else match firstpos (S c) rm with Some i => if r =? raw + i then k1 else k0 | None => k0 end.
  Proof.
    induction rm as [|m rm IH]; intros raw done r c; cbn [rhs_triplets firstpos]; [cbn; now destruct (existsb (Nat.eqb c) done)|].
    assert (Sh : forall q, match option_map S q with Some i => if r =? raw + i then k1 else k0 | None => k0 end = match q with Some i => if r =? S raw + i then k1 else k0 | None => k0 end) by (intros [i|]; cbn; [now rewrite Nat.add_succ_r|reflexivity]).
    destruct (Nat.eqb_spec m (S c)) as [->|Ne].
    - cbn [Nat.ltb Nat.leb Nat.sub andb]. rewrite Nat.sub_0_r. destruct (existsb (Nat.eqb c) done) eqn:D; cbn [negb].
      + rewrite IH, D. reflexivity.
      + unfold from_triplets. cbn [fold_right fst snd]. fold (ft (rhs_triplets (S raw) (c :: done) rm) r c). rewrite IH. cbn [existsb]. rewrite !Nat.eqb_refl. cbn [orb]. rewrite andb_true_r, Nat.add_0_r, (Nat.eqb_sym r raw). destruct (raw =? r); [ring|reflexivity].
    - destruct ((0 <? m) && negb (existsb (Nat.eqb (m - 1)) done)) eqn:Q.
      + apply andb_true_iff in Q. destruct Q as [Q _]. apply Nat.ltb_lt in Q. unfold from_triplets. cbn [fold_right fst snd]. fold (ft (rhs_triplets (S raw) ((m - 1) :: done) rm) r c). assert (Q2 : (m - 1 =? c) = false) by (apply Nat.eqb_neq; lia). rewrite Q2, andb_false_r, IH. cbn [existsb]. rewrite (Nat.eqb_sym c), Q2. cbn [orb]. now rewrite Sh.
      + rewrite IH. now rewrite Sh.
  Qed.

  (** * One mapper *)
  Section One.
    Variables (L R T : list (vt A)) (rm : list nat) (phi : vt A -> vt A) (a b : nat -> nat -> K).
    Notation nL := (length L). Notation nR := (length R).
    Hypothesis rm_length : length rm = nL * nR.
    Hypothesis rm_value : forall i, i < nL * nR -> let w := vm (nth (i / nR) L vz) (nth (i mod nR) R vz) in (nth i rm 0 = 0 /\ w = vz) \/ (exists k, nth i rm 0 = S k /\ k < length T /\ nth k T vz = w).
    Hypothesis rm_cover : forall k, k < length T -> In (S k) rm.
    Hypothesis phi_mul : multiplicative A phi.
    Hypothesis Ha : represents A phi L a.
    Hypothesis Hb : represents A phi R b.
    Variables (len : N).
    Lemma one_mapper : represents A phi T (apply_mapper k0 k1 ka km (mk_mapper len nL nR (nL * nR) (length T) rm) a b).
    Proof.
      intros c Hc. destruct (firstpos_in (S c) rm (rm_cover c Hc)) as [f Ff]. destruct (firstpos_some _ _ _ Ff) as [Lf Vf]. rewrite rm_length in Lf. set (n := nL * nR) in *.
      assert (Hr : nR <> 0) by (intros E; unfold n in Lf; rewrite E in Lf; lia).
      assert (Df : f / nR < nL) by (apply Nat.div_lt_upper_bound; unfold n in Lf; lia). assert (Mf : f mod nR < nR) by (now apply Nat.mod_upper_bound).
      set (kr := kronecker km nR a b).
      assert (E : forall r, apply_mapper k0 k1 ka km (mk_mapper len nL nR n (length T) rm) a b r c = ksum n (fun i => km (if nth i rm 0 =? S r then k1 else k0) (kr i f))).
      { intros r. unfold apply_mapper. cbn [mp_raw mp_right mp_remap]. fold kr. unfold sum at 1. change (kfold (seq 0 n) (fun j => km (ksum n (fun i => km (ft (lhs_triplets 0 rm) r i) (kr i j))) (ft (rhs_triplets 0 [] rm) j c)) = ksum n (fun i => km (if nth i rm 0 =? S r then k1 else k0) (kr i f))).
        rewrite (kfold_one _ _ f); [|apply seq_NoDup|apply in_seq; lia|].
        - rewrite rhs_entry. cbn [existsb]. rewrite Ff, Nat.add_0_l, Nat.eqb_refl. transitivity (ksum n (fun i => km (ft (lhs_triplets 0 rm) r i) (kr i f))); [ring|]. unfold sum. assert (X : forall l, (forall i, In i l -> i < n) -> fold_right (fun i x => ka (km (ft (lhs_triplets 0 rm) r i) (kr i f)) x) k0 l = fold_right (fun i x => ka (km (if nth i rm 0 =? S r then k1 else k0) (kr i f)) x) k0 l).
          { induction l as [|i l IH]; intros Hl; [reflexivity|]. cbn [fold_right]. rewrite IH by (intros j Ij; apply Hl; now right). rewrite lhs_entry, Nat.sub_0_r. assert (Q1 : (i <? 0 + length rm) = true) by (apply Nat.ltb_lt; rewrite rm_length; apply Hl; now left). now rewrite Q1. }
          apply X. intros i I. apply in_seq in I. lia.
        - intros j _ Nj. rewrite rhs_entry. cbn [existsb]. rewrite Ff, Nat.add_0_l. assert (Q : (j =? f) = false) by (now apply Nat.eqb_neq). rewrite Q. ring. }
      transitivity (vsum A n (fun i => vs (kr i f) (vm (nth (i / nR) L vz) (nth (i mod nR) R vz)))).
      - destruct (rm_value f Lf) as [[Z _]|[k [Z [Lk Wk]]]]; [rewrite Z in Vf; discriminate|]. rewrite Z in Vf. injection Vf as ->. rewrite Wk, phi_mul, (Ha _ Df), (Hb _ Mf). unfold vsum at 1 2.
        change (vm (vfold (seq 0 nL) (fun i => vs (a i (f / nR)) (nth i L vz))) (vfold (seq 0 nR) (fun i => vs (b i (f mod nR)) (nth i R vz))) = vsum A n (fun i => vs (kr i f) (vm (nth (i / nR) L vz) (nth (i mod nR) R vz)))). rewrite vfold_mul. unfold n. rewrite vsum_block. apply vsum_ext. intros x Hx. apply vsum_ext. intros y Hy.
        assert (E1 : (x * nR + y) / nR = x) by (rewrite Nat.div_add_l by exact Hr; rewrite Nat.div_small by exact Hy; lia). assert (E2 : (x * nR + y) mod nR = y) by (rewrite Nat.add_comm, Nat.mod_add by exact Hr; now apply Nat.mod_small).
        unfold kr, kronecker. rewrite E1, E2. now rewrite v_mul_sl, v_mul_sr, v_scale_mul.
      - transitivity (vsum A (length T) (fun r => vsum A n (fun i => vs (km (if nth i rm 0 =? S r then k1 else k0) (kr i f)) (nth r T vz)))).
        + unfold vsum at 2. change (fold_right (fun i0 a0 => va (vsum A n (fun i => vs (km (if nth i rm 0 =? S i0 then k1 else k0) (kr i f)) (nth i0 T vz))) a0) vz (seq 0 (length T))) with (vfold (seq 0 (length T)) (fun r => vfold (seq 0 n) (fun i => vs (km (if nth i rm 0 =? S r then k1 else k0) (kr i f)) (nth r T vz)))).
          rewrite vfold_swap. apply vfold_ext. intros i Ii. apply in_seq in Ii. destruct (rm_value i ltac:(unfold n in Ii; lia)) as [[Z W]|[k [Z [Lk W]]]].
          * rewrite W, scale_v0. rewrite (vfold_ext _ _ (fun _ => vz)); [now rewrite vfold_zero|]. intros r _. rewrite Z. cbn. replace (km k0 (kr i f)) with k0 by ring. apply v_scale_0.
          * rewrite (vfold_one _ _ k); [|apply seq_NoDup|apply in_seq; lia|].
            -- rewrite Z, Nat.eqb_refl, W. f_equal. ring.
            -- intros j _ Nj. rewrite Z. assert (Q : (S k =? S j) = false) by (apply Nat.eqb_neq; lia). rewrite Q. replace (km k0 (kr i f)) with k0 by ring. apply v_scale_0.
        + apply vsum_ext. intros r Hr'. rewrite E. unfold sum. change (vsum A n (fun i => vs (km (if nth i rm 0 =? S r then k1 else k0) (kr i f)) (nth r T vz)) = vs (kfold (seq 0 n) (fun i => km (if nth i rm 0 =? S r then k1 else k0) (kr i f))) (nth r T vz)). now rewrite kfold_scale.
    Qed.
  End One.

  (** * The remap vector *)
  Section Remap.
    Variables (W : Type) (hash : W -> N) (prod_hash : W -> W -> N) (osg : N -> list W) (ev : W -> vt A).
    Hypothesis OK : words_ok A W hash prod_hash osg ev.
    Lemma find_index_spec h : forall ws i, (forall k, find_index hash h ws i = Some k -> exists j w, k = i + j /\ nth_error ws j = Some w /\ hash w = h) /\ (forall w, In w ws -> hash w = h -> exists k, find_index hash h ws i = Some k).
    Proof.
      induction ws as [|x ws IH]; intros i; cbn [find_index]; [split; [discriminate|contradiction]|]. destruct (N.eqb_spec (hash x) h) as [E|Ne]; split.
      - intros k H. injection H as <-. exists 0, x. rewrite Nat.add_0_r. now repeat split.
      - intros w _ _. now exists i.
      - intros k H. destruct (proj1 (IH (S i)) k H) as [j [w [-> [Nj Hw]]]]. exists (S j), w. split; [lia|]. now split.
      - intros w [->|I] Hw; [contradiction|]. now apply (proj2 (IH (S i)) w).
    Qed.
    Lemma nth_hash n j w w' : nth_error (osg n) j = Some w -> In w' (osg n) -> hash w = hash w' -> w = w'.
    Proof.
      intros Nj I E. apply In_nth_error in I. destruct I as [j' Nj']. assert (j = j'); [|congruence]. pose proof (wk_distinct _ _ _ _ _ _ OK n) as D. rewrite NoDup_nth_error in D. apply D; [rewrite map_length; apply nth_error_Some; congruence|].
      rewrite !nth_error_map, Nj, Nj'. cbn. now rewrite E.
    Qed.
    Lemma remap_spec m n : (1 <= n <= m)%N -> exists rm, vector_remap hash prod_hash osg m n (m + n) = Some rm /\ length rm = length (osg m) * length (osg n) /\
      (forall i, i < length (osg m) * length (osg n) -> let w := vm (nth (i / length (osg n)) (map ev (osg m)) vz) (nth (i mod length (osg n)) (map ev (osg n)) vz) in
         (nth i rm 0 = 0 /\ w = vz) \/ (exists k, nth i rm 0 = S k /\ k < length (osg (m + n)%N) /\ nth k (map ev (osg (m + n)%N)) vz = w)) /\
      (forall k, k < length (osg (m + n)%N) -> In (S k) rm).
    Proof.
      intros Hmn. unfold vector_remap. set (f := fun l r => hash_to_index hash osg (m + n) (prod_hash l r)). set (raw := flat_map (fun l => map (f l) (osg n)) (osg m)).
      assert (Df : forall l r, In l (osg m) -> In r (osg n) -> exists x, f l r = Some x /\ ((x = 0 /\ vm (ev l) (ev r) = vz) \/ (exists k w, x = S k /\ nth_error (osg (m + n)%N) k = Some w /\ ev w = vm (ev l) (ev r) /\ hash w = prod_hash l r))).
      { intros l r Il Ir. unfold f, hash_to_index. destruct (wk_product _ _ _ _ _ _ OK m n l r Hmn Il Ir) as [[Z V]|[w [Iw [Hw V]]]]; [rewrite Z; exists 0; split; [reflexivity|left; now split]|].
        assert (Q : (prod_hash l r =? 0)%N = false) by (apply N.eqb_neq; rewrite <- Hw; apply (wk_nonzero _ _ _ _ _ _ OK (m + n) w Iw)). rewrite Q. destruct (proj2 (find_index_spec (prod_hash l r) (osg (m + n)%N) 1) w Iw Hw) as [k Hk].
        rewrite Hk. exists k. split; [reflexivity|right]. destruct (proj1 (find_index_spec (prod_hash l r) (osg (m + n)%N) 1) k Hk) as [j [w' [-> [Nj Hw']]]]. exists j, w'. split; [reflexivity|]. split; [exact Nj|]. split; [|exact Hw']. replace w' with w; [exact V|]. symmetry. apply (nth_hash (m + n)%N j); [exact Nj|exact Iw|congruence]. }
      destruct (sequence_all raw) as [rm [Sr Er]].
      { intros x I. unfold raw in I. apply in_flat_map in I. destruct I as [l [Il I]]. apply in_map_iff in I. destruct I as [r [<- Ir]]. destruct (Df l r Il Ir) as [x [-> _]]. discriminate. }
      exists rm. fold f raw. split; [exact Sr|]. assert (Lr : length rm = length (osg m) * length (osg n)). { rewrite <- (map_length Some rm), <- Er. unfold raw. apply flat_length. }
      split; [exact Lr|]. split.
      - intros i Hi. assert (Hn : length (osg n) <> 0) by (intros E; rewrite E, Nat.mul_0_r in Hi; lia).
        assert (Hl0 : exists l0, nth_error (osg m) 0 = Some l0) by (destruct (nth_error (osg m) 0) as [l0|] eqn:Q; [now exists l0|apply nth_error_None in Q; nia]). assert (Hr0 : exists r0, nth_error (osg n) 0 = Some r0) by (destruct (nth_error (osg n) 0) as [r0|] eqn:Q; [now exists r0|apply nth_error_None in Q; lia]). destruct Hl0 as [l0 _], Hr0 as [r0 _].
        assert (D1 : i / length (osg n) < length (osg m)) by (apply Nat.div_lt_upper_bound; lia). assert (D2 : i mod length (osg n) < length (osg n)) by (now apply Nat.mod_upper_bound).
        assert (Nr : nth i raw None = Some (nth i rm 0)). { rewrite Er. rewrite (nth_indep _ None (Some 0)) by (rewrite map_length; lia). apply map_nth. }
        unfold raw in Nr. rewrite (nth_flat f (osg n) l0 r0) in Nr by exact Hi. set (l := nth (i / length (osg n)) (osg m) l0) in *. set (r := nth (i mod length (osg n)) (osg n) r0) in *.
        assert (E1 : nth (i / length (osg n)) (map ev (osg m)) vz = ev l) by (rewrite (nth_indep _ vz (ev l0)) by (now rewrite map_length); apply map_nth). assert (E2 : nth (i mod length (osg n)) (map ev (osg n)) vz = ev r) by (rewrite (nth_indep _ vz (ev r0)) by (now rewrite map_length); apply map_nth).
        cbv zeta. rewrite E1, E2. destruct (Df l r) as [x [Fx D]]; [now apply nth_In|now apply nth_In|]. rewrite Fx in Nr. injection Nr as <-. destruct D as [D|[k [w [-> [Nk [V _]]]]]]; [left; exact D|right]. exists k. split; [reflexivity|]. split; [apply nth_error_Some; congruence|].
        rewrite <- V. apply nth_error_nth. rewrite nth_error_map, Nk. reflexivity.
      - intros k Hk. destruct (nth_error (osg (m + n)%N) k) as [w|] eqn:Nk; [|apply nth_error_None in Nk; lia]. assert (Iw : In w (osg (m + n)%N)) by (now apply nth_error_In with k). destruct (wk_cover _ _ _ _ _ _ OK m n w Hmn Iw) as [l [r [Il [Ir E]]]].
        destruct (Df l r Il Ir) as [x [Fx D]]. assert (Ix : In (Some x) raw). { unfold raw. apply in_flat_map. exists l. split; [exact Il|]. rewrite <- Fx. now apply in_map. }
        rewrite Er in Ix. apply in_map_iff in Ix. destruct Ix as [x' [Ex Ix]]. injection Ex as ->. destruct D as [[-> V]|[j [w' [-> [Nj [_ Hw']]]]]].
        + exfalso. unfold f, hash_to_index in Fx. rewrite E in Fx. assert (Q : (hash w =? 0)%N = false) by (apply N.eqb_neq; apply (wk_nonzero _ _ _ _ _ _ OK (m + n) w Iw)). rewrite Q in Fx. destruct (proj1 (find_index_spec (hash w) (osg (m + n)%N) 1) 0 Fx) as [j [w' [C _]]]. lia.
        + replace k with j; [exact Ix|]. assert (w' = w) by (apply (nth_hash (m + n)%N j); [exact Nj|exact Iw|congruence]). subst w'. pose proof (wk_distinct _ _ _ _ _ _ OK (m + n)%N) as Dn. rewrite NoDup_nth_error in Dn. apply Dn; [rewrite map_length; apply nth_error_Some; congruence|]. now rewrite !nth_error_map, Nj, Nk.
    Qed.
  End Remap.
End Map.
