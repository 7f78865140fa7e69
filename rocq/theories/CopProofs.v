(** Averages over translations. *)
From Coq Require Import NArith ZArith Arith Bool List Lia Permutation Sorted Field FinFun.
From Verif Require Import CoreModel FieldModel FieldProofs SiteModel SiteSpec SiteWordProofs SiteThmProofs SiteOpenProofs CopModel CopSpec.
Import ListNotations.
Local Open Scope list_scope.
Local Open Scope nat_scope.

Lemma smap_ok {A B} (f : A -> sout B) (P : A -> B -> Prop) l : (forall a, In a l -> exists b, f a = SOk b /\ P a b) -> exists bs, smap f l = SOk bs /\ Forall2 P l bs.
Proof.
  induction l as [|a l IH]; intro H; [exists []; split; [reflexivity|constructor]|]. destruct (H a (or_introl eq_refl)) as (b & B1 & B2). destruct IH as (bs & S & F); [intros x X; apply H; now right|].
  exists (b :: bs). split; [cbn [smap]; rewrite B1; cbn [sbind]; rewrite S; reflexivity|]. now constructor.
Qed.
Lemma F2_perm {A B} (P : A -> B -> Prop) l l' m m' : (forall a b b', P a b -> P a b' -> b = b') -> Permutation l l' -> Forall2 P l m -> Forall2 P l' m' -> Permutation m m'.
Proof.
  intros FN PE F F'. destruct (Permutation_Forall2 PE F) as (m2 & P2 & F2). enough (m2 = m') as <- by exact P2. clear - FN F' F2. revert m2 F2. induction F' as [|a b l m K F IH]; intros m2 G; inversion G; subst; [reflexivity|]. f_equal; [eapply FN; eassumption|now apply IH].
Qed.

Section Average.
  Context {R : rfield}.
  Add Field CfCop : (cx_field R).
  Notation poly := (list (word * cx R)).
  Lemma value_app (E : word -> cx R) p q : word_value E (p ++ q) = cadd (word_value E p) (word_value E q).
  Proof.
    induction p as [|x p IH]; [cbn [app]; change (word_value E []) with (c0 (R:=R)); ring|].
    change (word_value E ((x :: p) ++ q)) with (cadd (cmul (snd x) (E (fst x))) (word_value E (p ++ q))). change (word_value E (x :: p)) with (cadd (cmul (snd x) (E (fst x))) (word_value E p)). rewrite IH. ring.
  Qed.
  Lemma value_perm (E : word -> cx R) (p q : poly) : Permutation p q -> word_value E p = word_value E q.
  Proof. intro H. induction H; cbn [word_value fold_right]; [reflexivity| | |congruence]; [f_equal; assumption|ring]. Qed.

  Lemma copies_averaged {K} (off : K -> word -> sout word) (mv : K -> word -> word -> Prop) (k0 : K) ks n (p : poly) : n = S (length ks) ->
    (forall x, In x p -> mv k0 (fst x) (fst x)) -> (forall x k, In x p -> In k ks -> exists w, off k (fst x) = SOk w /\ mv k (fst x) w) ->
    exists p', copies off ks (cinv (cnat n)) p = SOk p' /\ averaged mv (k0 :: ks) p p'.
  Proof.
    intros -> H0 HK. destruct (smap_ok (term_copies off ks (cinv (cnat (S (length ks))))) (fun x b => exists ws, b = map (fun w => (w, cdiv (snd x) (cnat (length (k0 :: ks))))) ws /\ Forall2 (fun k w => mv k (fst x) w) (k0 :: ks) ws) p) as (bs & S1 & F).
    - intros x X. destruct (smap_ok (fun k => off k (fst x)) (fun k w => mv k (fst x) w) ks) as (ws & S2 & F); [intros k Kk; exact (HK x k X Kk)|].
      eexists. split; [unfold term_copies; rewrite S2; reflexivity|]. exists (fst x :: ws). split; [reflexivity|]. constructor; [now apply H0|exact F].
    - exists (concat bs). split; [unfold copies; rewrite S1; reflexivity|]. exists bs. split; [reflexivity|exact F].
  Qed.

  Lemma block_value {K} (mv : K -> word -> word -> Prop) (E : word -> cx R) all w (f : cx R) ws : invariant mv E -> Forall2 (fun k w' => mv k w w') all ws ->
    word_value E (map (fun w' => (w', f)) ws) = cmul (cmul (cnat (length all)) f) (E w).
  Proof.
    intros I F. induction F as [|k w' all ws M F IH]; cbn [map word_value fold_right length cnat fst snd]; [ring|]. change (fold_right _ c0 (map (fun w' => (w', f)) ws)) with (word_value E (map (fun w' => (w', f)) ws)). rewrite IH, (I k w w' M). ring.
  Qed.
  Lemma averaged_value {K} (mv : K -> word -> word -> Prop) all (p p' : poly) E : counting (R:=R) -> all <> [] -> averaged mv all p p' -> invariant mv E -> word_value E p' = word_value E p.
  Proof.
    intros CH NE (bs & -> & F) I. induction F as [|x b p bs (ws & -> & G) F IH]; [reflexivity|]. cbn [concat]. rewrite value_app, IH, (block_value mv E all (fst x) _ ws I G). cbn [word_value fold_right]. f_equal.
    assert (N : cnat (R:=R) (length all) <> c0) by (destruct all; [easy|apply CH]). field. exact N.
  Qed.
  Lemma averaged_length {K} (mv : K -> word -> word -> Prop) all (p p' : poly) : averaged mv all p p' -> length p' = length p * length all.
  Proof.
    intros (bs & -> & F). induction F as [|x b p bs (ws & -> & G) F IH]; [reflexivity|]. cbn [concat length]. rewrite app_length, IH, map_length. assert (L : length all = length ws) by (clear - G; induction G; cbn; congruence). lia.
  Qed.
  (** moving the average *)
  Lemma averaged_moved {K} (mv : K -> word -> word -> Prop) (plus : K -> K) all j (p p' p'' : poly) : (forall k w a b, mv k w a -> mv k w b -> a = b) ->
    (forall k w a b, In k all -> mv k w a -> mv j a b -> mv (plus k) w b) -> Permutation (map plus all) all -> averaged mv all p p' -> moved (mv j) p' p'' -> Permutation p' p''.
  Proof.
    intros FN CP PE (bs & -> & F) M. revert p'' M. induction F as [|x b p bs (ws & -> & G) F IH]; intros p'' M; cbn [concat] in M; [inversion M; constructor|].
    apply Forall2_app_inv_l in M. destruct M as (b' & r & M1 & M2 & ->). cbn [concat]. apply Permutation_app; [|now apply IH]. clear IH F M2 r.
    set (f := cdiv (snd x) (cnat (length all))) in *. assert (B : exists ws', b' = map (fun w => (w, f)) ws' /\ Forall2 (mv j) ws ws').
    { clear - M1. revert b' M1. induction ws as [|w ws IH]; intros b' M; cbn [map] in M; inversion M as [|? y ? b2 [Y1 Y2] M']; subst; [exists []; split; [reflexivity|constructor]|].
      destruct (IH b2 M') as (ws' & -> & F). exists (fst y :: ws'). split; [cbn [map]; f_equal; destruct y; cbn in *; congruence|]. constructor; assumption. }
    destruct B as (ws' & -> & MV). apply Permutation_map. apply (F2_perm (fun k w' => mv k (fst x) w') all (map plus all) ws ws'); [intros a b b'; apply FN|now symmetry|exact G|].
    clear - CP G MV. revert ws' MV. induction G as [|k w all ws H G IH]; intros ws' MV; inversion MV as [|? w' ? ws2 N MV']; subst; cbn [map]; constructor.
    - apply (CP k (fst x) w w'); auto. now left.
    - apply IH; [|exact MV']. intros k' w0 a b I'. apply CP. now right.
  Qed.
End Average.

(** rotating the list of positions *)
Lemma nodup_map {A B} (f : A -> B) l : (forall a b, In a l -> In b l -> f a = f b -> a = b) -> NoDup l -> NoDup (map f l).
Proof.
  intros H N. induction N as [|a l NI N IH]; cbn [map]; constructor.
  - intro I. apply in_map_iff in I. destruct I as (b & E & B'). apply NI. rewrite <- (H b a); auto; [now right|now left].
  - apply IH. intros x y X Y. apply H; now right.
Qed.
Lemma rotate n j : 0 < n -> Permutation (map (fun k => (k + j) mod n) (seq 0 n)) (seq 0 n).
Proof.
  intro H. apply NoDup_Permutation_bis.
  - apply nodup_map; [|apply seq_NoDup]. intros a b A B E. apply in_seq in A, B.
    pose proof (Nat.div_mod (a + j) n ltac:(lia)). pose proof (Nat.div_mod (b + j) n ltac:(lia)). assert ((a + j) / n = (b + j) / n \/ (a + j) / n < (b + j) / n \/ (b + j) / n < (a + j) / n) as [Q|[Q|Q]] by lia; nia.
  - rewrite map_length. lia.
  - intros x X. apply in_map_iff in X. destruct X as (k & <- & _). apply in_seq. pose proof (Nat.mod_upper_bound (k + j) n). lia.
Qed.
Lemma grid_in rows cols r c : In (r, c) (grid rows cols) <-> r < rows /\ c < cols.
Proof.
  unfold grid. rewrite in_flat_map. split.
  - intros (k & K1 & K2). apply in_map_iff in K2. destruct K2 as (r' & E & R'). injection E as -> ->. apply in_seq in K1, R'. lia.
  - intros [A B]. exists c. split; [apply in_seq; lia|]. apply in_map_iff. exists r. split; [reflexivity|apply in_seq; lia].
Qed.
Lemma grid_nodup rows cols : NoDup (grid rows cols).
Proof.
  unfold grid. generalize 0 at 2 as s. induction cols as [|cols IH]; intro s; cbn [seq flat_map]; [constructor|].
  assert (A : NoDup (map (fun r => (r, s)) (seq 0 rows))) by (apply FinFun.Injective_map_NoDup; [intros a b E; congruence|apply seq_NoDup]).
  specialize (IH (S s)). revert A IH. assert (D : forall x, In x (map (fun r => (r, s)) (seq 0 rows)) -> ~ In x (flat_map (fun c => map (fun r => (r, c)) (seq 0 rows)) (seq (S s) cols))).
  { intros x X Y. apply in_map_iff in X. destruct X as (r & <- & _). apply in_flat_map in Y. destruct Y as (c & C & Y). apply in_map_iff in Y. destruct Y as (r' & E & _). injection E as _ <-. apply in_seq in C. lia. }
  revert D. generalize (map (fun r => (r, s)) (seq 0 rows)) as l. generalize (flat_map (fun c => map (fun r => (r, c)) (seq 0 rows)) (seq (S s) cols)) as m. clear. intros m l. induction l as [|x l IH]; intros D A B; [exact B|]. inversion A; subst. cbn [app]. constructor.
  - intro I. apply in_app_or in I. destruct I as [I|I]; [contradiction|]. exact (D x (or_introl eq_refl) I).
  - apply IH; auto. intros y Y. apply D. now right.
Qed.
Lemma grid_length rows cols : length (grid rows cols) = rows * cols.
Proof. unfold grid. generalize 0 at 2 as s. induction cols as [|cols IH]; intro s; cbn [seq flat_map]; [cbn; lia|]. rewrite app_length, map_length, seq_length, IH. lia. Qed.
Lemma grid_tl rows cols : 0 < rows -> 0 < cols -> grid rows cols = (0, 0) :: lattice_offsets rows cols.
Proof.
  intros A B. destruct rows as [|rows]; [lia|]. destruct cols as [|cols]; [lia|]. unfold grid, lattice_offsets. cbn [seq flat_map Nat.eqb]. cbn [map app]. replace (S rows - 1) with rows by lia. f_equal. f_equal.
  assert (G : forall l, (forall c, In c l -> c <> 0) -> flat_map (fun c => (0, c) :: map (fun r => (r, c)) (seq 1 rows)) l = flat_map (fun c => let from := if c =? 0 then 1 else 0 in map (fun r => (r, c)) (seq from (S rows - from))) l).
  { intros l H. induction l as [|c l IH]; [reflexivity|]. cbn [flat_map]. rewrite IH by (intros x X; apply H; now right). destruct (Nat.eqb_spec c 0) as [->|D]; [now specialize (H 0 (or_introl eq_refl))|]. reflexivity. }
  apply G. intros c C. apply in_seq in C. lia.
Qed.
Lemma rotate_grid rows cols r c : 0 < rows -> 0 < cols -> Permutation (map (fun d => ((fst d + r) mod rows, (snd d + c) mod cols)) (grid rows cols)) (grid rows cols).
Proof.
  intros A B. assert (INJ : forall n j a b, a < n -> b < n -> (a + j) mod n = (b + j) mod n -> a = b).
  { intros n j a b LA LB E. pose proof (Nat.div_mod (a + j) n ltac:(lia)). pose proof (Nat.div_mod (b + j) n ltac:(lia)). assert ((a + j) / n = (b + j) / n \/ (a + j) / n < (b + j) / n \/ (b + j) / n < (a + j) / n) as [Q|[Q|Q]] by lia; nia. }
  apply NoDup_Permutation_bis.
  - apply nodup_map; [|apply grid_nodup]. intros [a b] [a' b'] X Y E. apply grid_in in X, Y. cbn [fst snd] in E. injection E as E1 E2. f_equal; [apply (INJ rows r)|apply (INJ cols c)]; tauto.
  - rewrite map_length. lia.
  - intros [x y] X. apply in_map_iff in X. destruct X as ([a b] & E & _). injection E as <- <-. apply grid_in. cbn [fst snd]. split; apply Nat.mod_upper_bound; lia.
Qed.

(** closed chains *)
Lemma chain_functional n k w a b : 0 < n -> chain_moved n k w a -> chain_moved n k w b -> a = b.
Proof.
  intros H [Wa La] [Wb Lb]. apply (word_unique n); auto. intros q Q. assert (E : exists s, s < n /\ (s + k) mod n = q).
  { exists ((q + (n - k mod n)) mod n). split; [apply Nat.mod_upper_bound; lia|]. rewrite Nat.add_mod_idemp_l by lia. pose proof (Nat.mod_upper_bound k n ltac:(lia)). pose proof (Nat.div_mod k n ltac:(lia)).
    replace (q + (n - k mod n) + k) with (q + (1 + k / n) * n) by nia. rewrite Nat.mod_add by lia. now apply Nat.mod_small. }
  destruct E as (s & S1 & <-). rewrite La, Lb by exact S1. reflexivity.
Qed.
Lemma chain_compose n k j w a b : 0 < n -> chain_moved n k w a -> chain_moved n j a b -> chain_moved n ((k + j) mod n) w b.
Proof.
  intros H [_ La] [Wb Lb]. split; [exact Wb|]. intros q Q. rewrite Nat.add_mod_idemp_r by lia. rewrite <- (La q Q), <- (Lb ((q + k) mod n)) by (apply Nat.mod_upper_bound; lia). f_equal. rewrite Nat.add_mod_idemp_l by lia. f_equal. lia.
Qed.
Lemma chain_still n w : pauli_word n w -> chain_moved n 0 w w.
Proof. intro W. split; [exact W|]. intros q Q. rewrite Nat.add_0_r, Nat.mod_small by exact Q. reflexivity. Qed.
(** tori *)
Lemma torus_cell ch q : 0 < ch -> q = q / ch * ch + q mod ch.
Proof. intro H. rewrite (Nat.div_mod q ch) at 1 by lia. lia. Qed.
Lemma shift_onto n k q : q < n -> exists s, s < n /\ (s + k) mod n = q.
Proof.
  intro Q. exists ((q + (n - k mod n)) mod n). split; [apply Nat.mod_upper_bound; lia|]. rewrite Nat.add_mod_idemp_l by lia. pose proof (Nat.mod_upper_bound k n ltac:(lia)). pose proof (Nat.div_mod k n ltac:(lia)).
  replace (q + (n - k mod n) + k) with (q + (1 + k / n) * n) by nia. rewrite Nat.mod_add by lia. now apply Nat.mod_small.
Qed.
Lemma torus_functional ch rw d w a b : 0 < ch -> 0 < rw -> torus_moved ch rw d w a -> torus_moved ch rw d w b -> a = b.
Proof.
  intros H1 H2 [Wa La] [Wb Lb]. apply (word_unique (ch * rw)); auto. intros q Q. assert (C : q / ch < rw) by (apply Nat.div_lt_upper_bound; lia). assert (RR : q mod ch < ch) by (apply Nat.mod_upper_bound; lia).
  destruct (shift_onto rw (snd d) (q / ch) C) as (c & C1 & C2). destruct (shift_onto ch (fst d) (q mod ch) RR) as (r & R1 & R2). rewrite (torus_cell ch q H1), <- C2, <- R2. rewrite La, Lb by assumption. reflexivity.
Qed.
Lemma torus_compose ch rw d e w a b : 0 < ch -> 0 < rw -> torus_moved ch rw d w a -> torus_moved ch rw e a b -> torus_moved ch rw ((fst d + fst e) mod ch, (snd d + snd e) mod rw) w b.
Proof.
  intros H1 H2 [_ La] [Wb Lb]. split; [exact Wb|]. intros row col Hr Hc. cbn [fst snd]. rewrite !Nat.add_mod_idemp_r by lia. rewrite <- (La row col Hr Hc), <- (Lb ((row + fst d) mod ch) ((col + snd d) mod rw)) by (apply Nat.mod_upper_bound; lia).
  rewrite !Nat.add_mod_idemp_l by lia. f_equal. f_equal; [f_equal|]; f_equal; lia.
Qed.
Lemma torus_still ch rw w : pauli_word (ch * rw) w -> torus_moved ch rw (0, 0) w w.
Proof. intro W. split; [exact W|]. intros row col Hr Hc. cbn [fst snd]. rewrite !Nat.add_0_r, !Nat.mod_small by assumption. reflexivity. Qed.

(** open chains and lattices *)
Lemma open_offset_word w d : map Z.to_nat (do_chain_offset w (Z.of_nat d)) = map (fun o => o + 3 * d) w.
Proof. unfold do_chain_offset. rewrite map_map. apply map_ext. intro o. lia. Qed.
Lemma shifted_word n w d : pauli_word n w -> (forall o, In o w -> o / 3 + d < n) -> pauli_word n (map (fun o => o + 3 * d) w).
Proof.
  intros [S _] H. assert (D : forall o, (o + 3 * d) / 3 = o / 3 + d) by (intro o; replace (o + 3 * d) with (o + d * 3) by lia; apply Nat.div_add; lia). split.
  - clear H. induction S as [|o w S IH F]; cbn [map]; constructor; auto. apply Forall_forall. intros x X. apply in_map_iff in X. destruct X as (y & <- & Y). rewrite Forall_forall in F. specialize (F y Y). rewrite !D. lia.
  - intros x X. apply in_map_iff in X. destruct X as (o & <- & O). specialize (H o O). pose proof (Nat.div_mod o 3 ltac:(lia)). pose proof (Nat.mod_upper_bound o 3 ltac:(lia)). lia.
Qed.
Lemma open_chain_step n w d : pauli_word n w -> (forall o, In o w -> o / 3 + d < n) -> inside_chain n d w (map Z.to_nat (do_chain_offset w (Z.of_nat d))).
Proof.
  intros W H. destruct (chain_offset_moved w (Z.of_nat d)) as (w' & E & M); [intros; lia|]. assert (E' : map Z.to_nat (do_chain_offset w (Z.of_nat d)) = w') by (rewrite E, map_map; rewrite <- (map_id w') at 2; apply map_ext; intro; apply Nat2Z.id).
  split; [rewrite E'; exact M|]. rewrite open_offset_word. now apply shifted_word.
Qed.
Lemma open_lattice_step ch rw w d : 0 < ch -> pauli_word (ch * rw) w -> (forall o, In o w -> (o / 3) mod ch + fst d < ch /\ o / 3 / ch + snd d < rw) -> inside_lattice ch rw d w (map Z.to_nat (lattice_offset ch w (Z.of_nat (fst d)) (Z.of_nat (snd d)))).
Proof.
  intros HC W H. destruct (lattice_offset_moved ch w (Z.of_nat (fst d)) (Z.of_nat (snd d)) HC) as (w' & E & M); [intros o O; specialize (H o O); lia|].
  assert (E' : map Z.to_nat (lattice_offset ch w (Z.of_nat (fst d)) (Z.of_nat (snd d))) = w') by (rewrite E, map_map; rewrite <- (map_id w') at 2; apply map_ext; intro; apply Nat2Z.id).
  split; [rewrite E'; exact M|]. unfold lattice_offset. replace (Z.of_nat (snd d) * Z.of_nat ch + Z.of_nat (fst d))%Z with (Z.of_nat (snd d * ch + fst d)) by lia. rewrite open_offset_word. apply shifted_word; [exact W|].
  intros o O. destruct (H o O) as [A B]. rewrite (torus_cell ch (o / 3) HC). nia.
Qed.
