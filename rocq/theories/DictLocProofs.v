(** Dictionaries: the locality generator. *)
From Coq Require Import List NArith Arith Bool Lia Sorted.
From Verif Require Import CoreModel CoreSpec CoreProofs AlgModel LocModel LocSpec LocNumberProofs LocSortProofs LocProofs
  EnumModel EnumSpec EnumProofs PartitionProofs DictModel DictSpec DictProofs.
Import ListNotations.
Local Arguments list_sum : simpl never.

(* ------------------------------------------------------------ results that need enough fuel *)
Lemma ev_ret {A} (v : A) : eventually (fun _ => Ret v) v.
Proof. now exists 0. Qed.
Lemma ev_const {A} (x : res A) (v : A) : x = Ret v -> eventually (fun _ => x) v.
Proof. intros ->. now exists 0. Qed.
Lemma ev_bind {A B} (f : nat -> res A) (g : nat -> A -> res B) v w : eventually f v -> eventually (fun n => g n v) w -> eventually (fun n => bind (f n) (g n)) w.
Proof. intros [F HF] [G HG]. exists (F + G). intros fuel H. rewrite HF by lia. cbn. apply HG. lia. Qed.
Lemma ev_flat_map {A B} (f : nat -> A -> res (list B)) (g : A -> list B) l : (forall x, In x l -> eventually (fun n => f n x) (g x)) ->
  eventually (fun n => res_flat_map (f n) l) (flat_map g l).
Proof.
  induction l as [|x l IH]; intro H; [apply ev_ret|]. cbn. apply (ev_bind (fun n => f n x) _ (g x)); [apply H; now left|].
  apply (ev_bind (fun n => res_flat_map (f n) l) _ (flat_map g l)); [apply IH; intros; apply H; now right|]. apply ev_ret.
Qed.

(* ------------------------------------------------------------ party ranges *)
Section Loc.
Variable sc : scenario.
Notation r := (total_opers sc).
Lemma start_S p : p < length sc -> party_start sc (S p) = party_start sc p + count_opers (nth p sc []).
Proof.
  unfold party_start. generalize sc as l. clear. intro l. revert p. induction l as [|x l IH]; intros p H; [cbn in H; lia|].
  destruct p as [|p]; cbn [firstn map nth]; rewrite !list_sum_cons.
  - rewrite !list_sum_nil. lia.
  - cbn in H. specialize (IH p ltac:(lia)). cbn [firstn map] in IH |- *. rewrite ?list_sum_cons in *. lia.
Qed.
Lemma start_mono p q : p <= q -> party_start sc p <= party_start sc q.
Proof.
  unfold party_start. generalize sc as l. clear. intro l. revert p q. induction l as [|x l IH]; intros p q H; [rewrite !firstn_nil; reflexivity|].
  destruct p as [|p]; [cbn; rewrite list_sum_nil; lia|]. destruct q as [|q]; [lia|]. cbn [firstn map]. rewrite !list_sum_cons. specialize (IH p q ltac:(lia)). lia.
Qed.
Lemma start_end : party_start sc (length sc) = r.
Proof. unfold party_start, total_opers. now rewrite firstn_all. Qed.
Lemma number_of_party x : valid_oper sc x -> of_party sc (op_party x) (op_number sc x) = true.
Proof.
  intros V. pose proof V as (A & B & C). unfold of_party. rewrite start_S by exact A.
  pose proof (firstn_count_lt _ _ _ B C) as Q. unfold op_number, party_start. apply andb_true_intro. split; [apply Nat.leb_le|apply Nat.ltb_lt]; lia.
Qed.
Lemma of_party_unique p q o : of_party sc p o = true -> of_party sc q o = true -> p = q.
Proof.
  unfold of_party. rewrite !andb_true_iff, !Nat.leb_le, !Nat.ltb_lt. intros [A B] [C D].
  destruct (Nat.lt_trichotomy p q) as [L|[E|L]]; [|exact E|].
  - pose proof (start_mono (S p) q ltac:(lia)). lia.
  - pose proof (start_mono (S q) p ltac:(lia)). lia.
Qed.
Lemma of_party_iff o p : o < r -> (of_party sc p o = true <-> party_of_op sc o = p).
Proof.
  intro H. apply op_number_surj in H as (x & V & <-). rewrite party_of_number by exact V. pose proof (number_of_party x V) as Q. split.
  - intro E. now apply (of_party_unique _ _ (op_number sc x)).
  - intros <-. exact Q.
Qed.
Lemma of_party_lt o p : of_party sc p o = true -> p < length sc /\ o < r.
Proof.
  unfold of_party. rewrite andb_true_iff, Nat.leb_le, Nat.ltb_lt. intros [A B].
  destruct (Nat.lt_ge_cases p (length sc)) as [L|L].
  - split; [exact L|]. pose proof (start_mono (S p) (length sc) ltac:(lia)). rewrite start_end in *. lia.
  - exfalso. unfold party_start in A, B. rewrite firstn_all2 in A, B by lia. lia.
Qed.
Lemma party_of_lt o : o < r -> party_of_op sc o < length sc.
Proof. intro H. apply op_number_surj in H as (x & V & <-). rewrite party_of_number by exact V. apply V. Qed.
Lemma range_of_party p o : p < length sc -> (op_offset sc p <= o < op_offset sc p + party_size (the_party sc p) <-> of_party sc p o = true).
Proof.
  intro H. rewrite op_offset_spec, party_size_spec by exact H. unfold of_party. rewrite start_S by exact H.
  unfold party_start, the_party. rewrite andb_true_iff, Nat.leb_le, Nat.ltb_lt. reflexivity.
Qed.

(* ------------------------------------------------------------ words of one party *)
Definition one_party (p : nat) (w : word) : Prop := forall o, In o w -> of_party sc p o = true.
Definition full (wl : nat) (w : word) : bool := match loc_sequence sc w SPos with Ret q => Nat.eqb wl (length (hs_ops q)) | _ => false end.
Definition pwords (p wl : nat) : list word :=
  match wl with O => [[]] | _ => filter (full wl) (box (repeat (op_offset sc p, op_offset sc p + party_size (the_party sc p)) wl)) end.
Lemma one_party_over p w : one_party p w -> over r w.
Proof. intros H o Ho. now apply (of_party_lt o p), H. Qed.
Lemma one_party_sorted p w : one_party p w -> Sorted (fun a b => party_of_op sc a <= party_of_op sc b) w.
Proof.
  intro H. assert (E : forall o, In o w -> party_of_op sc o = p). { intros o Ho. pose proof (H o Ho). apply of_party_iff; [now apply (of_party_lt o p)|assumption]. }
  clear H. induction w as [|a w IH]; constructor; [apply IH; intros; apply E; now right|]. destruct w as [|b w]; constructor.
  rewrite (E a), (E b); [lia|right; now left|now left].
Qed.
Lemma unique_full (w : word) : length (std_unique w) = length w -> std_unique w = w.
Proof.
  induction w as [|x w IH]; [reflexivity|]. destruct w as [|y w]; [reflexivity|]. rewrite unique_cons2. destruct (Nat.eqb x y) eqn:E.
  - intro H. exfalso. pose proof (unique_length (y :: w)) as U. cbn [length] in *. lia.
  - intro H. cbn [length] in H. rewrite IH; [reflexivity|]. cbn [length]. lia.
Qed.
Lemma one_party_full p w : one_party p w -> 0 < length w -> (full (length w) w = true <-> loc_canonical sc w).
Proof.
  intros H L. unfold full. rewrite loc_sequence_nf by now apply (one_party_over p). rewrite Nat.eqb_eq. split.
  - intro E. unfold gnf in E. rewrite sort_fixed in E by now apply (one_party_sorted p).
    destruct (find_exclusive (loc_exclusive sc) (std_unique w)) eqn:F; cbn [mkseq hseq_const hseq_make hs_ops length] in E; [lia|].
    assert (U : std_unique w = w) by now apply unique_full.
    apply loc_canonical_iff. rewrite loc_simplify_nf by now apply (one_party_over p). unfold gnf. rewrite sort_fixed by now apply (one_party_sorted p).
    rewrite F, U. reflexivity.
  - intro C. apply loc_canonical_iff in C. rewrite loc_simplify_nf in C by now apply (one_party_over p). match type of C with Ret ?x = _ => assert (Q : x = Some w) by congruence; rewrite Q end. reflexivity.
Qed.
Lemma canonical_nil : loc_canonical sc [].
Proof. split; [intros o []|constructor]. Qed.
Lemma pwords_spec p wl : p < length sc -> lists_in_order lex_lt (fun w => loc_canonical sc w /\ one_party p w /\ length w = wl) (pwords p wl).
Proof.
  intro Hp. destruct wl as [|wl].
  - cbn. split; [repeat constructor|]. intro w. cbn. split.
    + intros [<-|[]]. split; [apply canonical_nil|]. split; [intros o []|reflexivity].
    + intros (_ & _ & E). left. symmetry. now apply length_zero_iff_nil.
  - unfold pwords. destruct (box_spec (repeat (op_offset sc p, op_offset sc p + party_size (the_party sc p)) (S wl))) as [S M].
    split; [now apply sorted_filter|]. intro w. rewrite filter_In, M, moi_in_box. split.
    + intros [[E O] F]. assert (OP : one_party p w). { intros o Ho. apply range_of_party; [exact Hp|now apply O]. }
      split; [|split; [exact OP|exact E]]. rewrite <- E in F. apply (one_party_full p); [exact OP|lia|exact F].
    + intros (C & OP & E). split; [split; [exact E|]|].
      * intros o Ho. apply range_of_party; [exact Hp|now apply OP].
      * rewrite <- E. apply (one_party_full p); [exact OP|lia|exact C].
Qed.
Lemma full_entry p w : one_party p w -> 0 < length w -> full (length w) w = true -> loc_sequence sc w SPos = Ret (entry r w).
Proof.
  intros H L F. apply (one_party_full p) in F; [|exact H|exact L]. apply loc_canonical_iff in F.
  unfold loc_sequence. rewrite F. cbn. rewrite loc_radix_spec. reflexivity.
Qed.
Lemma party_level p wl : p < length sc -> 0 < wl ->
  eventually (fun fuel => bind (moi_run fuel wl (party_size (the_party sc p)) (op_offset sc p)) (res_flat_map (keep_full_length sc wl))) (map (entry r) (pwords p wl)).
Proof.
  intros Hp L. exists (party_size (the_party sc p) ^ wl). intros fuel Hf. rewrite moi_run_spec by assumption. cbn [bind].
  rewrite (res_flat_map_pure _ (fun w => if full wl w then [entry r w] else [])).
  - f_equal. destruct wl as [|wl]; [lia|]. unfold pwords.
    induction (box (repeat (op_offset sc p, op_offset sc p + party_size (the_party sc p)) (S wl))) as [|w l IH]; [reflexivity|]. cbn [flat_map filter].
    destruct (full (S wl) w); cbn; now rewrite IH.
  - intros w Hw. destruct (box_spec (repeat (op_offset sc p, op_offset sc p + party_size (the_party sc p)) wl)) as [_ M]. apply M, moi_in_box in Hw as [E O].
    assert (OP : one_party p w). { intros o Ho. apply range_of_party; [exact Hp|now apply O]. }
    unfold keep_full_length. destruct (full wl w) eqn:F.
    + rewrite <- E in F. rewrite (full_entry p w OP ltac:(lia) F). cbn. rewrite <- E, Nat.eqb_refl. reflexivity.
    + unfold full in F. rewrite loc_sequence_nf in * by now apply (one_party_over p). cbn [bind]. now rewrite F.
Qed.

(* ------------------------------------------------------------ PartyOSG *)
Definition plist (p L : nat) : list word := flat_map (pwords p) (seq 0 (S L)).
Lemma plist_S p L : plist p (S L) = plist p L ++ pwords p (S L).
Proof. unfold plist. rewrite (seq_S (S L) 0), flat_map_app. cbn [flat_map]. rewrite app_nil_r. reflexivity. Qed.
Definition posg (p L : nat) : party_osg := mk_posg (map (entry r) (plist p L)) (map (fun i => length (plist p i)) (seq 0 (S L))).
Lemma party_levels_ev p n : forall L, p < length sc -> eventually (fun fuel => party_levels fuel sc p (seq (S L) n) (posg p L)) (posg p (L + n)).
Proof.
  induction n as [|n IH]; intros L Hp; [rewrite Nat.add_0_r; apply ev_ret|]. cbn [seq party_levels].
  destruct (party_level p (S L) Hp ltac:(lia)) as [F HF]. destruct (IH (S L) Hp) as [G HG]. exists (F + G). intros fuel Hf.
  specialize (HF fuel ltac:(lia)). destruct (moi_run fuel (S L) (party_size (the_party sc p)) (op_offset sc p)) as [ws| |]; [|discriminate|discriminate].
  cbn [bind] in HF |- *. rewrite HF. cbn [bind]. specialize (HG fuel ltac:(lia)). replace (L + S n) with (S L + n) by lia. rewrite <- HG. f_equal.
  unfold posg. cbn [po_seqs po_bounds]. rewrite (seq_S (S L) 0), map_app. cbn [map Nat.add]. rewrite <- map_app, <- plist_S, map_length. reflexivity.
Qed.
Lemma make_party_ev p L : p < length sc -> eventually (fun fuel => make_party_osg fuel sc p L) (posg p L).
Proof. intro Hp. unfold make_party_osg. apply (party_levels_ev p L 0 Hp). Qed.
Lemma nth_map_seq {A} (f : nat -> A) d n : forall a i, i < n -> nth i (map f (seq a n)) d = f (a + i).
Proof.
  induction n as [|n IH]; intros a i H; [lia|]. cbn [seq map]. destruct i as [|i]; cbn; [now rewrite Nat.add_0_r|]. rewrite IH by lia. f_equal. lia.
Qed.
Lemma slice_spec p L wl : wl <= L -> posg_slice (posg p L) wl = Ret (map (entry r) (pwords p wl)).
Proof.
  intro H. unfold posg_slice. cbn [po_bounds po_seqs posg].
  assert (N : nth_error (map (fun i => length (plist p i)) (seq 0 (S L))) wl = Some (length (plist p wl))).
  { rewrite nth_error_nth' with (d := 0) by (rewrite map_length, seq_length; lia). now rewrite nth_map_seq by lia. }
  rewrite N. f_equal.
  assert (Sp : forall k, k <= L -> exists t, plist p L = plist p k ++ t).
  { clear - sc. induction L as [|L IH]; intros k Hk; [assert (k = 0) as -> by lia; exists []; now rewrite app_nil_r|].
    destruct (Nat.eq_dec k (S L)) as [->|D]; [exists []; now rewrite app_nil_r|]. destruct (IH k ltac:(lia)) as [t E]. rewrite plist_S, E, <- app_assoc. eauto. }
  destruct (Sp wl H) as [t E]. destruct wl as [|k].
  - cbn [Nat.ltb Nat.leb]. rewrite Nat.sub_0_r. cbn [skipn]. rewrite E, map_app.
    rewrite <- (map_length (entry r) (plist p 0)) at 1. rewrite firstn_app, Nat.sub_diag, firstn_all. cbn. reflexivity.
  - replace (0 <? S k) with true by reflexivity. replace (S k - 1) with k by lia. rewrite nth_map_seq by lia. cbn [Nat.add].
    rewrite E, plist_S, <- app_assoc, !map_app. rewrite app_length. replace (length (plist p k) + length (pwords p (S k)) - length (plist p k)) with (length (pwords p (S k))) by lia.
    rewrite <- (map_length (entry r) (plist p k)). rewrite skipn_app, skipn_all, Nat.sub_diag. cbn [skipn app].
    rewrite <- (map_length (entry r) (pwords p (S k))) at 1. rewrite firstn_app, Nat.sub_diag, firstn_all. cbn [firstn]. now rewrite app_nil_r.
Qed.
Lemma all_party_ev L ps : (forall p, In p ps -> p < length sc) -> eventually (fun fuel => all_party_osgs fuel sc L ps) (map (fun p => posg p L) ps).
Proof.
  induction ps as [|p ps IH]; intro H; [apply ev_ret|]. cbn [all_party_osgs map].
  apply (ev_bind (fun fuel => make_party_osg fuel sc p L) _ (posg p L)); [apply make_party_ev, H; now left|].
  apply (ev_bind (fun fuel => all_party_osgs fuel sc L ps) _ (map (fun p => posg p L) ps)); [apply IH; intros; apply H; now right|]. apply ev_ret.
Qed.

(* ------------------------------------------------------------ tensor products *)
Fixpoint cart (ls : list (list word)) : list word :=
  match ls with [] => [[]] | l :: ls' => flat_map (fun u => map (app u) (cart ls')) l end.
Fixpoint pick (ls : list (list word)) (idx : list nat) : word :=
  match ls, idx with l :: ls', i :: idx' => nth i l [] ++ pick ls' idx' | _, _ => [] end.
Lemma flat_map_nth {B} (f : word -> list B) l : flat_map (fun i => f (nth i l [])) (seq 0 (length l)) = flat_map f l.
Proof.
  induction l as [|x l IH]; [reflexivity|]. cbn [length seq flat_map nth]. f_equal. rewrite <- IH, <- seq_shift, !flat_map_concat_map, map_map. reflexivity.
Qed.
Lemma cart_box ls : map (pick ls) (box (map (fun m => (0, m)) (map (@length word) ls))) = cart ls.
Proof.
  induction ls as [|l ls IH]; [reflexivity|]. cbn [map box cart]. rewrite Nat.sub_0_r.
  rewrite flat_map_concat_map, concat_map, map_map. rewrite <- (flat_map_nth (fun u => map (app u) (cart ls))), flat_map_concat_map. f_equal.
  apply map_ext. intro i. rewrite <- IH. rewrite !(map_map (pick ls)). rewrite !map_map. reflexivity.
Qed.
Lemma box_index ls idx : In idx (box (map (fun m => (0, m)) (map (@length word) ls))) -> length idx = length ls /\ Forall2 (fun i l => i < length l) idx ls.
Proof.
  intro H. destruct (box_spec (map (fun m => (0, m)) (map (@length word) ls))) as [_ M]. apply M in H. clear M. revert idx H.
  induction ls as [|l ls IH]; intros idx H; cbn in H; inversion H as [|? ? ? ? A B]; subst; [split; [reflexivity|constructor]|].
  apply IH in B as [B1 B2]. cbn in *. split; [now rewrite B1|constructor; [lia|exact B2]].
Qed.
Definition total_len (ls : list (list word)) (lens : list nat) : Prop := Forall2 (fun l n => forall w, In w l -> length w = n) ls lens.
Lemma concat_into_spec ls : forall lens idx buf (pre : word) rest, total_len ls lens -> Forall2 (fun i l => i < length l) idx ls ->
  buf = pre ++ rest -> length rest = list_sum lens -> concat_into buf (length pre) (map (map (entry r)) ls) idx = Ret (pre ++ pick ls idx).
Proof.
  induction ls as [|l ls IH]; intros lens idx buf pre rest T I -> Hr.
  - inversion T; subst. rewrite list_sum_nil in Hr. apply length_zero_iff_nil in Hr. subst. cbn. now destruct idx.
  - inversion T as [|? n ? lens' T1 T2]; subst. inversion I as [|i ? idx' ? I1 I2]; subst. cbn [map concat_into pick].
    rewrite (nth_error_nth' (map (entry r) l) (entry r [])) by now rewrite map_length.
    rewrite (map_nth (entry r) l []). cbn [hs_ops]. set (u := nth i l []). assert (Hu : length u = n) by (apply T1, nth_In, I1).
    rewrite list_sum_cons in Hr. unfold copy_at. rewrite app_length. destruct (Nat.leb_spec (length pre + length u) (length pre + length rest)) as [_|Q]; [|lia].
    cbn [bind]. rewrite firstn_app, firstn_all, Nat.sub_diag. cbn [firstn]. rewrite app_nil_r.
    rewrite skipn_app, skipn_all2 by lia. cbn [app]. replace (length pre + length u - length pre) with (length u) by lia.
    replace (length pre + length u) with (length (pre ++ u)) by now rewrite app_length.
    rewrite (IH lens' idx' (pre ++ u ++ skipn (length u) rest) (pre ++ u) (skipn (length u) rest)); [now rewrite app_assoc|exact T2|exact I2|now rewrite app_assoc|rewrite skipn_length; lia].
Qed.
Lemma pick_len ls : forall lens idx, total_len ls lens -> Forall2 (fun i l => i < length l) idx ls -> length (pick ls idx) = list_sum lens.
Proof.
  induction ls as [|l ls IH]; intros lens idx T I; inversion T as [|? n ? lens' T1 T2]; subst; inversion I as [|i ? idx' ? I1 I2]; subst; [reflexivity|].
  cbn [pick]. rewrite app_length, list_sum_cons, (IH lens' idx' T2 I2). f_equal. apply T1, nth_In, I1.
Qed.
Lemma tensor_loop_spec ls lens : total_len ls lens -> forall idxs buf, length buf = list_sum lens ->
  (forall i, In i idxs -> Forall2 (fun i l => i < length l) i ls) ->
  tensor_loop sc (map (map (entry r)) ls) buf idxs = Ret (map (entry r) (map (pick ls) idxs)).
Proof.
  intros T idxs. induction idxs as [|i idxs IH]; intros buf Hb HI; [reflexivity|]. cbn [tensor_loop map].
  assert (I1 : Forall2 (fun i l => i < length l) i ls) by (apply HI; now left).
  pose proof (concat_into_spec ls lens i buf [] buf T I1 eq_refl Hb) as Q. change (length (@nil nat)) with 0 in Q. rewrite Q. cbn [bind app].
  rewrite IH; [|now apply pick_len|intros; apply HI; now right]. cbn [bind]. rewrite loc_radix_spec. reflexivity.
Qed.
Lemma tensor_ev ls lens : ls <> [] -> total_len ls lens ->
  eventually (fun fuel => tensor_populate fuel sc (map (map (entry r)) ls) (list_sum lens)) (map (entry r) (cart ls)).
Proof.
  intros NE T. exists (fold_right Nat.mul 1 (map (@length word) ls)). intros fuel Hf. unfold tensor_populate. rewrite map_map.
  rewrite (map_ext _ (@length word)) by (intro; apply map_length). rewrite mdi_run_spec; [|destruct ls; [contradiction|discriminate]|exact Hf].
  cbn [bind]. rewrite (tensor_loop_spec ls lens T); [now rewrite cart_box|apply repeat_length|]. intros i Hi. now apply box_index.
Qed.
Lemma cart_in ls x : In x (cart ls) <-> exists us, Forall2 (fun u l => In u l) us ls /\ x = concat us.
Proof.
  revert x. induction ls as [|l ls IH]; intro x; cbn [cart].
  - cbn. split; [intros [<-|[]]; exists []; split; [constructor|reflexivity]|]. intros (us & H & ->). inversion H. now left.
  - rewrite in_flat_map. split.
    + intros (u & Hu & Hx). apply in_map_iff in Hx as (y & <- & Hy). apply IH in Hy as (us & A & ->). exists (u :: us). split; [now constructor|reflexivity].
    + intros (us & H & ->). inversion H as [|u ? us' ? A B]; subst. exists u. split; [exact A|]. cbn. apply in_map. apply IH. now exists us'.
Qed.
Lemma lex_app (u v a b : word) : lex_lt u v -> lex_lt (u ++ a) (v ++ b).
Proof. induction 1; cbn; [now apply lex_head|now apply lex_tail]. Qed.
Lemma lex_pre (u a b : word) : lex_lt a b -> lex_lt (u ++ a) (u ++ b).
Proof. intro H. induction u as [|x u IH]; [exact H|]. now apply lex_tail. Qed.
Lemma cart_sorted ls : Forall (StronglySorted lex_lt) ls -> StronglySorted lex_lt (cart ls).
Proof.
  induction 1 as [|l ls H _ IH]; [repeat constructor|]. cbn. apply (sorted_flat_map lex_lt); [exact H| |].
  - intros u _. clear - IH. induction IH as [|x l S IH F]; [constructor|]. cbn. constructor; [exact IH|]. rewrite Forall_map. eapply Forall_impl; [|exact F]. intros v Hv. now apply lex_pre.
  - intros u v x y _ _ L Hx Hy. apply in_map_iff in Hx as (a & <- & _). apply in_map_iff in Hy as (b & <- & _). now apply lex_app.
Qed.

(* ------------------------------------------------------------ joining and splitting canonical words *)
Definition part (p : nat) (w : word) : word := filter (of_party sc p) w.
Lemma canonical_app u v : loc_canonical sc u -> loc_canonical sc v -> (forall a b, In a u -> In b v -> party_of_op sc a < party_of_op sc b) -> loc_canonical sc (u ++ v).
Proof.
  intros [Ou Su] [Ov Sv] H. split; [intros o Ho; apply in_app_iff in Ho as [Ho|Ho]; auto|].
  induction Su as [|a u Su IH HH]; [exact Sv|]. cbn. constructor.
  - apply IH; [intros o Ho; apply Ou; now right|intros x b Hx; apply H; now right].
  - destruct u as [|b u].
    + destruct v as [|b v]; cbn; constructor. intros x y Hx Hy -> ->. left.
      specialize (H (op_number sc x) (op_number sc y) (or_introl eq_refl) (or_introl eq_refl)). now rewrite !party_of_number in H by assumption.
    + cbn. constructor. now inversion HH.
Qed.
Lemma canonical_concat us : forall k, Forall2 (fun u p => loc_canonical sc u /\ one_party p u) us (seq k (length us)) -> loc_canonical sc (concat us).
Proof.
  induction us as [|u us IH]; intros k H; [apply canonical_nil|]. cbn [length seq] in H. inversion H as [|? ? ? ? [C O] HH]; subst. cbn.
  apply canonical_app; [exact C|now apply (IH (S k))|]. intros a b Ha Hb. apply O in Ha.
  apply in_concat in Hb as (v & Hv & Hb). assert (Q : exists p, k < p /\ one_party p v).
  { clear - HH Hv. assert (L : k < S k) by lia. revert HH L. generalize (S k) as j. generalize (length us) as n.
    induction us as [|x us IH]; intros n j HH L; [destruct Hv|].
    destruct n as [|n]; [inversion HH|]. cbn [seq] in HH. inversion HH as [|? ? ? ? [_ O] H']; subst. destruct Hv as [->|Hv]; [exists j; split; assumption|].
    apply (IH Hv n (S j)); [exact H'|lia]. }
  destruct Q as (p & L & Ov). apply Ov in Hb. pose proof (of_party_lt _ _ Ha) as [_ Ra]. pose proof (of_party_lt _ _ Hb) as [_ Rb].
  apply of_party_iff in Ha, Hb; [|assumption..]. lia.
Qed.
Lemma filter_all {A} (f : A -> bool) l : (forall x, In x l -> f x = true) -> filter f l = l.
Proof. induction l as [|x l IH]; intro H; [reflexivity|]. cbn. rewrite H by now left. now rewrite IH by (intros; apply H; now right). Qed.
Lemma filter_none {A} (f : A -> bool) l : (forall x, In x l -> f x = false) -> filter f l = [].
Proof. induction l as [|x l IH]; intro H; [reflexivity|]. cbn. rewrite H by now left. apply IH. intros; apply H; now right. Qed.
Lemma sorted_split w : Sorted (fun a b => party_of_op sc a <= party_of_op sc b) w -> over r w -> forall n k,
  (forall o, In o w -> k <= party_of_op sc o < k + n) -> w = concat (map (fun p => part p w) (seq k n)).
Proof.
  intros S O. assert (SS : StronglySorted (fun a b => party_of_op sc a <= party_of_op sc b) w) by (apply Sorted_StronglySorted; [intros ? ? ? ? ?; lia|exact S]). clear S.
  induction SS as [|a w SS IH F]; intros n k H.
  - induction (seq k n) as [|x l IHl]; [reflexivity|exact IHl].
  - assert (Oa : a < r) by (apply O; now left). assert (Ow : over r w) by (intros o Ho; apply O; now right).
    revert k H. induction n as [|n IHn]; intros k H; [specialize (H a (or_introl eq_refl)); lia|]. cbn [seq map concat].
    destruct (Nat.eq_dec (party_of_op sc a) k) as [E|E].
    + assert (part k (a :: w) = a :: part k w) as ->. { unfold part. cbn. rewrite (proj2 (of_party_iff a k Oa) E). reflexivity. }
      cbn [app]. f_equal. rewrite (IH Ow (S n) k) at 1 by (intros; apply H; now right). cbn [seq map concat]. f_equal. f_equal. apply map_ext_in.
      intros p Hp. apply in_seq in Hp. unfold part. cbn. destruct (of_party sc p a) eqn:Q; [|reflexivity]. apply of_party_iff in Q; [lia|exact Oa].
    + assert (part k (a :: w) = []) as ->.
      { apply filter_none. intros o Ho. destruct (of_party sc k o) eqn:Q; [|reflexivity]. apply of_party_iff in Q; [|now apply O].
        destruct Ho as [<-|Ho]; [lia|]. rewrite Forall_forall in F. specialize (F o Ho). specialize (H a (or_introl eq_refl)). lia. }
      cbn [app]. apply IHn. intros o Ho. pose proof (H o Ho) as B. split; [|lia].
      destruct Ho as [<-|Ho]; [lia|]. rewrite Forall_forall in F. specialize (F o Ho). specialize (H a (or_introl eq_refl)). lia.
Qed.
Lemma part_canonical p w : loc_canonical sc w -> loc_canonical sc (part p w).
Proof.
  intros C. apply canonical_sorted in C as [O S]. apply canonical_sorted. split; [intros o Ho; apply filter_In in Ho; now apply O|].
  assert (S1 : Sorted (fun a b => party_of_op sc a <= party_of_op sc b) w) by (eapply sorted_impl; [|exact S]; intros a b Q; apply Q).
  assert (SS : StronglySorted (fun a b => party_of_op sc a <= party_of_op sc b) w) by (apply Sorted_StronglySorted; [intros ? ? ? ? ?; lia|exact S1]). clear S1.
  unfold part. induction w as [|a w IH]; [constructor|].
  assert (Oa : a < r) by (apply O; now left). assert (Ow : over r w) by (intros o Ho; apply O; now right).
  inversion S as [|? ? S' HH]; subst. inversion SS as [|? ? SS' F]; subst. specialize (IH Ow S' SS'). cbn. destruct (of_party sc p a) eqn:E; [|exact IH].
  constructor; [exact IH|]. destruct w as [|b w]; [constructor|]. cbn. destruct (of_party sc p b) eqn:Eb.
  - constructor. now inversion HH.
  - assert (Ob : b < r) by (apply Ow; now left). rewrite filter_none; [constructor|]. intros o Ho. destruct (of_party sc p o) eqn:Q; [|reflexivity].
    exfalso. apply of_party_iff in Q; [|apply Ow; now right]. apply of_party_iff in E; [|exact Oa].
    assert (B1 : party_of_op sc b <= party_of_op sc o). { inversion SS' as [|? ? _ F']; subst. rewrite Forall_forall in F'. now apply F'. }
    assert (B2 : party_of_op sc a <= party_of_op sc b). { rewrite Forall_forall in F. apply F. now left. }
    assert (party_of_op sc b = p) by lia. apply of_party_iff in H; [congruence|exact Ob].
Qed.
Lemma part_one_party p w : one_party p (part p w).
Proof. intros o Ho. now apply filter_In in Ho. Qed.
Lemma part_concat us : forall n k p, length us = n -> Forall2 one_party (seq k n) us -> p < n -> part (k + p) (concat us) = nth p us [].
Proof.
  induction us as [|u us IH]; intros n k p E H Hp; [cbn in E; lia|]. destruct n as [|n]; [lia|]. cbn [seq] in H. inversion H as [|? ? ? ? A B]; subst.
  cbn [concat]. unfold part in *. rewrite filter_app. destruct p as [|p].
  - rewrite Nat.add_0_r. cbn [nth]. rewrite filter_all by exact A. rewrite filter_none; [apply app_nil_r|].
    intros o Ho. apply in_concat in Ho as (v & Hv & Ho). destruct (of_party sc k o) eqn:Q; [|reflexivity]. exfalso.
    assert (X : exists q, k < q /\ one_party q v).
    { clear - B Hv. assert (L : k < S k) by lia. revert B L. generalize (S k) as j. generalize n as m. induction us as [|x us IH]; intros m j B L; [destruct Hv|].
      destruct m as [|m]; [inversion B|]. cbn [seq] in B. inversion B as [|? ? ? ? A' B']; subst. destruct Hv as [->|Hv]; [exists j; split; assumption|].
      apply (IH Hv m (S j)); [exact B'|lia]. }
    destruct X as (q & L & O). apply O in Ho. pose proof (of_party_unique _ _ _ Q Ho). lia.
  - rewrite filter_none.
    + cbn [app nth]. cbn in E. rewrite <- (IH n (S k) p ltac:(lia) B ltac:(lia)). f_equal. f_equal. lia.
    + intros o Ho. apply A in Ho. destruct (of_party sc (k + S p) o) eqn:Q; [|reflexivity]. pose proof (of_party_unique _ _ _ Q Ho). lia.
Qed.

(* ------------------------------------------------------------ words with given party lengths *)
Fixpoint zip_pwords (ps lens : list nat) : list (list word) :=
  match ps, lens with p :: ps', n :: lens' => pwords p n :: zip_pwords ps' lens' | _, _ => [] end.
Definition words_of (lens : list nat) : list word := cart (zip_pwords (seq 0 (length sc)) lens).
Lemma zip_in ps : forall lens us, length lens = length ps -> (forall p, In p ps -> p < length sc) ->
  (Forall2 (fun u l => In u l) us (zip_pwords ps lens) <-> Forall2 (fun u p => loc_canonical sc u /\ one_party p u) us ps /\ map (@length nat) us = lens).
Proof.
  induction ps as [|p ps IH]; intros lens us E HP; destruct lens as [|n lens]; try discriminate; cbn [zip_pwords].
  - split; [intro H; inversion H; split; [constructor|reflexivity]|intros [H _]; inversion H; constructor].
  - specialize (IH lens). cbn in E. split.
    + intro H. inversion H as [|u ? us' ? A B]; subst. apply IH in B as [B1 B2]; [|lia|intros; apply HP; now right].
      apply (pwords_spec p n) in A; [|apply HP; now left]. destruct A as (A1 & A2 & A3). split; [constructor; [split; assumption|exact B1]|]. cbn. now rewrite A3, B2.
    + intros [H M]. inversion H as [|u ? us' ? [A1 A2] B]; subst. cbn in M. injection M as M1 M2. constructor.
      * apply (pwords_spec p n); [apply HP; now left|]. auto.
      * apply IH; [lia|intros; apply HP; now right|]. auto.
Qed.
Lemma F2_flip {A B} (P : A -> B -> Prop) l m : Forall2 P l m -> Forall2 (fun b a => P a b) m l.
Proof. induction 1; constructor; auto. Qed.
Lemma F2_impl {A B} (P Q : A -> B -> Prop) l m : (forall a b, P a b -> Q a b) -> Forall2 P l m -> Forall2 Q l m.
Proof. induction 2; constructor; auto. Qed.
Lemma F2_length {A B} (P : A -> B -> Prop) l m : Forall2 P l m -> length l = length m.
Proof. induction 1; cbn; auto. Qed.
Lemma length_concat (us : list word) : length (concat us) = list_sum (map (@length nat) us).
Proof. induction us as [|u us IH]; [reflexivity|]. cbn [concat map]. rewrite app_length, list_sum_cons, IH. reflexivity. Qed.
Lemma words_of_spec lens : length lens = length sc ->
  lists_in_order lex_lt (fun w => loc_canonical sc w /\ party_lengths sc w = lens /\ length w = list_sum lens) (words_of lens).
Proof.
  intro E. split.
  - apply cart_sorted. assert (HP : forall p, In p (seq 0 (length sc)) -> p < length sc) by (intros p Hp; apply in_seq in Hp; lia).
    revert HP. generalize (seq 0 (length sc)) as ps. clear E. intros ps HP. revert lens. induction ps as [|p ps IH]; intros [|n lens]; cbn; constructor.
    + apply (pwords_spec p n). apply HP. now left.
    + apply IH. intros; apply HP; now right.
  - intro w. unfold words_of. rewrite cart_in. split.
    + intros (us & H & ->). apply zip_in in H as [H M]; [|now rewrite seq_length|intros p Hp; apply in_seq in Hp; lia].
      pose proof (F2_length _ _ _ H) as Lu. rewrite seq_length in Lu. split; [|split].
      * apply (canonical_concat us 0). now rewrite Lu.
      * unfold party_lengths. rewrite <- M. apply nth_ext with (d := 0) (d' := 0); [rewrite !map_length, seq_length; now symmetry|].
        intros i Hi. rewrite map_length, seq_length in Hi. rewrite nth_map_seq by exact Hi. cbn [Nat.add]. unfold count_party. fold (part i (concat us)).
        assert (H2 : Forall2 one_party (seq 0 (length sc)) us). { apply F2_flip in H. eapply F2_impl; [|exact H]. cbn. tauto. }
        pose proof (part_concat us (length sc) 0 i Lu H2 Hi) as Q. cbn [Nat.add] in Q. unfold word in *. rewrite Q. symmetry. exact (map_nth (@length nat) us [] i).
      * rewrite length_concat. now rewrite M.
    + intros (C & P & Lw). exists (map (fun p => part p w) (seq 0 (length sc))). split.
      * apply zip_in; [now rewrite seq_length|intros p Hp; apply in_seq in Hp; lia|]. split.
        -- induction (seq 0 (length sc)) as [|p ps IH]; constructor; [|exact IH]. split; [now apply part_canonical|apply part_one_party].
        -- rewrite map_map, <- P. reflexivity.
      * apply canonical_sorted in C as [O S]. apply (sorted_split w).
        -- eapply sorted_impl; [|exact S]. intros a b Q. apply Q.
        -- exact O.
        -- intros o Ho. pose proof (party_of_lt o (O o Ho)). lia.
Qed.
Lemma party_lengths_sum w : loc_canonical sc w -> list_sum (party_lengths sc w) = length w.
Proof.
  intro C. apply canonical_sorted in C as [O S]. rewrite (sorted_split w) with (n := length sc) (k := 0) at 2.
  - rewrite length_concat. unfold party_lengths. now rewrite map_map.
  - eapply sorted_impl; [|exact S]. intros a b Q. apply Q.
  - exact O.
  - intros o Ho. pose proof (party_of_lt o (O o Ho)). lia.
Qed.
Definition level (wl : nat) : list word := flat_map words_of (comps wl (length sc)).
Lemma level_spec wl : lists_in_order (loc_before sc) (fun w => loc_canonical sc w /\ length w = wl) (level wl).
Proof.
  destruct (comps_spec (length sc) wl) as [S M]. split.
  - apply (sorted_flat_map (fun u v => lex_lt v u)); [exact S| |].
    + intros lens Hl. apply M in Hl as [E1 E2]. destruct (words_of_spec lens E1) as [S1 M1].
      assert (G : forall l, StronglySorted lex_lt l -> (forall w, In w l -> party_lengths sc w = lens /\ length w = list_sum lens) -> StronglySorted (loc_before sc) l).
      { clear. intros l H. induction H as [|x l H IH F]; intro E; constructor; [apply IH; intros; apply E; now right|]. rewrite Forall_forall in *.
        intros y Hy. destruct (E x (or_introl eq_refl)), (E y (or_intror Hy)). right. split; [congruence|]. right. split; [congruence|now apply F]. }
      apply G; [exact S1|]. intros w Hw. apply M1 in Hw. tauto.
    + intros a b u v Ha Hb L Hu Hv. apply M in Ha as [A1 A2], Hb as [B1 B2]. apply (words_of_spec a A1) in Hu as (_ & U1 & U2).
      apply (words_of_spec b B1) in Hv as (_ & V1 & V2). right. split; [congruence|]. left. now rewrite U1, V1.
  - intro w. unfold level. rewrite in_flat_map. split.
    + intros (lens & Hl & Hw). apply M in Hl as [A1 A2]. apply (words_of_spec lens A1) in Hw. split; [tauto|]. rewrite <- A2. tauto.
    + intros [C E]. exists (party_lengths sc w). assert (LL : length (party_lengths sc w) = length sc) by (unfold party_lengths; rewrite map_length, seq_length; reflexivity).
      pose proof (party_lengths_sum w C). split; [apply M; split; [exact LL|congruence]|]. apply (words_of_spec _ LL). auto.
Qed.
Definition loc_words (L : nat) : list word := flat_map level (seq 0 (S L)).
Lemma loc_words_spec L : lists_in_order (loc_before sc) (fun w => loc_canonical sc w /\ length w <= L) (loc_words L).
Proof.
  split.
  - apply (sorted_flat_map lt); [apply seq_sorted|intros; apply level_spec|]. intros a b u v _ _ Hab Hu Hv. apply level_spec in Hu, Hv. left. lia.
  - intro w. unfold loc_words. rewrite in_flat_map. split.
    + intros (n & Hn & Hw). apply in_seq in Hn. apply level_spec in Hw. split; [tauto|lia].
    + intros [C E]. exists (length w). split; [apply in_seq; lia|]. apply level_spec. auto.
Qed.
Lemma loc_words_prefix L M : L <= M -> loc_words M = loc_words L ++ flat_map level (seq (S L) (M - L)).
Proof. intro H. unfold loc_words. rewrite <- flat_map_app, <- seq_app. do 2 f_equal. lia. Qed.

(* ------------------------------------------------------------ the whole generator *)
Lemma spans_spec L : forall ps lens, length lens = length ps -> (forall n, In n lens -> n <= L) ->
  party_spans (map (fun p => posg p L) ps) lens = Ret (map (map (entry r)) (zip_pwords ps lens)).
Proof.
  induction ps as [|p ps IH]; intros lens E H; [destruct lens; reflexivity|]. destruct lens as [|n lens]; [discriminate|]. cbn [map party_spans zip_pwords].
  rewrite slice_spec by (apply H; now left). cbn [bind]. rewrite IH; [reflexivity|now injection E|intros; apply H; now right].
Qed.
Lemma zip_total : forall ps lens, length lens = length ps -> (forall p, In p ps -> p < length sc) -> total_len (zip_pwords ps lens) lens.
Proof.
  induction ps as [|p ps IH]; intros lens E H; destruct lens as [|n lens]; try discriminate; cbn; constructor.
  - intros w Hw. apply (pwords_spec p n) in Hw; [tauto|]. apply H. now left.
  - apply IH; [now injection E|intros; apply H; now right].
Qed.
Lemma in_sum_le n l : In n l -> n <= list_sum l.
Proof. induction l as [|x l IH]; [easy|]. rewrite list_sum_cons. intros [->|H]; [lia|]. apply IH in H. lia. Qed.
Lemma map_flat_map {A B C} (f : B -> C) (g : A -> list B) l : map f (flat_map g l) = flat_map (fun x => map f (g x)) l.
Proof. induction l as [|x l IH]; [reflexivity|]. cbn. now rewrite map_app, IH. Qed.
Lemma level_ev L wl : wl <= L -> 0 < length sc ->
  eventually (fun fuel => bind (mpi_run_rev fuel wl (length sc)) (res_flat_map (fun lens =>
    bind (party_spans (map (fun p => posg p L) (seq 0 (length sc))) lens) (fun spans => tensor_populate fuel sc spans wl)))) (map (entry r) (level wl)).
Proof.
  intros Hw Hs. apply (ev_bind (fun fuel => mpi_run_rev fuel wl (length sc)) _ (comps wl (length sc))).
  - exists (length (comps wl (length sc))). intros. now apply mpi_run_rev_spec.
  - unfold level. rewrite map_flat_map. apply ev_flat_map. intros lens Hl. apply (comps_spec (length sc) wl) in Hl as [A B].
    assert (E : length lens = length (seq 0 (length sc))) by now rewrite seq_length.
    destruct (tensor_ev (zip_pwords (seq 0 (length sc)) lens) lens) as [F HF].
    + destruct (length sc); [lia|]. destruct lens; discriminate.
    + apply zip_total; [exact E|]. intros p Hp. apply in_seq in Hp. lia.
    + exists F. intros fuel Hf. rewrite spans_spec; [|exact E|]. 2:{ intros n Hn. apply in_sum_le in Hn. lia. }
      cbn [bind]. rewrite <- B. now apply HF.
Qed.
Lemma words_of_unit p : p < length sc -> forall n, words_of (map (fun q => if Nat.eqb q p then n else 0) (seq 0 (length sc))) = pwords p n.
Proof.
  intros Hp n. unfold words_of.
  assert (G : forall m k, k <= p < k + m -> cart (zip_pwords (seq k m) (map (fun q => if Nat.eqb q p then n else 0) (seq k m))) = pwords p n).
  { clear Hp. assert (Z : forall m k, p < k -> cart (zip_pwords (seq k m) (map (fun q => if Nat.eqb q p then n else 0) (seq k m))) = [[]]).
    { induction m as [|m IH]; intros k H; [reflexivity|]. cbn [seq map zip_pwords cart]. destruct (Nat.eqb_spec k p); [lia|]. cbn [pwords flat_map]. rewrite IH by lia. reflexivity. }
    induction m as [|m IH]; intros k H; [lia|]. cbn [seq map zip_pwords cart]. destruct (Nat.eqb_spec k p) as [->|D].
    - rewrite Z by lia. clear. induction (pwords p n) as [|w l IH]; [reflexivity|]. cbn [flat_map map app]. rewrite app_nil_r. f_equal. exact IH.
    - cbn [pwords flat_map]. rewrite IH by lia. rewrite app_nil_r. rewrite (map_ext (app []) (fun x => x)) by reflexivity. apply map_id. }
  apply G. lia.
Qed.
Lemma comps_one k : comps 1 k = map (fun p => map (fun q => if Nat.eqb q p then 1 else 0) (seq 0 k)) (seq 0 k).
Proof.
  assert (Z : forall m, comps 0 m = [repeat 0 m]). { induction m as [|m IH]; [reflexivity|]. cbn. rewrite IH. reflexivity. }
  induction k as [|k IH]; [reflexivity|]. change (comps 1 (S k)) with (map (cons 1) (comps 0 k) ++ (map (cons 0) (comps (1 - 0) k) ++ [])).
  rewrite Z, app_nil_r. change (1 - 0) with 1. rewrite IH. cbn [seq map app Nat.eqb]. f_equal.
  - f_equal. rewrite <- seq_shift, map_map. clear. symmetry. generalize (seq_length k 0). generalize (seq 0 k) as l. intros l <-. induction l as [|x l IH]; [reflexivity|]. cbn [map length repeat]. f_equal. exact IH.
  - rewrite <- (seq_shift k 0), !map_map. apply map_ext. intro p. cbn [Nat.eqb]. f_equal. rewrite map_map. reflexivity.
Qed.
Lemma level_one : level 1 = flat_map (fun p => pwords p 1) (seq 0 (length sc)).
Proof.
  unfold level. rewrite comps_one, flat_map_concat_map, map_map, <- flat_map_concat_map. apply flat_map_ext_in. intros p Hp. apply in_seq in Hp. apply words_of_unit; lia.
Qed.
Lemma level_zero : level 0 = [[]].
Proof.
  unfold level. assert (Z : forall m, comps 0 m = [repeat 0 m]). { induction m as [|m IH]; [reflexivity|]. cbn. rewrite IH. reflexivity. }
  rewrite Z. cbn [flat_map]. rewrite app_nil_r. unfold words_of. cut (forall m k, cart (zip_pwords (seq k m) (repeat 0 m)) = [[]]); [intro G; apply G|].
  clear. induction m as [|m IH]; intro k; [reflexivity|]. cbn [seq repeat zip_pwords cart pwords flat_map]. rewrite IH. reflexivity.
Qed.
Lemma comps_one_part n : comps n 1 = [[n]].
Proof.
  cbn. rewrite (flat_map_ext_in _ (fun _ => [])).
  - induction (desc n) as [|y d IHd]; [reflexivity|exact IHd].
  - intros y Hy. apply in_desc in Hy. destruct (n - y) eqn:Q; [lia|reflexivity].
Qed.
Lemma locality_osg_ev L : eventually (fun fuel => locality_osg fuel sc L) (map (entry r) (loc_words L)).
Proof.
  unfold locality_osg. apply (ev_bind (fun fuel => all_party_osgs fuel sc L (seq 0 (length sc))) _ (map (fun p => posg p L) (seq 0 (length sc)))).
  { apply all_party_ev. intros p Hp. apply in_seq in Hp. lia. }
  destruct (length sc) as [|[|k]] eqn:K.
  - cbn [seq map]. apply ev_const. f_equal. unfold loc_words. cbn [seq flat_map]. rewrite level_zero. cbn [app map]. f_equal.
    assert (N : flat_map level (seq 1 L) = []); [|now rewrite N].
    assert (G : forall n, 0 < n -> level n = []). { intros [|n] Hn; [lia|]. unfold level. rewrite K. reflexivity. }
    rewrite (flat_map_ext_in _ (fun _ => [])); [|intros n Hn; apply in_seq in Hn; apply G; lia]. induction (seq 1 L) as [|y d IHd]; [reflexivity|exact IHd].
  - cbn [seq map]. apply ev_const. f_equal. unfold posg. cbn [po_seqs]. f_equal. unfold plist, loc_words. apply flat_map_ext_in. intros n _.
    unfold level. rewrite K, comps_one_part. cbn [flat_map]. rewrite app_nil_r. pose proof (words_of_unit 0 ltac:(lia) n) as Q. rewrite K in Q. cbn in Q. now symmetry.
  - cbn [seq map].
    change (posg 0 L :: posg 1 L :: map (fun p => posg p L) (seq 2 k)) with (map (fun p => posg p L) (seq 0 (S (S k)))). rewrite <- K.
    unfold populate_general. destruct (Nat.leb_spec L 0) as [L0|L0].
    { apply ev_const. assert (L = 0) as -> by lia. unfold loc_words. cbn [seq flat_map]. rewrite app_nil_r, level_zero. reflexivity. }
    apply (ev_bind (fun _ => res_flat_map (fun o => posg_slice o 1) (map (fun p => posg p L) (seq 0 (length sc)))) _ (map (entry r) (level 1))).
    { apply ev_const. rewrite level_one, map_flat_map.
      assert (G : forall ps, res_flat_map (fun o => posg_slice o 1) (map (fun p => posg p L) ps) = Ret (flat_map (fun p => map (entry r) (pwords p 1)) ps)).
      { induction ps as [|p ps IH]; [reflexivity|]. cbn [map res_flat_map flat_map]. rewrite slice_spec by lia. cbn [bind]. rewrite IH. reflexivity. }
      apply G. }
    destruct (Nat.leb_spec L 1) as [L1|L1].
    { apply ev_const. assert (L = 1) as -> by lia. unfold loc_words. cbn [seq flat_map]. rewrite app_nil_r, level_zero. reflexivity. }
    apply (ev_bind (fun fuel => res_flat_map _ (seq 2 (L - 1))) _ (map (entry r) (flat_map level (seq 2 (L - 1))))).
    { rewrite map_flat_map. apply (ev_flat_map (fun fuel wl => bind (mpi_run_rev fuel wl (length (map (fun p => posg p L) (seq 0 (length sc))))) _)).
      intros wl Hwl. apply in_seq in Hwl. rewrite map_length, seq_length. apply level_ev; lia. }
    apply ev_const. f_equal. unfold loc_words. replace (S L) with (2 + (L - 1)) by lia. rewrite seq_app, flat_map_app. cbn [seq flat_map].
    rewrite level_zero, app_nil_r, map_app, map_app. cbn [map app Nat.add]. reflexivity.
Qed.
End Loc.

Lemma locality_dictionary sc L : exists d, eventually (fun fuel => locality_osg fuel sc L) d /\ is_dictionary (total_opers sc) (loc_before sc) (loc_canonical sc) L d.
Proof.
  exists (map (entry (total_opers sc)) (loc_words sc L)). split; [apply locality_osg_ev|]. exists (loc_words sc L). split; [reflexivity|apply loc_words_spec].
Qed.
Lemma locality_prefix sc L M : L <= M -> exists d e, eventually (fun fuel => locality_osg fuel sc L) d /\ eventually (fun fuel => locality_osg fuel sc M) (d ++ e) /\ (forall q, In q e -> L < length (hs_ops q)).
Proof.
  intro H. exists (map (entry (total_opers sc)) (loc_words sc L)), (map (entry (total_opers sc)) (flat_map (level sc) (seq (S L) (M - L)))).
  split; [apply locality_osg_ev|]. split; [rewrite <- map_app, <- loc_words_prefix by exact H; apply locality_osg_ev|].
  intros q Hq. apply in_map_iff in Hq as (w & <- & Hw). apply in_flat_map in Hw as (n & Hn & Hw). apply in_seq in Hn. apply level_spec in Hw. cbn [hs_ops]. lia.
Qed.
