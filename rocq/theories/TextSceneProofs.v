(** Proofs about texts of words of locality and inflation scenarios. *)
From Coq Require Import NArith ZArith Arith Bool Ascii String List Lia.
From Verif Require Import CoreModel AlgModel LocModel LocSpec LocNumberProofs InfModel InfSpec InfProofs InfLayoutProofs InfFinalProofs TextModel TextSpec TextProofs TextNameProofs TextWordProofs.
Import ListNotations.
Local Open Scope list_scope.

Lemma letters_lack u id c : is_letter c = false -> lacks c (alpha u id).
Proof. intros H. apply (lacks_by is_letter); [apply alpha_letters|exact H]. Qed.
Lemma digits_lack n c : is_digit c = false -> lacks c (dec n).
Proof. intros H. apply (lacks_by is_digit); [apply dec_digits|exact H]. Qed.
Lemma alpha_starts u id : starts is_letter (alpha u id).
Proof. destruct (alpha_cased u id) as [N F]. destruct (alpha u id) as [|c r]; [congruence|]. inversion F; subst. cbn. eapply cased_is; eauto. Qed.
Lemma starts_app P a b : starts P a -> starts P (a ++ b). Proof. destruct a; [intros []|auto]. Qed.
Lemma digit_not_letter c : is_digit c = true -> is_letter c = false.
Proof.
  unfold is_digit, is_letter. rewrite between_spec. intros H. apply orb_false_iff. split; apply not_true_is_false; rewrite between_spec; lia.
Qed.
Lemma dec_stops n r : stops is_letter (dec n ++ r).
Proof. pose proof (dec_digits n) as H. pose proof (dec_nonempty n) as N. destruct (dec n) as [|c q]; [congruence|]. cbn in *. apply andb_prop in H. now apply digit_not_letter. Qed.

(** * Locality *)
Lemma loc_parts f sc x : valid_oper sc x -> loc_operator_text f sc (op_number sc x) =
  format_operator f (alpha true (N.of_nat (op_party x))) (alpha false (N.of_nat (op_mmt x))) (op_mmt x) (op_outcome x).
Proof.
  intros V. unfold loc_operator_text. rewrite (party_of_number sc x V), (mmt_of_number sc x V). f_equal. destruct V as [V1 [V2 V3]].
  rewrite (op_offset_spec sc _ V1). unfold the_party. rewrite mmt_offsets_spec by assumption. unfold op_number. lia.
Qed.
Lemma format_inj f p m i o p' m' i' o' : m = i -> m' = i' ->
  format_operator f (alpha true (N.of_nat p)) (alpha false (N.of_nat m)) i o = format_operator f (alpha true (N.of_nat p')) (alpha false (N.of_nat m')) i' o' -> p = p' /\ m = m' /\ o = o'.
Proof.
  intros <- <-. destruct f; cbn [format_operator]; intros E.
  - change (tx ".") with ["."%char] in E. cbn [app] in E. apply split_at in E; [|now apply letters_lack..]. destruct E as [E1 E2]. apply alpha_inj in E1.
    rewrite <- (app_nil_r (dec o)), <- (app_nil_r (dec o')) in E2. apply (span is_letter) in E2; auto using alpha_letters, dec_stops. destruct E2 as [E2 E3]. apply alpha_inj in E2. rewrite !app_nil_r in E3. apply dec_inj in E3. lia.
  - apply (span is_letter) in E; auto using alpha_letters, dec_stops. destruct E as [E1 E2]. apply alpha_inj in E1. change (tx "|") with ["|"%char] in E2. cbn [app] in E2.
    apply split_at in E2; [|now apply digits_lack..]. destruct E2 as [E2 E3]. apply dec_inj in E2. apply dec_inj in E3. lia.
Qed.
Lemma loc_lacks f sc o : o < operator_count sc -> lacks ";" (loc_operator_text f sc o).
Proof.
  intros O. rewrite operator_count_spec in O. destruct (op_number_surj sc o O) as [x [V <-]]. rewrite (loc_parts f sc x V).
  destruct f; cbn [format_operator]; repeat apply lacks_app; try reflexivity; try (now apply letters_lack); now apply digits_lack.
Qed.
Lemma loc_starts f sc o : o < operator_count sc -> starts is_letter (loc_operator_text f sc o).
Proof.
  intros O. rewrite operator_count_spec in O. destruct (op_number_surj sc o O) as [x [V <-]]. rewrite (loc_parts f sc x V).
  destruct f; cbn [format_operator]; apply starts_app, alpha_starts.
Qed.
Lemma loc_inj f sc a b : a < operator_count sc -> b < operator_count sc -> loc_operator_text f sc a = loc_operator_text f sc b -> a = b.
Proof.
  intros A B. rewrite operator_count_spec in A, B. destruct (op_number_surj sc a A) as [[[p m] o] [V <-]]. destruct (op_number_surj sc b B) as [[[p' m'] o'] [V' <-]].
  rewrite (loc_parts f sc _ V), (loc_parts f sc _ V'). intros E. apply format_inj in E; auto. cbn in E. destruct E as [-> [-> ->]]. reflexivity.
Qed.
Lemma spelled (D : nat -> Prop) (f : nat -> text) : (forall a b, D a -> D b -> f a = f b -> a = b) -> (forall a, D a -> lacks ";" (f a)) -> (forall a, D a -> starts is_letter (f a)) ->
  forall b n n' w w', Forall D w -> Forall D w' -> w <> [] -> w' <> [] ->
  (if n : bool then tx "-" else []) ++ in_braces b (join (tx ";") (map f w)) = (if n' : bool then tx "-" else []) ++ in_braces b (join (tx ";") (map f w')) -> n = n' /\ w = w'.
Proof.
  intros Hi Hl Hs b n n' w w' F F' N N' E.
  assert (S : forall q, Forall D q -> q <> [] -> starts not_minus (in_braces b (join (tx ";") (map f q)))).
  { intros [|a q] Fq Nq; [congruence|]. inversion Fq; subst. apply braces_starts_minus. apply join_starts. eapply starts_impl; [apply letter_not_minus|]. now apply Hs. }
  apply negated_inj in E; auto. destruct E as [-> E]. split; [reflexivity|]. apply braces_inj in E. revert E. now apply (words_join D).
Qed.
Lemma spelled_number (D : nat -> Prop) (f : nat -> text) : (forall a, D a -> starts is_letter (f a)) -> forall b (n : bool) w c, is_digit c = true -> Forall D w -> w <> [] ->
  (if n then tx "-" else []) ++ in_braces b (join (tx ";") (map f w)) <> [c].
Proof.
  intros Hs b n [|a w] c C F N; [congruence|]. inversion F; subst. pose proof (join_starts is_letter (tx ";") f a w (Hs a H1)) as S. destruct (join (tx ";") (map f (a :: w))) as [|d r]; [destruct S|].
  intros E. destruct n, b; cbn in E; try discriminate. injection E as -> _. cbn in S. rewrite (digit_not_letter c C) in S. discriminate.
Qed.
Lemma loc_text_form f sc b n w : w <> [] -> loc_text f sc b n w = (if n then tx "-" else []) ++ in_braces b (join (tx ";") (map (loc_operator_text f sc) w)).
Proof. now destruct w. Qed.
Lemma t_locality f sc b n n' w w' : Forall (fun o => o < operator_count sc) w -> Forall (fun o => o < operator_count sc) w' -> w <> [] -> w' <> [] ->
  loc_text f sc b n w = loc_text f sc b n' w' -> n = n' /\ w = w'.
Proof.
  intros F F' N N'. rewrite !loc_text_form by assumption. apply (spelled (fun o => o < operator_count sc)); auto; [apply loc_inj|apply loc_lacks|apply loc_starts].
Qed.
Lemma t_locality_number f sc b n w : Forall (fun o => o < operator_count sc) w -> w <> [] -> loc_text f sc b n w <> tx "1" /\ loc_text f sc b n w <> tx "0".
Proof.
  intros F N. rewrite loc_text_form by assumption. split; apply (spelled_number (fun o => o < operator_count sc)); auto; apply loc_starts.
Qed.

(** * Inflation *)
Section Inflation.
  Variables (outcomes : list nat) (srcs : list (list nat)) (nt : network) (L : nat).
  Hypothesis MK : make_network outcomes srcs = Some nt.
  Notation c := (inflate nt L).
  Notation D := (fun o => o < length (ic_ops c)).
  Lemma level_c : ic_level c = L.
  Proof. unfold inflate. destruct (inflate_from nt L 0 0 0 (nt_obs nt)) as [[ios infos] index]. reflexivity. Qed.
  Lemma inf_starts o : starts is_letter (inf_operator_text c o). Proof. unfold inf_operator_text. apply starts_app, alpha_starts. Qed.
  Lemma join_lacks d sep : forall q, lacks d sep -> Forall (lacks d) q -> lacks d (join sep q).
  Proof.
    induction q as [|a q IH]; intros S F; [reflexivity|]. inversion F; subst. destruct q as [|b q]; [exact H1|]. change (join sep (a :: b :: q)) with (a ++ sep ++ join sep (b :: q)).
    apply lacks_app; [assumption|]. apply lacks_app; [assumption|]. now apply IH.
  Qed.
  Lemma inf_lacks o : lacks ";" (inf_operator_text c o).
  Proof.
    unfold inf_operator_text. apply lacks_app; [now apply letters_lack|]. apply lacks_app; [destruct (2 <? _); [now apply digits_lack|reflexivity]|].
    destruct (1 <? _); [|reflexivity]. apply lacks_app; [destruct (existsb _ _); reflexivity|]. apply lacks_app; [|destruct (existsb _ _); reflexivity].
    apply join_lacks; [destruct (9 <? _); reflexivity|]. apply Forall_forall. intros x I. apply in_map_iff in I. destruct I as [k [<- _]]. now apply digits_lack.
  Qed.
  (** lists of numbers *)
  Lemma digits_join : forall q q', Forall (fun i => i < 10) q -> Forall (fun i => i < 10) q' -> join [] (map dec q) = join [] (map dec q') -> q = q'.
  Proof.
    assert (J : forall q, join [] (map dec q) = concat (map dec q)).
    { induction q as [|a q IH]; [reflexivity|]. destruct q as [|b q]; [cbn; now rewrite app_nil_r|]. change (join [] (map dec (a :: b :: q))) with (dec a ++ [] ++ join [] (map dec (b :: q))). rewrite IH. reflexivity. }
    intros q q' F F'. rewrite !J. clear J. revert q' F'. induction F as [|a q A F IH]; intros [|b q'] F' E; auto.
    - inversion F'; subst. destruct (dec_digit b H1) as [d Ed]. cbn in E. rewrite Ed in E. discriminate.
    - destruct (dec_digit a A) as [d Ed]. cbn in E. rewrite Ed in E. discriminate.
    - inversion F'; subst. destruct (dec_digit a A) as [d Ed]. destruct (dec_digit b H1) as [e Ee]. cbn in E. rewrite Ed, Ee in E. injection E as -> E. f_equal; [apply dec_inj; congruence|]. now apply IH.
  Qed.
  Lemma commas_join q q' : length q = length q' -> join [","%char] (map dec q) = join [","%char] (map dec q') -> q = q'.
  Proof.
    intros Hl E. destruct q as [|a q]; [destruct q'; [reflexivity|discriminate]|]. destruct q' as [|b q']; [discriminate|].
    apply join_inj in E; [|apply Forall_map, Forall_forall; intros; now apply digits_lack..|discriminate|discriminate].
    apply (map_inj_on (fun _ => True) dec); [intros; now apply dec_inj|apply Forall_forall; auto..|exact E].
  Qed.
  Lemma inf_inj a b : D a -> D b -> inf_operator_text c a = inf_operator_text c b -> a = b.
  Proof.
    intros A B E. destruct (f_operators outcomes srcs nt L MK) as [_ [X _]]. pose proof (X a A) as Xa. pose proof (X b B) as Xb. clear X.
    enough (Hl : label_of c a = label_of c b).
    { rewrite <- (number_label outcomes srcs nt L MK a A), <- (number_label outcomes srcs nt L MK b B). now rewrite Hl. }
    destruct (spot_find outcomes srcs nt L MK a A) as [oa [va [ra [Va Ea]]]]. destruct (spot_find outcomes srcs nt L MK b B) as [ob' [vb [rb [Vb Eb]]]].
    assert (Ob : forall o v r, valid outcomes nt L o v r -> io_obs (obs_of c (spot nt L o v r)) = ob nt o) by (intros o v r V; now rewrite (obs_spot outcomes srcs nt L MK o v r V)).
    unfold inf_operator_text in E. rewrite !level_c, (net_of nt L) in E.
    set (br := existsb (fun ob => 2 <? ob_outcomes ob) (nt_obs nt)) in E.
    set (ta := if 2 <? ob_outcomes (io_obs (obs_of c a)) then dec (oi_outcome (info c a)) else []) in E.
    set (tb := if 2 <? ob_outcomes (io_obs (obs_of c b)) then dec (oi_outcome (info c b)) else []) in E.
    set (ia := join (if 9 <? L then tx "," else []) (map dec (cp_indices (copy_of c a)))) in E.
    set (ib := join (if 9 <? L then tx "," else []) (map dec (cp_indices (copy_of c b)))) in E.
    assert (Dig : forall q sep, sep = [] \/ sep = tx "," -> forall rest, stops is_letter rest -> stops is_letter (join sep (map dec q) ++ rest)).
    { intros q sep Hs rest R. destruct q as [|k q]; [exact R|]. destruct q as [|k' q]; [apply dec_stops|]. change (join sep (map dec (k :: k' :: q))) with (dec k ++ sep ++ join sep (map dec (k' :: q))). rewrite <- app_assoc. apply dec_stops. }
    assert (Sep : (if 9 <? L then tx "," else []) = [] \/ (if 9 <? L then tx "," else []) = tx ",") by (destruct (9 <? L); auto).
    assert (St : forall ti q, ti = [] \/ (exists k, ti = dec k) -> stops is_letter (ti ++ (if 1 <? L then (if br then tx "[" else []) ++ join (if 9 <? L then tx "," else []) (map dec q) ++ (if br then tx "]" else []) else []))).
    { intros ti q [->|[k ->]]; [|apply dec_stops]. cbn [app]. destruct (1 <? L); [|exact I]. destruct br; [reflexivity|]. cbn [app]. apply Dig; [exact Sep|exact I]. }
    assert (Ta : ta = [] \/ exists k, ta = dec k) by (subst ta; destruct (2 <? ob_outcomes (io_obs (obs_of c a))); [right; eexists; reflexivity|auto]).
    assert (Tb : tb = [] \/ exists k, tb = dec k) by (subst tb; destruct (2 <? ob_outcomes (io_obs (obs_of c b))); [right; eexists; reflexivity|auto]).
    apply (span is_letter) in E; [|apply alpha_letters..|apply (St ta _ Ta)|apply (St tb _ Tb)]. destruct E as [E1 E2]. apply alpha_inj in E1. apply Nat2N.inj in E1. clear St Ta Tb.
    assert (Eo : ob_outcomes (io_obs (obs_of c a)) = ob_outcomes (io_obs (obs_of c b)) /\ ob_single (io_obs (obs_of c a)) = ob_single (io_obs (obs_of c b))).
    { unfold obs_of. now rewrite E1. }
    destruct Eo as [Eo Es].
    (* outcomes *)
    assert (Ua : ob_outcomes (io_obs (obs_of c a)) = nth (lb_obs (label_of c a)) outcomes 0).
    { rewrite Ea, (Ob _ _ _ Va), (obs_outcomes outcomes srcs nt MK oa (proj1 Va)), (label_spot outcomes srcs nt L MK _ _ _ Va). reflexivity. }
    assert (Ub : ob_outcomes (io_obs (obs_of c b)) = nth (lb_obs (label_of c b)) outcomes 0).
    { rewrite Eb, (Ob _ _ _ Vb), (obs_outcomes outcomes srcs nt MK ob' (proj1 Vb)), (label_spot outcomes srcs nt L MK _ _ _ Vb). reflexivity. }
    assert (Br : 2 <? ob_outcomes (io_obs (obs_of c a)) = true -> br = true).
    { intros G. unfold br. apply existsb_exists. exists (ob nt oa). split; [|now rewrite Ea, (Ob _ _ _ Va) in G]. unfold ob. apply nth_In. rewrite (net_length outcomes srcs nt MK). apply Va. }
    (* the outcome and the text of the copies *)
    assert (G : oi_outcome (info c a) = oi_outcome (info c b) /\ (1 < L -> ia = ib)).
    { unfold ta, tb in E2. rewrite <- Eo in E2. destruct (Nat.ltb_spec 2 (ob_outcomes (io_obs (obs_of c a)))) as [G|G].
      - rewrite (Br eq_refl) in E2. destruct (Nat.ltb_spec 1 L) as [K|K].
        + change (tx "[") with ["["%char] in E2. cbn [app] in E2. apply split_at in E2; [|now apply digits_lack..]. destruct E2 as [E2 E3]. apply dec_inj in E2. apply app_inj_tail in E3. destruct E3 as [E3 _]. auto.
        + rewrite !app_nil_r in E2. apply dec_inj in E2. split; [exact E2|lia].
      - split.
        + destruct Xa as [_ [_ [_ Ka]]]. destruct Xb as [_ [_ [_ Kb]]]. rewrite <- Ua in Ka. rewrite <- Ub, <- Eo in Kb. cbn [label_of lb_outcome] in Ka, Kb.
          destruct (ob_outcomes (io_obs (obs_of c a))) as [|[|[|?]]]; lia.
        + intros K. apply Nat.ltb_lt in K. rewrite K in E2. cbn [app] in E2. apply app_inv_head in E2. destruct br; [|now rewrite !app_nil_r in E2].
          now apply app_inj_tail in E2. }
    destruct G as [G1 G2].
    assert (Hc : lb_copies (label_of c a) = lb_copies (label_of c b)).
    { destruct Xa as [_ [La [Ba _]]]. destruct Xb as [_ [Lb [Bb _]]].
      assert (Hl : length (lb_copies (label_of c a)) = length (lb_copies (label_of c b))) by (rewrite La, Lb; unfold label_of; cbn [lb_obs]; now rewrite E1).
      unfold label_of in *. cbn [lb_copies] in *. rewrite <- Es in *. destruct (ob_single (io_obs (obs_of c a))); [reflexivity|]. destruct (Nat.lt_ge_cases 1 L) as [K|K].
      - specialize (G2 K). unfold ia, ib in G2. destruct (Nat.ltb_spec 9 L) as [M|M].
        + now apply commas_join in G2.
        + apply digits_join in G2; auto; apply Forall_forall; intros x I; [apply Ba in I|apply Bb in I]; lia.
      - assert (Z : forall q q' : list nat, length q = length q' -> (forall i, In i q -> i < L) -> (forall i, In i q' -> i < L) -> q = q').
        { clear - K. induction q as [|x q IH]; intros [|y q'] Hl Hq Hq'; try discriminate; [reflexivity|]. f_equal.
          - specialize (Hq x (or_introl eq_refl)). specialize (Hq' y (or_introl eq_refl)). lia.
          - apply IH; [now injection Hl|intros i I; apply Hq; now right|intros i I; apply Hq'; now right]. }
        now apply Z. }
    revert Hc. unfold label_of. cbn [lb_copies]. intros ->. now rewrite E1, G1.
  Qed.
  Lemma inf_text_form b n w : w <> [] -> inf_text c b n w = (if n then tx "-" else []) ++ in_braces b (join (tx ";") (map (inf_operator_text c) w)).
  Proof. now destruct w. Qed.
  Lemma t_inflation b n n' w w' : word_exists c w -> word_exists c w' -> w <> [] -> w' <> [] -> inf_text c b n w = inf_text c b n' w' -> n = n' /\ w = w'.
  Proof.
    intros F F' N N'. rewrite !inf_text_form by assumption. apply (spelled D); auto; [apply inf_inj|intros; apply inf_lacks|intros; apply inf_starts|apply Forall_forall, F|apply Forall_forall, F'].
  Qed.
  Lemma t_inflation_number b n w : word_exists c w -> w <> [] -> inf_text c b n w <> tx "1" /\ inf_text c b n w <> tx "0".
  Proof.
    intros F N. rewrite inf_text_form by assumption. split; apply (spelled_number D); auto; try (apply Forall_forall, F); intros; apply inf_starts.
  Qed.
End Inflation.
