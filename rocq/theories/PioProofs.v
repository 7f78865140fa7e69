From Coq Require Import NArith ZArith Arith Bool Ascii String List Lia.
From Verif Require Import TextModel FieldModel SymModel PolyModel PolySpec PolyProofs PolyFinalProofs MonModel MonSpec MonProofs PioModel PioSpec.
Import ListNotations.
Local Open Scope list_scope.

Section Proofs.
  Context {R : rfield}.
  Notation term := (PolyModel.mono R).
  Variable scan : text -> option N.
  Variable scanb : text -> option bool.
  Variable negb_r : R -> bool.
  Variable trunc : R -> option N.
  Variable of_z : Z -> R.
  Variable stod : text -> option (R * nat).
  Hypothesis Hc : casts negb_r trunc of_z.
  Notation scalar_id := (scalar_id scan negb_r trunc).
  Notation scalar_flag := (scalar_flag scanb negb_r).
  Notation scalar_factor := (scalar_factor of_z).
  Notation read_cell := (read_monomial_cell scan scanb negb_r trunc of_z).
  Notation read_element := (read_element scan scanb negb_r trunc of_z).
  Notation read_string := (read_monomial_string stod).
  Notation read_raw := (read_raw scan scanb negb_r trunc of_z stod).
  Notation import_poly := (import_poly scan scanb negb_r trunc of_z stod).
  Notation names := (names scan of_z).
  Notation weighs := (weighs of_z).
  Notation flags := (flags scanb negb_r).
  Notation element := (element scan scanb negb_r of_z).
  Notation text_term := (text_term stod).
  Notation denotes := (denotes scan scanb negb_r of_z stod).
  Notation plain := (plain negb_r of_z).
  Notation plain_element := (plain_element negb_r of_z).
  Implicit Types (a : marray R) (x : raw R) (xs : list (raw R)) (ts : list term).

  Lemma minus_spec t : leads_minus t = false <-> not_minus t.
  Proof.
    unfold not_minus. destruct t as [|c r]; cbn [leads_minus tx list_ascii_of_string app].
    - split; [intros _ r; discriminate|reflexivity].
    - destruct (Ascii.eqb c "-") eqn:E.
      + apply Ascii.eqb_eq in E. subst c. split; [discriminate|]. intro H. exfalso. now apply (H r).
      + apply Ascii.eqb_neq in E. split; [|reflexivity]. intros _ r' H. congruence.
  Qed.

  Lemma id_of_names a n : names a n -> scalar_id a = POk (N.of_nat n).
  Proof.
    intros []; cbn [PioModel.scalar_id].
    - rewrite (proj2 (Z.ltb_ge _ _)) by lia. f_equal. lia.
    - rewrite <- nat_N_Z. rewrite (ca_pos _ _ _ Hc). now rewrite (ca_cast _ _ _ Hc).
    - reflexivity.
    - reflexivity.
    - rewrite (proj2 (minus_spec t)) by assumption. rewrite H0. cbn. now rewrite N2Nat.id.
  Qed.
  Lemma names_of_id a n : (forall y, a = MReals [y] -> plain_real negb_r of_z y) -> scalar_id a = POk n -> names a (N.to_nat n).
  Proof.
    intros Hp H. destruct a as [l|l|l|l|l|l|]; cbn [PioModel.scalar_id] in H; try discriminate.
    - destruct l as [|[t|] [|]]; try discriminate. destruct (leads_minus t) eqn:E; [discriminate|].
      destruct (scan t) as [k|] eqn:Es; [|discriminate]. cbn in H. injection H as <-. apply names_text; [now apply minus_spec|assumption].
    - destruct l as [|z [|]]; try discriminate. destruct (Z.ltb_spec z 0) as [Hz|Hz]; [discriminate|]. injection H as <-.
      assert (Q : z = Z.of_nat (N.to_nat (Z.to_N z))) by lia. rewrite Q at 1. apply names_int.
    - destruct l as [|y [|]]; try discriminate. destruct (Hp y eq_refl) as [Hn|[k [Hk ->]]].
      + rewrite Hn in H. discriminate.
      + rewrite (ca_pos _ _ _ Hc), (ca_cast _ _ _ Hc k Hk) in H. injection H as <-. rewrite <- (N2Nat.id k) at 1. rewrite nat_N_Z.
        apply names_real. now rewrite N2Nat.id.
    - destruct l as [|b [|]]; try discriminate. injection H as <-. destruct b; [exact (names_true _ _)|exact (names_false _ _)].
  Qed.
  Lemma factor_spec a c : scalar_factor a = POk c <-> weighs a c.
  Proof.
    split.
    - intro H. destruct a as [l|l|l|l|l|l|]; cbn [PioModel.scalar_factor] in H; try discriminate; destruct l as [|y [|]]; try discriminate.
      + injection H as <-. apply weighs_int.
      + injection H as <-. apply weighs_real.
      + injection H as <-. apply weighs_cplx.
      + injection H as <-. destruct y; [apply weighs_true|apply weighs_false].
    - intros []; reflexivity.
  Qed.
  Lemma flag_spec a b : scalar_flag a = POk b <-> flags a b.
  Proof.
    split.
    - intro H. destruct a as [l|l|l|l|l|l|]; cbn [PioModel.scalar_flag] in H; try discriminate; destruct l as [|y [|]]; try discriminate.
      + destruct y as [t|]; [|discriminate]. destruct (leads_minus t) eqn:E; [discriminate|].
        destruct (scanb t) as [k|] eqn:Es; [|discriminate]. cbn in H. injection H as <-. apply flags_text; [now apply minus_spec|assumption].
      + destruct y; discriminate.
      + destruct (Z.ltb_spec y 0) as [Hz|Hz]; [discriminate|]. injection H as <-. destruct (Z.eqb_spec y 0) as [->|Hn]; [apply flags_int0|].
        apply flags_int. lia.
      + destruct (negb_r y) eqn:E; [discriminate|]. injection H as <-. destruct (r_eqb R y (r0 R)) eqn:Q.
        * apply r_eqb_spec in Q. subst y. now apply flags_real0.
        * apply flags_real; [assumption|]. intro Q'. apply r_eqb_spec in Q'. congruence.
      + injection H as <-. apply flags_bool.
    - intros [z Hz| |y E Q|E|c|t c E Q]; cbn [PioModel.scalar_flag].
      + rewrite (proj2 (Z.ltb_ge _ _)) by lia. now rewrite (proj2 (Z.eqb_neq _ _)) by lia.
      + reflexivity.
      + rewrite E. destruct (r_eqb R y (r0 R)) eqn:Q'; [|reflexivity]. apply r_eqb_spec in Q'. contradiction.
      + rewrite E. now rewrite (proj2 (r_eqb_spec R _ _) eq_refl).
      + reflexivity.
      + apply minus_spec in E. rewrite E, Q. reflexivity.
  Qed.

  Lemma pbind_ok {A B} (x : pout A) (f : A -> pout B) b : pbind x f = POk b <-> exists a0 : A, x = POk a0 /\ f a0 = POk b.
  Proof. destruct x as [a0|]; cbn; split; [intro H; now exists a0|intros (a' & [= ->] & H); assumption|discriminate|intros (a' & H & _); discriminate]. Qed.

  Lemma cell_sound here l x : plain_element (MCell l) -> read_cell here l = POk x -> element (MCell l) (of_raw x).
  Proof.
    intros Hp H. destruct l as [|i [|f [|c [|]]]]; cbn [read_monomial_cell] in H; try discriminate.
    - apply pbind_ok in H as (n & Hn & H). injection H as <-. apply element_1, names_of_id; [|assumption]. intros y ->. now apply (Hp y []).
    - apply pbind_ok in H as (n & Hn & H). apply pbind_ok in H as (g & Hg & H). injection H as <-. apply element_2.
      + apply names_of_id; [|assumption]. intros y ->. now apply (Hp y [f]).
      + now apply factor_spec.
    - apply pbind_ok in H as (n & Hn & H). apply pbind_ok in H as (g & Hg & H). apply pbind_ok in H as (b & Hb & H). injection H as <-. apply element_3.
      + apply names_of_id; [|assumption]. intros y ->. now apply (Hp y [f; c]).
      + now apply factor_spec.
      + now apply flag_spec.
  Qed.
  Definition to_raw (y : term) : raw R := mk_raw (N.of_nat (m_id y)) (m_f y) (m_cj y).
  Lemma of_to y : of_raw (to_raw y) = y.
  Proof. destruct y. unfold of_raw, to_raw. cbn. now rewrite Nat2N.id. Qed.
  Lemma element_complete k a y : element a y -> read_element k a = POk (to_raw y).
  Proof.
    intros []; cbn [PioModel.read_element read_monomial_cell].
    - rewrite (id_of_names _ _ H). reflexivity.
    - rewrite (id_of_names _ _ H). apply factor_spec in H0. rewrite H0. reflexivity.
    - rewrite (id_of_names _ _ H). apply factor_spec in H0. apply flag_spec in H1. cbn [pbind]. rewrite H0. cbn [pbind]. rewrite H1. reflexivity.
  Qed.
  Lemma element_sound k a x : plain_element a -> read_element k a = POk x -> element a (of_raw x).
  Proof. intros Hp H. destruct a; try discriminate. exact (cell_sound _ _ _ Hp H). Qed.
  Lemma text_complete here t y : text_term t y -> read_string here t = POk (to_raw y).
  Proof.
    intros [|s m L Hr]; cbn [read_monomial_string]; [reflexivity|].
    apply (parse_reads R (r0 R) (r1 R) (ropp R) stod s m L) in Hr. rewrite Hr. unfold to_raw. cbn. now rewrite N2Nat.id.
  Qed.
  Lemma text_sound here t x : read_string here t = POk x -> text_term t (of_raw x).
  Proof.
    destruct t as [s|]; cbn [read_monomial_string].
    - destruct (parse (r0 R) (r1 R) (ropp R) stod s) as [m| |] eqn:E; try discriminate. intro H. injection H as <-.
      assert (L : 1 <= List.length s <= 32).
      { destruct (Nat.eq_dec (List.length s) 0) as [Q|Q]; [rewrite parse_length in E by auto; discriminate|].
        destruct (le_lt_dec (List.length s) 32) as [Q'|Q']; [lia|rewrite parse_length in E by auto; discriminate]. }
      apply (text_some stod s m L). now apply (parse_reads R (r0 R) (r1 R) (ropp R) stod s m L).
    - intro H. injection H as <-. apply text_none.
  Qed.

  Lemma all_complete {A} (rd : nat -> A -> pout (raw R)) (P : A -> term -> Prop) l ts k :
    (forall j z y, P z y -> rd j z = POk (to_raw y)) -> Forall2 P l ts -> read_all rd k l = POk (map to_raw ts).
  Proof.
    intros H F. revert k. induction F as [|z y l ts Hz F IH]; intro k; [reflexivity|]. cbn [read_all map]. rewrite (H k z y Hz). cbn [pbind]. now rewrite IH.
  Qed.
  Lemma all_sound {A} (rd : nat -> A -> pout (raw R)) (P : A -> term -> Prop) (Q : A -> Prop) l :
    (forall j z x, Q z -> rd j z = POk x -> P z (of_raw x)) -> Forall Q l -> forall k xs, read_all rd k l = POk xs -> Forall2 P l (map of_raw xs).
  Proof.
    intros H F. induction F as [|z l Hz F IH]; intros k xs E; cbn [read_all] in E.
    - injection E as <-. constructor.
    - apply pbind_ok in E as (x & Ex & E). apply pbind_ok in E as (ys & Ey & E). injection E as <-. cbn [map]. constructor; [exact (H _ _ _ Hz Ex)|exact (IH _ _ Ey)].
  Qed.
  Lemma raw_complete a ts : denotes a ts -> read_raw a = POk (map to_raw ts).
  Proof.
    intros [l ts' F|l ts' F]; cbn [PioModel.read_raw].
    - apply (all_complete _ element); [|assumption]. intros j z y. apply element_complete.
    - apply (all_complete _ text_term); [|assumption]. intros j z y. apply text_complete.
  Qed.
  Lemma raw_sound a xs : plain a -> read_raw a = POk xs -> denotes a (map of_raw xs).
  Proof.
    intros Hp H. destruct a as [l|l|l|l|l|l|]; cbn [PioModel.read_raw] in H; try discriminate.
    - apply denotes_cell. apply (all_sound read_element _ plain_element l) with (k:=0); [|now apply Hp|assumption]. intros j z x Q E. exact (element_sound j z x Q E).
    - apply denotes_text. apply (all_sound (fun index t => read_string (BadElement (index + 1)) t) _ (fun _ => True) l) with (k:=0); [|apply Forall_forall; trivial|assumption].
      intros j z x _ E. exact (text_sound _ z x E).
  Qed.

  Variable t : table.
  Lemma check_spec xs k : check_raw (List.length (t_syms t)) k xs = None <-> Forall (in_table t) (map of_raw xs).
  Proof.
    induction xs as [|x xs IH]; cbn [check_raw map].
    - split; [constructor|reflexivity].
    - destruct (N.leb_spec (N.of_nat (List.length (t_syms t))) (ra_id x)) as [L|L].
      + split; [discriminate|]. intro F. inversion F as [|? ? H0 ?]; subst. unfold in_table in H0. cbn in H0. lia.
      + rewrite IH. split; intro F; [constructor; [unfold in_table; cbn; lia|assumption]|now inversion F].
  Qed.
  Lemma check_error xs k e : check_raw (List.length (t_syms t)) k xs = Some e -> e = OutOfRange (k + 1).
  Proof. revert k. induction xs as [|x xs IH]; intros k H; cbn [check_raw] in H; [discriminate|]. destruct (_ <=? _)%N; [congruence|auto]. Qed.
  Lemma map_of_to ts : map of_raw (map to_raw ts) = ts.
  Proof. induction ts as [|y ts IH]; [reflexivity|]. cbn [map]. now rewrite of_to, IH. Qed.

  Variable srt : list term -> list term.
  Lemma import_complete a ts : denotes a ts -> Forall (in_table t) ts -> import_poly t srt a = POk (make_poly t srt ts).
  Proof.
    intros D F. unfold PioModel.import_poly. rewrite (raw_complete _ _ D). cbn [pbind]. unfold to_poly.
    rewrite (proj2 (check_spec (map to_raw ts) 0)) by now rewrite map_of_to. now rewrite map_of_to.
  Qed.
  Lemma import_sound a p : plain a -> import_poly t srt a = POk p -> exists ts, denotes a ts /\ Forall (in_table t) ts /\ p = make_poly t srt ts.
  Proof.
    intros Hp H. apply pbind_ok in H as (xs & Ex & H). unfold to_poly in H. destruct (check_raw _ 0 xs) as [e|] eqn:E; [discriminate|]. injection H as <-.
    exists (map of_raw xs). split; [now apply raw_sound|]. split; [now apply check_spec in E|reflexivity].
  Qed.

  Lemma accepted_iff a : plain a -> (exists p, import_poly t srt a = POk p) <-> exists ts, denotes a ts /\ Forall (in_table t) ts.
  Proof.
    intro Hp. split.
    - intros (p & H). destruct (import_sound a p Hp H) as (ts & D & F & _). now exists ts.
    - intros (ts & D & F). exists (make_poly t srt ts). now apply import_complete.
  Qed.
  Lemma import_value lt a ts p : term_order t lt -> sorts t lt srt -> denotes a ts -> import_poly t srt a = POk p ->
    canonical t lt p /\ same_value t p ts.
  Proof.
    intros O Sr D H. unfold PioModel.import_poly in H. rewrite (raw_complete _ _ D) in H. cbn [pbind] in H. unfold to_poly in H.
    destruct (check_raw _ 0 (map to_raw ts)) as [e|] eqn:E; [discriminate|]. apply check_spec in E. rewrite map_of_to in *. injection H as <-.
    now apply construct_spec.
  Qed.

  (** ** what is exported *)
  Lemma export_element (y : term) : element (export_term y) y.
  Proof.
    unfold export_term. destruct y as [n c f]. cbn [m_id m_cj m_f].
    assert (W : weighs (if r_eqb R (cim f) (r0 R) then MReals [cre f] else MCplx [f]) f).
    { destruct (r_eqb R (cim f) (r0 R)) eqn:E; [|apply weighs_cplx]. apply r_eqb_spec in E. destruct f as [re im]. cbn in *. subst im. apply weighs_real. }
    destruct c; cbn [app]; [apply element_3|apply element_2]; try apply names_int; try assumption. apply flags_bool.
  Qed.
  Lemma export_denotes (p : list term) : denotes (export_poly p) p.
  Proof. apply denotes_cell. induction p as [|y p IH]; cbn [map]; constructor; [apply export_element|assumption]. Qed.
  Lemma round_trip lt p : term_order t lt -> sorts t lt srt -> starts t -> no_null t -> canonical t lt p -> import_poly t srt (export_poly p) = POk p.
  Proof.
    intros O Sr St Nn C. rewrite (import_complete _ p (export_denotes p)).
    - now rewrite (fixed_spec R t lt srt p).
    - apply Forall_forall. intros y Hy. now apply (cp_terms _ _ _ C).
  Qed.
  Lemma round_trip_mono lt y : term_order t lt -> sorts t lt srt -> starts t -> no_null t -> canonical t lt [y] -> import_poly t srt (export_mono y) = POk [y].
  Proof. intros. exact (round_trip lt [y] H H0 H1 H2 H3). Qed.
  Lemma mono_back (y : term) : exists x, read_monomial scan scanb negb_r trunc of_z stod (export_term y) = POk x /\ of_raw x = y.
  Proof.
    exists (to_raw y). split; [|apply of_to]. pose proof (element_complete 0 _ _ (export_element y)) as H. unfold export_term in *. cbn [read_monomial PioModel.read_element] in *.
    destruct y as [n c f]. cbn [m_cj] in *. destruct c; cbn [app] in *; exact H.
  Qed.

  (** ** errors *)
  Lemma cell_bad here l e : read_cell here l = PErr e -> (e = here /\ misshapen (MCell l)) \/ e = BadScalar \/ e = UndefinedCast.
  Proof.
    assert (S1 : forall a e', scalar_id a = PErr e' -> e' = BadScalar \/ e' = UndefinedCast).
    { intros a e' H. destruct a as [m|m|m|m|m|m|]; cbn [PioModel.scalar_id] in H; try (injection H as <-; now auto);
        destruct m as [|y [|]]; try (injection H as <-; now auto); try (destruct y; injection H as <-; now auto).
      - destruct y as [s|]; [|injection H as <-; now auto]. destruct (leads_minus s); [injection H as <-; now auto|]. destruct (scan s); cbn in H; [discriminate|injection H as <-; now auto].
      - destruct (y <? 0)%Z; [injection H as <-; now auto|discriminate].
      - destruct (negb_r y); [injection H as <-; now auto|]. destruct (trunc y); [discriminate|injection H as <-; now auto].
      - discriminate. }
    assert (S2 : forall a e', scalar_factor a = PErr e' -> e' = BadScalar \/ e' = UndefinedCast).
    { intros a e' H. destruct a as [m|m|m|m|m|m|]; cbn [PioModel.scalar_factor] in H; try (injection H as <-; now auto);
        destruct m as [|y [|]]; try discriminate; injection H as <-; now auto. }
    assert (S3 : forall a e', scalar_flag a = PErr e' -> e' = BadScalar \/ e' = UndefinedCast).
    { intros a e' H. destruct a as [m|m|m|m|m|m|]; cbn [PioModel.scalar_flag] in H; try (injection H as <-; now auto);
        destruct m as [|y [|]]; try (injection H as <-; now auto); try (destruct y; injection H as <-; now auto).
      - destruct y as [s|]; [|injection H as <-; now auto]. destruct (leads_minus s); [injection H as <-; now auto|]. destruct (scanb s); cbn in H; [discriminate|injection H as <-; now auto].
      - destruct (y <? 0)%Z; [injection H as <-; now auto|discriminate].
      - destruct (negb_r y); [injection H as <-; now auto|discriminate].
      - discriminate. }
    intro H. destruct l as [|i [|f [|c [|d l]]]]; cbn [read_monomial_cell] in H.
    - injection H as <-. left. split; [reflexivity|]. intros l [= <-]. now left.
    - destruct (scalar_id i) eqn:E; [discriminate|]. cbn in H. injection H as <-. right. eauto.
    - destruct (scalar_id i) eqn:E; [|cbn in H; injection H as <-; right; eauto]. cbn [pbind] in H.
      destruct (scalar_factor f) eqn:E2; [discriminate|cbn in H; injection H as <-; right; eauto].
    - destruct (scalar_id i) eqn:E; [|cbn in H; injection H as <-; right; eauto]. cbn [pbind] in H.
      destruct (scalar_factor f) eqn:E2; [|cbn in H; injection H as <-; right; eauto]. cbn [pbind] in H.
      destruct (scalar_flag c) eqn:E3; [discriminate|cbn in H; injection H as <-; right; eauto].
    - injection H as <-. left. split; [reflexivity|]. intros l' [= <-]. right. cbn. lia.
  Qed.
  Lemma misshapen_read k a : misshapen a -> read_element k a = PErr (BadElement (k + 1)).
  Proof.
    intro M. destruct a as [l| | | | | |]; try reflexivity. cbn [PioModel.read_element]. specialize (M l eq_refl).
    destruct l as [|i [|f [|c [|d l]]]]; try reflexivity; cbn in M; lia.
  Qed.
  Lemma element_bad k a n : read_element k a = PErr (BadElement n) -> n = k + 1 /\ misshapen a.
  Proof.
    intro H. destruct a as [l| | | | | |]; cbn [PioModel.read_element] in H; try (injection H as <-; split; [reflexivity|intros ? [=]]).
    destruct (cell_bad _ _ _ H) as [[E M]|[E|E]]; [injection E as <-; auto|discriminate|discriminate].
  Qed.
  Lemma all_bad l k n : Forall plain_element l -> read_all read_element k l = PErr (BadElement n) <->
    exists j a, n = k + j + 1 /\ nth_error l j = Some a /\ misshapen a /\ forall i b, i < j -> nth_error l i = Some b -> exists y, element b y.
  Proof.
    intro F. revert k. induction F as [|a l Ha F IH]; intro k; cbn [read_all].
    - split; [discriminate|]. intros (j & a & _ & H & _). destruct j; discriminate.
    - destruct (read_element k a) as [x|e] eqn:E; cbn [pbind].
      + assert (El : element a (of_raw x)) by exact (element_sound k a x Ha E). split.
        * intro H. destruct (read_all read_element (S k) l) as [xs|e] eqn:El'; [discriminate|]. cbn in H. assert (H' : read_all read_element (S k) l = PErr (BadElement n)) by congruence.
          apply IH in H' as (j & b & Hn & Hj & M & Hb). exists (S j), b. split; [lia|]. split; [assumption|]. split; [assumption|].
          intros [|i] c Hi Hc'; [injection Hc' as <-; eauto|]. apply (Hb i c); [lia|assumption].
        * intros (j & b & Hn & Hj & M & Hb). destruct j as [|j].
          { injection Hj as ->. rewrite (misshapen_read k b M) in E. discriminate. }
          assert (H' : read_all read_element (S k) l = PErr (BadElement n)).
          { apply IH. exists j, b. split; [lia|]. split; [assumption|]. split; [assumption|]. intros i c Hi Hc'. apply (Hb (S i) c); [lia|assumption]. }
          now rewrite H'.
      + split.
        * intro H. assert (He : e = BadElement n) by congruence. subst e. apply element_bad in E as [-> M]. exists 0, a. split; [lia|]. split; [reflexivity|]. split; [assumption|]. intros i b Hi. lia.
        * intros (j & b & Hn & Hj & M & Hb). destruct j as [|j].
          { injection Hj as ->. rewrite (misshapen_read k b M) in E. f_equal. replace n with (k + 1) by lia. congruence. }
          destruct (Hb 0 a) as (y & Hy); [lia|reflexivity|]. rewrite (element_complete k a y Hy) in E. discriminate.
  Qed.
  Lemma first_bad l n : plain (MCell l) -> import_poly t srt (MCell l) = PErr (BadElement n) <->
    exists j a, n = j + 1 /\ nth_error l j = Some a /\ misshapen a /\ forall i b, i < j -> nth_error l i = Some b -> exists y, element b y.
  Proof.
    intro Hp. specialize (Hp l eq_refl). rewrite <- (all_bad l 0 n Hp). unfold PioModel.import_poly. cbn [PioModel.read_raw].
    destruct (read_all read_element 0 l) as [xs|e]; cbn [pbind].
    - split; [|discriminate]. unfold to_poly. destruct (check_raw _ 0 xs) as [e|] eqn:E; [|discriminate]. apply check_error in E. subst e. discriminate.
    - split; congruence.
  Qed.
  Lemma not_read_range a n : read_raw a <> PErr (OutOfRange n).
  Proof.
    assert (G : forall {A} (rd : nat -> A -> pout (raw R)), (forall k z, rd k z <> PErr (OutOfRange n)) -> forall l k, read_all rd k l <> PErr (OutOfRange n)).
    { intros A rd H l. induction l as [|z l IH]; intros k; cbn [read_all]; [discriminate|]. specialize (H k z). destruct (rd k z) as [x|e]; cbn [pbind].
      - specialize (IH (S k)). destruct (read_all rd (S k) l); cbn; [discriminate|congruence].
      - congruence. }
    destruct a as [l|l| | | | |]; cbn [PioModel.read_raw]; try discriminate.
    - apply G. intros k z H. destruct z as [m| | | | | |]; cbn [PioModel.read_element] in H; try discriminate.
      destruct (cell_bad _ _ _ H) as [[E _]|[E|E]]; discriminate.
    - apply G. intros k z H. destruct z as [s|]; cbn [read_monomial_string] in H; [|discriminate]. destruct (parse _ _ _ _ s); discriminate.
  Qed.
  Lemma out_of_range a n : plain a -> import_poly t srt a = PErr (OutOfRange n) -> n = 1 /\ exists ts, denotes a ts /\ ~ Forall (in_table t) ts.
  Proof.
    intros Hp H. unfold PioModel.import_poly in H. destruct (read_raw a) as [xs|e] eqn:Ex; cbn [pbind] in H.
    - unfold to_poly in H. destruct (check_raw _ 0 xs) as [e|] eqn:E; [|discriminate]. pose proof (check_error _ _ _ E) as ->. injection H as <-. split; [reflexivity|].
      exists (map of_raw xs). split; [now apply raw_sound|]. intro F. apply (check_spec xs 0) in F. congruence.
    - exfalso. apply (not_read_range a n). congruence.
  Qed.
  Lemma out_of_range_rejected a ts : denotes a ts -> ~ Forall (in_table t) ts -> import_poly t srt a = PErr (OutOfRange 1).
  Proof.
    intros D F. unfold PioModel.import_poly. rewrite (raw_complete _ _ D). cbn [pbind]. unfold to_poly.
    destruct (check_raw _ 0 (map to_raw ts)) as [e|] eqn:E; [now apply check_error in E as ->|]. apply check_spec in E. rewrite map_of_to in E. contradiction.
  Qed.
  Lemma lone_iff a y : plain_element a ->
    (exists x, read_monomial scan scanb negb_r trunc of_z stod a = POk x /\ N.to_nat (ra_id x) = m_id y /\ ra_f x = m_f y /\ ra_cj x = m_cj y) <->
    lone_term scan scanb negb_r of_z stod a y.
  Proof.
    intro Hp. assert (E : forall x, N.to_nat (ra_id x) = m_id y /\ ra_f x = m_f y /\ ra_cj x = m_cj y <-> of_raw x = y).
    { intro x. unfold of_raw. destruct y; cbn. split; [intros (-> & -> & ->); reflexivity|intros [= -> -> ->]; auto]. }
    split.
    - intros (x & H & Hx). apply E in Hx. subst y. destruct a as [l|l| | | | |]; cbn [read_monomial] in H; try discriminate.
      + apply lone_cell. exact (cell_sound _ _ _ Hp H).
      + destruct l as [|s [|]]; [injection H as <-; apply lone_empty| |discriminate]. apply lone_text. exact (text_sound _ _ _ H).
    - intro H. exists (to_raw y). split; [|apply E, of_to]. destruct H as [a y H|s y H|]; [|exact (text_complete NotPolynomial s y H)|reflexivity].
      pose proof (element_complete 0 a y H) as Q. destruct H; exact Q.
  Qed.
  Lemma term_back (y : term) : exists x, read_monomial scan scanb negb_r trunc of_z stod (export_term y) = POk x /\ N.to_nat (ra_id x) = m_id y /\ ra_f x = m_f y /\ ra_cj x = m_cj y.
  Proof. destruct (mono_back y) as (x & E & H). exists x. split; [exact E|]. subst y. unfold of_raw. cbn. auto. Qed.
  Lemma range_partial a :
    (forall ts, denotes a ts -> ~ Forall (in_table t) ts -> import_poly t srt a = PErr (OutOfRange 1)) /\
    (forall n, plain a -> import_poly t srt a = PErr (OutOfRange n) -> n = 1 /\ exists ts, denotes a ts /\ ~ Forall (in_table t) ts).
  Proof. split; [intro ts; apply out_of_range_rejected|intro n; apply out_of_range]. Qed.
End Proofs.
Lemma fraction {R : rfield} scan scanb (negb_r : R -> bool) trunc of_z stod x n r t srt : negb_r x = false -> trunc x = Some n ->
  import_poly scan scanb negb_r trunc of_z stod t srt (MCell [MCell (MReals [x] :: r)]) =
  import_poly scan scanb negb_r trunc of_z stod t srt (MCell [MCell (MInts [Z.of_N n] :: r)]).
Proof.
  intros H1 H2. unfold import_poly. cbn [read_raw read_all read_element].
  assert (E : scalar_id scan negb_r trunc (MReals [x]) = scalar_id scan negb_r trunc (MInts [Z.of_N n])).
  { cbn [scalar_id]. rewrite H1, H2. rewrite (proj2 (Z.ltb_ge _ _)) by lia. now rewrite N2Z.id. }
  assert (E2 : forall h, read_monomial_cell scan scanb negb_r trunc of_z h (MReals [x] :: r) = read_monomial_cell scan scanb negb_r trunc of_z h (MInts [Z.of_N n] :: r)).
  { intro h. unfold read_monomial_cell. now rewrite E. }
  now rewrite E2.
Qed.
