(** Reading texts of symbols. *)
From Coq Require Import NArith ZArith Arith Bool Ascii String List Lia.
From Verif Require Import TextModel MonModel MonSpec.
Import ListNotations.
Local Open Scope list_scope.
Arguments nat_of_ascii : simpl never. Arguments N_of_ascii : simpl never. Arguments Ascii.eqb : simpl never.

Lemma take_drop f t : t = take_while f t ++ drop_while f t.
Proof. induction t as [|c r IH]; [reflexivity|]. cbn. destruct (f c); [cbn; f_equal; exact IH|reflexivity]. Qed.
Lemma take_all f t : Forall (fun c => f c = true) (take_while f t).
Proof. induction t as [|c r IH]; [constructor|]. cbn. destruct (f c) eqn:E; constructor; assumption. Qed.
Definition stops (f : ascii -> bool) (t : text) : Prop := match t with [] => True | c :: _ => f c = false end.
Lemma drop_stops f t : stops f (drop_while f t).
Proof. induction t as [|c r IH]; [exact I|]. cbn. destruct (f c) eqn:E; [exact IH|exact E]. Qed.
Lemma take_app f a b : Forall (fun c => f c = true) a -> stops f b -> take_while f (a ++ b) = a.
Proof.
  induction 1 as [|c a H _ IH]; intro S; cbn.
  - destruct b as [|c r]; [reflexivity|]. cbn in *. now rewrite S.
  - rewrite H. f_equal. now apply IH.
Qed.
Lemma drop_app f a b : Forall (fun c => f c = true) a -> stops f b -> drop_while f (a ++ b) = b.
Proof.
  induction 1 as [|c a H _ IH]; intro S; cbn.
  - destruct b as [|c r]; [reflexivity|]. cbn in *. now rewrite S.
  - rewrite H. now apply IH.
Qed.
Lemma is_digit_iff c : is_digit c = true <-> decimal_digit c.
Proof. unfold is_digit, between, decimal_digit. rewrite andb_true_iff, !Nat.leb_le. reflexivity. Qed.
Lemma nat_code c d : nat_of_ascii c = nat_of_ascii d -> c = d.
Proof. intro H. rewrite <- (ascii_nat_embedding c), <- (ascii_nat_embedding d). now rewrite H. Qed.
Lemma is_space_iff c : is_space c = true <-> blank c.
Proof.
  unfold is_space, between, blank. rewrite orb_true_iff, andb_true_iff, !Nat.leb_le. split; (intros [H|H]; [left; exact H|right]).
  - apply Ascii.eqb_eq in H. subst c. reflexivity.
  - apply Ascii.eqb_eq. apply nat_code. exact H.
Qed.
Lemma digits_forall t : Forall (fun c => is_digit c = true) t <-> Forall decimal_digit t.
Proof. rewrite !Forall_forall. split; intros H c Hc; apply is_digit_iff, H, Hc. Qed.
Lemma spaces_forall t : Forall (fun c => is_space c = true) t <-> Forall blank t.
Proof. rewrite !Forall_forall. split; intros H c Hc; apply is_space_iff, H, Hc. Qed.
Lemma digit_of_nat c : decimal_digit c -> digit_of c = Z.of_nat (nat_of_ascii c - 48).
Proof. unfold decimal_digit, digit_of, nat_of_ascii. intros H. lia. Qed.
Lemma fold_value t : forall a, Forall decimal_digit t -> fold_left (fun a c => 10 * a + digit_of c)%Z t a = (a * 10 ^ Z.of_nat (List.length t) + decimal_value t)%Z.
Proof.
  induction t as [|c t IH]; intros a H; cbn [fold_left decimal_value List.length].
  - cbn. lia.
  - inversion H; subst. rewrite IH by assumption. rewrite digit_of_nat by assumption.
    rewrite Nat2Z.inj_succ, Z.pow_succ_r by lia. lia.
Qed.
Lemma digits_value_ok t : Forall decimal_digit t -> digits_value t = decimal_value t.
Proof. intro H. unfold digits_value. rewrite fold_value by exact H. lia. Qed.
Lemma decimal_value_pos t : (0 <= decimal_value t)%Z.
Proof. induction t as [|c t IH]; cbn [decimal_value]; [lia|]. assert (0 <= 10 ^ Z.of_nat (List.length t))%Z by (apply Z.pow_nonneg; lia). nia. Qed.
(** characters *)
Lemma code_neq (c d : ascii) : nat_of_ascii c <> nat_of_ascii d -> Ascii.eqb c d = false.
Proof. intro H. apply Ascii.eqb_neq. congruence. Qed.
Lemma digit_not c d : decimal_digit c -> ~ decimal_digit d -> c <> d.
Proof. intros H N ->. contradiction. Qed.
Lemma not_digit_star : ~ decimal_digit "*". Proof. unfold decimal_digit. cbv. lia. Qed.
Lemma not_digit_minus : ~ decimal_digit "-". Proof. unfold decimal_digit. cbv. lia. Qed.
Lemma not_digit_plus : ~ decimal_digit "+". Proof. unfold decimal_digit. cbv. lia. Qed.
Lemma not_digit_hash : ~ decimal_digit "#". Proof. unfold decimal_digit. cbv. lia. Qed.
Lemma not_digit_dot : ~ decimal_digit ".". Proof. unfold decimal_digit. cbv. lia. Qed.
Lemma digit_not_blank c : decimal_digit c -> ~ blank c.
Proof. unfold decimal_digit, blank. lia. Qed.
Lemma is_space_false c : ~ blank c -> is_space c = false.
Proof. intro H. destruct (is_space c) eqn:E; [|reflexivity]. apply is_space_iff in E. contradiction. Qed.

Definition parse_sign (r : text) : bool := match r with c :: _ => Ascii.eqb c "-" | [] => false end.
Definition after_sign (r : text) : text := match r with c :: r' => if Ascii.eqb c "-" || Ascii.eqb c "+" then r' else r | [] => [] end.
Lemma stoi_eq t : stoi t = let r := drop_while is_space t in
  match take_while is_digit (after_sign r) with
  | [] => IntInvalid
  | ds => let v := if parse_sign r then (- digits_value ds)%Z else digits_value ds in
          if (v <? int_min)%Z || (int_max <? v)%Z then IntRange else IntRead v (List.length t - List.length (drop_while is_digit (after_sign r)))
  end.
Proof. reflexivity. Qed.
Lemma sign_split r : exists sign, r = sign ++ after_sign r /\ ((sign = [] /\ parse_sign r = false) \/ (sign = tx "+" /\ parse_sign r = false) \/ (sign = tx "-" /\ parse_sign r = true)).
Proof.
  destruct r as [|c r]; [exists []; auto|]. cbn [after_sign parse_sign]. destruct (Ascii.eqb c "-") eqn:E.
  - apply Ascii.eqb_eq in E. subst c. exists (tx "-"). cbn. auto.
  - destruct (Ascii.eqb c "+") eqn:F; cbn [orb].
    + apply Ascii.eqb_eq in F. subst c. exists (tx "+"). auto.
    + exists []. auto.
Qed.
Lemma stoi_short t z n : stoi t = IntRead z n -> n <= List.length t.
Proof.
  rewrite stoi_eq. cbv zeta. destruct (take_while is_digit (after_sign (drop_while is_space t))) as [|c ds]; [discriminate|].
  destruct (_ || _); [discriminate|]. intro H. injection H as _ <-. lia.
Qed.
Lemma range_iff v : ((v <? int_min)%Z || (int_max <? v)%Z) = false <-> (- 2 ^ 31 <= v < 2 ^ 31)%Z.
Proof. unfold int_min, int_max. rewrite orb_false_iff, !Z.ltb_ge. lia. Qed.
Lemma stoi_integer t z : integer t z <-> stoi t = IntRead z (List.length t).
Proof.
  split.
  - intros (bl & sg & ds & -> & B & S & D & F & Hz & R). rewrite stoi_eq. cbv zeta.
    destruct ds as [|d0 ds0] eqn:Eds; [contradiction|]. rewrite <- Eds in *. assert (Fd : Forall (fun c => is_digit c = true) ds) by now apply digits_forall.
    assert (D0 : decimal_digit d0) by (rewrite Eds in F; now inversion F).
    assert (St : stops is_space (sg ++ ds)).
    { destruct S as [-> | [-> | ->]]; [rewrite Eds|reflexivity|reflexivity]. cbn. apply is_space_false. now apply digit_not_blank. }
    rewrite drop_app by (trivial; now apply spaces_forall).
    assert (A : after_sign (sg ++ ds) = ds /\ parse_sign (sg ++ ds) = text_eqb sg (tx "-")).
    { destruct S as [-> | [-> | ->]]; [|split; reflexivity|split; reflexivity]. rewrite Eds. cbn [app after_sign parse_sign].
      rewrite (code_neq d0 "-"), (code_neq d0 "+"); [split; reflexivity| |]; intro Q; apply nat_code in Q; revert Q; apply digit_not; trivial; [apply not_digit_plus|apply not_digit_minus]. }
    destruct A as [-> ->].
    assert (T : take_while is_digit ds = ds) by (rewrite <- (app_nil_r ds) at 1; apply take_app; [exact Fd|exact I]).
    assert (Dr : drop_while is_digit ds = []) by (rewrite <- (app_nil_r ds); apply drop_app; [exact Fd|exact I]).
    rewrite T, Dr. rewrite Eds at 1. cbv iota. rewrite <- Eds. rewrite (digits_value_ok ds F), <- Hz. rewrite (proj2 (range_iff z) R). cbn [List.length]. now rewrite Nat.sub_0_r.
  - rewrite stoi_eq. cbv zeta. pose proof (take_drop is_space t) as T1. pose proof (take_all is_space t) as A1.
    destruct (sign_split (drop_while is_space t)) as (sg & S & Sg).
    pose proof (take_drop is_digit (after_sign (drop_while is_space t))) as T2. pose proof (take_all is_digit (after_sign (drop_while is_space t))) as A2.
    destruct (take_while is_digit (after_sign (drop_while is_space t))) as [|c ds] eqn:Ed; [discriminate|].
    destruct (_ || _) eqn:R; [discriminate|]. intro H. injection H as Hz Hl.
    assert (Ne : List.length t <> 0). { rewrite T1, S, T2. rewrite !app_length. cbn. lia. }
    assert (Rest : drop_while is_digit (after_sign (drop_while is_space t)) = []) by (destruct (drop_while is_digit _); [reflexivity|cbn in Hl; lia]).
    rewrite Rest, app_nil_r in T2. exists (take_while is_space t), sg, (c :: ds).
    assert (F : Forall decimal_digit (c :: ds)) by now apply digits_forall.
    split; [rewrite T1 at 1; rewrite S at 1; now rewrite T2 at 1|]. split; [now apply spaces_forall|]. split; [tauto|]. split; [discriminate|]. split; [exact F|].
    rewrite (digits_value_ok _ F) in *. apply range_iff in R.
    destruct Sg as [[-> P]|[[-> P]|[-> P]]]; rewrite P in *; cbn; subst z; auto.
Qed.
Lemma integer_nonempty t z : integer t z -> exists a c, t = a ++ [c] /\ decimal_digit c.
Proof.
  intros (bl & sg & ds & -> & B & S & D & F & _). destruct (exists_last D) as (d & c & ->). exists (bl ++ sg ++ d), c.
  split; [now rewrite <- !app_assoc|]. apply Forall_app in F as [_ F]. now inversion F.
Qed.
Lemma integer_chars t z c : integer t z -> In c t -> decimal_digit c \/ blank c \/ c = "+"%char \/ c = "-"%char.
Proof.
  intros (bl & sg & ds & -> & B & S & D & F & _) H. rewrite Forall_forall in B, F. apply in_app_or in H as [H|H]; [right; left; now apply B|].
  apply in_app_or in H as [H|H]; [|left; now apply F]. destruct S as [-> | [-> | ->]]; cbn in H; intuition auto.
Qed.
Lemma split_at_none c t : split_at c t = None <-> ~ has c t.
Proof.
  unfold has. induction t as [|x t IH]; cbn; [split; auto; intros _ []|]. destruct (Ascii.eqb x c) eqn:E.
  - apply Ascii.eqb_eq in E. split; [discriminate|]. intro H. destruct H. now left.
  - apply Ascii.eqb_neq in E. destruct (split_at c t) as [p|]; cbn.
    + split; [discriminate|]. intro H. assert (Q : Some p = None) by (apply IH; intro Q; apply H; now right). discriminate.
    + split; [|reflexivity]. intros _ [Q|Q]; [contradiction|]. now apply (proj1 IH eq_refl).
Qed.
Lemma split_at_some c t a b : split_at c t = Some (a, b) <-> t = a ++ c :: b /\ ~ has c a.
Proof.
  unfold has. revert a. induction t as [|x t IH]; intro a; cbn.
  - split; [discriminate|]. intros [H _]. destruct a; discriminate.
  - destruct (Ascii.eqb x c) eqn:E.
    + apply Ascii.eqb_eq in E. subst x. split.
      * intro H. injection H as <- <-. split; [reflexivity|intros []].
      * intros [H N]. destruct a as [|y a]; [cbn in H; now injection H as ->|]. injection H as -> H. destruct N. now left.
    + apply Ascii.eqb_neq in E. split.
      * destruct (split_at c t) as [[u v]|] eqn:S; [|discriminate]. cbn. intro H. injection H as <- <-. destruct (proj1 (IH u) eq_refl) as [-> N].
        split; [reflexivity|]. intros [Q|Q]; [contradiction|now apply N].
      * intros [H N]. destruct a as [|y a]; [injection H as -> _; contradiction|]. injection H as <- H.
        assert (split_at c t = Some (a, b)) as -> by (apply IH; split; [exact H|intro Q; apply N; now right]). reflexivity.
Qed.

Section Read.
  Variable K : Type.
  Variables k0 k1 : K.
  Variable kneg : K -> K.
  Variable stod : text -> option (K * nat).
  Notation read_id := (read_id k0 k1 kneg). Notation parse := (parse k0 k1 kneg stod). Notation reads := (reads k0 k1 kneg stod).

  Lemma star_cases (t : text) : (exists b, t = b ++ tx "*") \/ ((match rev t with c :: _ => Ascii.eqb c "*" | [] => false end) = false).
  Proof.
    destruct (rev t) as [|c r] eqn:E; [now right|]. destruct (Ascii.eqb c "*") eqn:Q; [|now right]. apply Ascii.eqb_eq in Q. subst c.
    left. exists (rev r). rewrite <- (rev_involutive t), E. reflexivity.
  Qed.
  Definition id_out (hp : bool) (x : K) (z : Z) (c : bool) : mout K :=
    if (z <? 0)%Z then if hp then MBad else if (z =? int_min)%Z then MUndef else MRead (mk_mono (Z.to_N (- z)) (kneg k1) k0 c)
    else MRead (mk_mono (Z.to_N z) x k0 c).
  Lemma read_id_body hp x b c : (c = false -> (match rev b with c :: _ => Ascii.eqb c "*" | [] => false end) = false) ->
    read_id hp x (b ++ star c) = match stoi b with IntRead z n => if Nat.ltb n (List.length b) then MBad else id_out hp x z c | _ => MBad end.
  Proof.
    intro H. unfold read_id. destruct c; cbn [star].
    - rewrite rev_app_distr. cbn [tx list_ascii_of_string rev app]. change (Ascii.eqb "*" "*") with true. cbv iota. rewrite removelast_last. reflexivity.
    - rewrite app_nil_r, H by reflexivity. reflexivity.
  Qed.
  Lemma integer_no_star d z : integer d z -> (match rev d with c :: _ => Ascii.eqb c "*" | [] => false end) = false.
  Proof.
    intro H. destruct (integer_nonempty d z H) as (a & c & -> & D). rewrite rev_app_distr. cbn. apply Ascii.eqb_neq. apply digit_not; [exact D|exact not_digit_star].
  Qed.
  Lemma read_id_iff hp x t o : (o = MBad -> False) -> read_id hp x t = o <-> exists d z c, t = d ++ star c /\ integer d z /\ id_out hp x z c = o.
  Proof.
    intro NB. split.
    - intro H. assert (exists b c, t = b ++ star c /\ (c = false -> (match rev b with c :: _ => Ascii.eqb c "*" | [] => false end) = false)) as (b & c & -> & S).
      { destruct (star_cases t) as [[b ->]|Q]; [exists b, true; split; [reflexivity|discriminate]|]. exists t, false. split; [now rewrite app_nil_r|auto]. }
      rewrite read_id_body in H by exact S. destruct (stoi b) as [z n| |] eqn:E; [|now destruct NB|now destruct NB].
      destruct (Nat.ltb n (List.length b)) eqn:L; [now destruct NB|]. apply Nat.ltb_ge in L. pose proof (stoi_short _ _ _ E) as L'.
      assert (n = List.length b) as -> by lia. exists b, z, c. split; [reflexivity|]. split; [now apply stoi_integer|exact H].
    - intros (d & z & c & -> & I & H). rewrite read_id_body by (intros _; now apply (integer_no_star d z)).
      rewrite (proj1 (stoi_integer d z) I). now rewrite Nat.ltb_irrefl.
  Qed.
  Lemma id_out_read hp x z c m : id_out hp x z c = MRead m <-> ((0 <= z)%Z /\ m = mk_mono (Z.to_N z) x k0 c) \/ (hp = false /\ (z < 0)%Z /\ z <> int_min /\ m = mk_mono (Z.to_N (- z)) (kneg k1) k0 c).
  Proof.
    unfold id_out. destruct (z <? 0)%Z eqn:E; [apply Z.ltb_lt in E|apply Z.ltb_ge in E].
    - destruct hp; [split; [discriminate|intros [[H _]|[H _]]; [lia|discriminate]]|]. destruct (z =? int_min)%Z eqn:Q; [apply Z.eqb_eq in Q|apply Z.eqb_neq in Q].
      + split; [discriminate|]. intros [[H _]|(_ & _ & H & _)]; [lia|contradiction].
      + split; [intro H; injection H as <-; right; auto|]. intros [[H _]|(_ & _ & _ & ->)]; [lia|reflexivity].
    - split; [intro H; injection H as <-; left; auto|]. intros [[_ ->]|(_ & H & _)]; [reflexivity|lia].
  Qed.
  Lemma read_factor_iff t x : t <> [] -> read_factor k1 stod t = Some x <-> number stod t x.
  Proof.
    intro N. unfold read_factor, number. destruct t as [|c t]; [contradiction|]. destruct (stod (c :: t)) as [[y n]|].
    - destruct (Nat.ltb n (List.length (c :: t))) eqn:L; [apply Nat.ltb_lt in L|apply Nat.ltb_ge in L]; split.
      + discriminate.
      + intros (_ & n' & H & H'). injection H as _ <-. lia.
      + intro H. injection H as <-. split; [exact N|]. exists n. auto.
      + intros (_ & n' & H & H'). now injection H as -> _.
    - split; [discriminate|]. intros (_ & n & H & _). discriminate.
  Qed.
  Lemma plain_chars d z c (x : ascii) : integer d z -> In x (d ++ star c) -> decimal_digit x \/ blank x \/ In x (tx "+-*").
  Proof.
    intros I H. apply in_app_or in H as [H|H].
    - destruct (integer_chars d z x I H) as [Q|[Q|[Q|Q]]]; auto; right; right; subst x; cbn; auto.
    - right. right. destruct c; [destruct H as [<-|[]]; cbn; auto|destruct H].
  Qed.
  Lemma no_char d z c (x : ascii) : integer d z -> x = "#"%char \/ x = "."%char -> ~ In x (d ++ star c).
  Proof.
    intros I [-> | ->] H; apply (plain_chars d z c _ I) in H as [H|[H|H]].
    - now apply not_digit_hash. 
    - unfold blank in H. cbv in H. lia.
    - cbn in H. decompose [or] H; try discriminate; contradiction.
    - now apply not_digit_dot.
    - unfold blank in H. cbv in H. lia.
    - cbn in H. decompose [or] H; try discriminate; contradiction.
  Qed.
  Lemma parse_in_length t : t <> [] -> List.length t <= 32 -> parse t =
    match split_at "#" t with
    | Some (f, r) => match read_factor k1 stod f with Some x => read_id true x r | None => MBad end
    | None => match split_at "." t with
              | Some _ => match read_factor k1 stod t with Some x => MRead (mk_mono 1 x k0 false) | None => MBad end
              | None => read_id false k1 t
              end
    end.
  Proof.
    intros N L. unfold parse. destruct t as [|c t]; [contradiction|]. unfold max_strlen. rewrite (proj2 (Nat.ltb_ge _ _) L). reflexivity.
  Qed.
  Lemma parse_reads t m : 1 <= List.length t <= 32 -> parse t = MRead m <-> reads t m.
  Proof.
    intros [L1 L2]. assert (N : t <> []) by (destruct t; [cbn in L1; lia|discriminate]). rewrite parse_in_length by assumption. split.
    - destruct (split_at "#" t) as [[f r]|] eqn:S.
      + apply split_at_some in S as [-> Hf]. destruct (read_factor k1 stod f) as [x|] eqn:F; [|discriminate]. intro H.
        apply read_id_iff in H as (d & z & c & -> & I & O); [|discriminate]. apply id_out_read in O as [[Hz ->]|[O _]]; [|discriminate].
        destruct f as [|f0 f].
        * cbn in F. injection F as <-. now apply (reads_hash K k0 k1 kneg stod).
        * apply (reads_factor K k0 k1 kneg stod (f0 :: f)); trivial. apply read_factor_iff; [discriminate|exact F].
      + apply split_at_none in S. destruct (split_at "." t) as [[a b]|] eqn:D.
        * destruct (read_factor k1 stod t) as [x|] eqn:F; [|discriminate]. intro H. injection H as <-. apply reads_number; trivial.
          -- now apply read_factor_iff.
          -- apply split_at_some in D as [-> _]. unfold has. apply in_or_app. right. now left.
        * intro H. apply read_id_iff in H as (d & z & c & -> & I & O); [|discriminate]. apply id_out_read in O as [[Hz ->]|(_ & Hz & Ne & ->)].
          -- now apply (reads_symbol K k0 k1 kneg stod).
          -- apply (reads_minus K k0 k1 kneg stod); trivial. destruct I as (? & ? & ? & _ & _ & _ & _ & _ & _ & R). unfold int_min in Ne. lia.
    - intro H. destruct H as [d z c I Hz|d z c I Hz|d z c I Hz|f x d z c F Hf I Hz|f x F Hf Hd].
      + rewrite (proj2 (split_at_none "#" _)) by (apply (no_char d z c _ I); auto). rewrite (proj2 (split_at_none "." _)) by (apply (no_char d z c _ I); auto).
        apply read_id_iff; [discriminate|]. exists d, z, c. split; [reflexivity|]. split; [exact I|]. apply id_out_read. left. auto.
      + rewrite (proj2 (split_at_none "#" _)) by (apply (no_char d z c _ I); auto). rewrite (proj2 (split_at_none "." _)) by (apply (no_char d z c _ I); auto).
        apply read_id_iff; [discriminate|]. exists d, z, c. split; [reflexivity|]. split; [exact I|]. apply id_out_read. right. unfold int_min. repeat split; lia.
      + rewrite (proj2 (split_at_some "#" _ [] (d ++ star c))) by (split; [reflexivity|intros []]). cbn [read_factor].
        apply read_id_iff; [discriminate|]. exists d, z, c. split; [reflexivity|]. split; [exact I|]. apply id_out_read. left. auto.
      + rewrite (proj2 (split_at_some "#" _ f (d ++ star c))) by (split; [reflexivity|exact Hf]).
        rewrite (proj2 (read_factor_iff f x (proj1 F)) F).
        apply read_id_iff; [discriminate|]. exists d, z, c. split; [reflexivity|]. split; [exact I|]. apply id_out_read. left. auto.
      + rewrite (proj2 (split_at_none "#" _) Hf). destruct (split_at "." f) as [[a b]|] eqn:D; [|apply split_at_none in D; contradiction].
        now rewrite (proj2 (read_factor_iff f x (proj1 F)) F).
  Qed.
  Lemma id_out_undef hp x z c : id_out hp x z c = MUndef <-> hp = false /\ z = int_min.
  Proof.
    unfold id_out. destruct (z <? 0)%Z eqn:E; [apply Z.ltb_lt in E|apply Z.ltb_ge in E].
    - destruct hp; [split; [discriminate|intros [H _]; discriminate]|]. destruct (z =? int_min)%Z eqn:Q; [apply Z.eqb_eq in Q|apply Z.eqb_neq in Q].
      + split; auto.
      + split; [discriminate|]. intros [_ H]; contradiction.
    - split; [discriminate|]. intros [_ ->]. unfold int_min in E. lia.
  Qed.
  Lemma parse_undefined t : 1 <= List.length t <= 32 -> parse t = MUndef <-> exists d c, t = d ++ star c /\ integer d (- 2 ^ 31).
  Proof.
    intros [L1 L2]. assert (N : t <> []) by (destruct t; [cbn in L1; lia|discriminate]). rewrite parse_in_length by assumption. split.
    - destruct (split_at "#" t) as [[f r]|] eqn:S.
      + destruct (read_factor k1 stod f) as [x|] eqn:F; [|discriminate]. intro H.
        apply read_id_iff in H as (d & z & c & -> & I & O); [|discriminate]. apply id_out_undef in O as [O _]. discriminate.
      + destruct (split_at "." t) as [[a b]|] eqn:D; [destruct (read_factor k1 stod t); discriminate|].
        intro H. apply read_id_iff in H as (d & z & c & -> & I & O); [|discriminate]. apply id_out_undef in O as [_ ->]. exists d, c. auto.
    - intros (d & c & -> & I).
      rewrite (proj2 (split_at_none "#" _)) by (apply (no_char d _ c _ I); auto). rewrite (proj2 (split_at_none "." _)) by (apply (no_char d _ c _ I); auto).
      apply read_id_iff; [discriminate|]. exists d, int_min, c. split; [reflexivity|]. split; [exact I|]. apply id_out_undef. auto.
  Qed.
  Lemma parse_length t : List.length t = 0 \/ 32 < List.length t -> parse t = MBad.
  Proof.
    intro H. unfold parse. destruct t as [|c t]; [reflexivity|]. destruct H as [H|H]; [discriminate|]. unfold max_strlen. now rewrite (proj2 (Nat.ltb_lt _ _) H).
  Qed.
End Read.
