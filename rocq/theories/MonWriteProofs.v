(** Writing symbols, and reading what was written. *)
From Coq Require Import NArith ZArith Arith Bool Ascii String List Lia.
From Verif Require Import TextModel MonModel MonSpec MonProofs.
Import ListNotations.
Local Open Scope list_scope.
Arguments nat_of_ascii : simpl never. Arguments N_of_ascii : simpl never. Arguments Ascii.eqb : simpl never. Arguments N.div : simpl never. Arguments N.modulo : simpl never.

Lemma digit_char_code n : (n < 10)%N -> nat_of_ascii (digit_char n) = 48 + N.to_nat n.
Proof. intro H. unfold digit_char, nat_of_ascii. rewrite N_ascii_embedding by lia. lia. Qed.
Lemma digit_char_digit n : (n < 10)%N -> decimal_digit (digit_char n).
Proof. intro H. unfold decimal_digit. rewrite digit_char_code by exact H. lia. Qed.
Lemma mod10 n : (n mod 10 < 10)%N. Proof. apply N.mod_lt. discriminate. Qed.
Lemma dec_loop_digits f : forall n, Forall decimal_digit (dec_loop f n).
Proof.
  induction f as [|f IH]; intro n; cbn; [constructor|]. destruct (n <? 10)%N eqn:E.
  - constructor; [|constructor]. apply digit_char_digit. now apply N.ltb_lt.
  - apply Forall_app. split; [apply IH|]. constructor; [|constructor]. apply digit_char_digit, mod10.
Qed.
Lemma decimal_value_snoc t c : decimal_value (t ++ [c]) = (10 * decimal_value t + Z.of_nat (nat_of_ascii c - 48))%Z.
Proof.
  induction t as [|x t IH]; cbn [decimal_value app List.length]; [cbn; lia|]. rewrite IH, app_length. cbn [List.length].
  rewrite Nat.add_1_r, Nat2Z.inj_succ, Z.pow_succ_r by lia. lia.
Qed.
Lemma dec_loop_value f : forall n, (n < 2 ^ N.of_nat f)%N -> decimal_value (dec_loop (S f) n) = Z.of_N n.
Proof.
  induction f as [|f IH]; intros n H.
  - cbn in H. assert (n = 0%N) as -> by lia. reflexivity.
  - remember (S f) as g. cbn [dec_loop]. destruct (n <? 10)%N eqn:E; [apply N.ltb_lt in E|apply N.ltb_ge in E].
    + cbn [decimal_value List.length]. rewrite digit_char_code by exact E. change (10 ^ Z.of_nat 0)%Z with 1%Z. lia.
    + rewrite decimal_value_snoc, digit_char_code by apply mod10. subst g. rewrite IH.
      * pose proof (N.div_mod n 10 ltac:(discriminate)). pose proof (mod10 n). generalize dependent (n / 10)%N. generalize dependent (n mod 10)%N. intros. lia.
      * rewrite Nat2N.inj_succ, N.pow_succ_r' in H. apply N.div_lt_upper_bound; [discriminate|]. generalize dependent (2 ^ N.of_nat f)%N. intros. lia.
Qed.
Lemma dec_loop_length k : forall f n, (n < 10 ^ N.of_nat (S k))%N -> List.length (dec_loop f n) <= S k.
Proof.
  induction k as [|k IH]; intros f n H; (destruct f as [|f]; [cbn; lia|]); cbn [dec_loop]; destruct (n <? 10)%N eqn:E; cbn [List.length]; try lia.
  - apply N.ltb_ge in E. change (10 ^ N.of_nat 1)%N with 10%N in H. lia.
  - rewrite app_length. cbn [List.length]. assert (List.length (dec_loop f (n / 10)) <= S k); [|lia]. apply IH.
    rewrite Nat2N.inj_succ, N.pow_succ_r' in H. apply N.div_lt_upper_bound; [discriminate|exact H].
Qed.
Lemma size_bound n : (n < 2 ^ N.of_nat (N.size_nat n))%N.
Proof.
  destruct n as [|p]; [reflexivity|]. cbn [N.size_nat]. induction p as [p IH|p IH|]; cbn [Pos.size_nat]; [| |reflexivity];
    rewrite Nat2N.inj_succ, N.pow_succ_r'; generalize dependent (2 ^ N.of_nat (Pos.size_nat p))%N; intros; lia.
Qed.
Lemma decN_digits n : Forall decimal_digit (decN n). Proof. apply dec_loop_digits. Qed.
Lemma decN_value n : decimal_value (decN n) = Z.of_N n. Proof. apply dec_loop_value, size_bound. Qed.
Lemma decN_nonempty n : decN n <> [].
Proof. unfold decN. cbn [dec_loop]. destruct (n <? 10)%N; [discriminate|]. intro H. apply app_eq_nil in H as [_ H]. discriminate. Qed.
Lemma decN_length n : (n < 2 ^ 31)%N -> List.length (decN n) <= 10.
Proof. intro H. apply dec_loop_length. change (10 ^ N.of_nat 10)%N with 10000000000%N. change (2 ^ 31)%N with 2147483648%N in H. lia. Qed.
Lemma decN_inj n m : decN n = decN m -> n = m.
Proof. intro H. pose proof (decN_value n) as A. rewrite H, decN_value in A. lia. Qed.
Lemma decN_integer n : (n < 2 ^ 31)%N -> integer (decN n) (Z.of_N n).
Proof.
  intro H. exists [], [], (decN n). split; [reflexivity|]. split; [constructor|]. split; [now left|]. split; [apply decN_nonempty|].
  split; [apply decN_digits|]. rewrite decN_value. split; [reflexivity|]. change (2 ^ 31)%N with 2147483648%N in H. lia.
Qed.
Lemma minus_decN_integer n : (n < 2 ^ 31)%N -> integer (tx "-" ++ decN n) (- Z.of_N n).
Proof.
  intro H. exists [], (tx "-"), (decN n). split; [reflexivity|]. split; [constructor|]. split; [now right; right|]. split; [apply decN_nonempty|].
  split; [apply decN_digits|]. rewrite decN_value. split; [reflexivity|]. change (2 ^ 31)%N with 2147483648%N in H. lia.
Qed.
(** unique splitting *)
Lemma split_unique (c : ascii) a b a' b' : a ++ c :: b = a' ++ c :: b' -> ~ In c a -> ~ In c a' -> a = a' /\ b = b'.
Proof.
  revert a'. induction a as [|x a IH]; intros [|y a'] H N N'; cbn in H; [injection H as H2|injection H as H1 H2..].
  - auto.
  - subst y. destruct N'. now left.
  - subst x. destruct N. now left.
  - subst y. destruct (IH a' H2) as [-> ->]; [intro Q; apply N; now right|intro Q; apply N'; now right|]. auto.
Qed.
Lemma not_in_digits c t : Forall decimal_digit t -> ~ decimal_digit c -> ~ In c t.
Proof. intros F N H. rewrite Forall_forall in F. apply N, F, H. Qed.
Lemma decN_star n c n' c' : decN n ++ star c = decN n' ++ star c' -> n = n' /\ c = c'.
Proof.
  intro H. pose proof (not_in_digits "*" _ (decN_digits n) not_digit_star) as A. pose proof (not_in_digits "*" _ (decN_digits n') not_digit_star) as A'.
  destruct c, c'; cbn [star tx list_ascii_of_string] in H.
  - apply split_unique in H as [H _]; trivial. split; [now apply decN_inj|reflexivity].
  - rewrite app_nil_r in H. destruct A'. rewrite <- H. apply in_or_app. right. now left.
  - rewrite app_nil_r in H. destruct A. rewrite H. apply in_or_app. right. now left.
  - rewrite !app_nil_r in H. split; [now apply decN_inj|reflexivity].
Qed.
Lemma last_eq (a b : text) x y : a ++ [x] = b ++ [y] -> a = b /\ x = y. Proof. apply app_inj_tail. Qed.

Section Write.
  Variable K : Type.
  Variables k0 k1 : K.
  Variable kneg : K -> K.
  Variable kpos : K -> bool.
  Variable keqb : K -> K -> bool.
  Variable show : K -> text.
  Variable stod : text -> option (K * nat).
  Variable exact : K -> Prop.
  Hypothesis SH : shown k0 k1 kneg kpos keqb show exact.
  Notation ff := (format_factor k0 k1 kneg kpos keqb show).
  Notation write := (write k0 k1 kneg kpos keqb show).
  Notation parse := (parse k0 k1 kneg stod). Notation reads := (reads k0 k1 kneg stod).
  Implicit Types (m : mono K).

  Lemma eqb_true x y : keqb x y = true -> x = y. Proof. apply (sh_eqb _ _ _ _ _ _ _ SH). Qed.
  Lemma eqb_false x y : keqb x y = false -> x <> y.
  Proof. intros H ->. assert (keqb y y = true) by now apply (sh_eqb _ _ _ _ _ _ _ SH). congruence. Qed.
  Lemma eqb_refl x : keqb x x = true. Proof. now apply (sh_eqb _ _ _ _ _ _ _ SH). Qed.
  Lemma eqb_ne x y : x <> y -> keqb x y = false.
  Proof. intro H. destruct (keqb x y) eqn:E; [|reflexivity]. apply eqb_true in E. contradiction. Qed.
  Definition im_text (im : K) (a : text) : Prop := (im = k1 /\ a = []) \/ (im = kneg k1 /\ a = tx "-") \/ (im <> k1 /\ im <> kneg k1 /\ a = show im).
  Inductive factor_text (s : bool) (re im : K) : text -> bool -> Prop :=
  | ft_one : s = false -> im = k0 -> re = k1 -> factor_text s re im [] false
  | ft_minus : s = false -> im = k0 -> re = kneg k1 -> factor_text s re im (tx "-") false
  | ft_real : im = k0 -> (s = true \/ (re <> k1 /\ re <> kneg k1)) -> factor_text s re im (show re) true
  | ft_imag a : im <> k0 -> re = k0 -> im_text im a -> factor_text s re im (a ++ tx "i") true
  | ft_cplx : im <> k0 -> re <> k0 -> factor_text s re im (tx "(" ++ show re ++ tx " + " ++ show im ++ tx "i)") true.
  Lemma ff_text s re im : factor_text s re im (fst (ff re im s false)) (snd (ff re im s false)).
  Proof.
    destruct (sh_one _ _ _ _ _ _ _ SH) as (P1 & P2 & N1 & N2). unfold format_factor.
    destruct (keqb im k0) eqn:E0; [apply eqb_true in E0|apply eqb_false in E0].
    - destruct (kpos re) eqn:P.
      + destruct s; cbn [orb].
        * cbn. apply ft_real; auto.
        * destruct (keqb re k1) eqn:E1; cbn; [apply eqb_true in E1; now apply ft_one|]. apply eqb_false in E1. apply ft_real; trivial. right. split; [exact E1|]. intros ->. congruence.
      + destruct s; cbn [orb].
        * cbn. apply ft_real; auto.
        * destruct (keqb re (kneg k1)) eqn:E1; cbn; [apply eqb_true in E1; now apply ft_minus|]. apply eqb_false in E1. apply ft_real; trivial. right. split; [|exact E1]. intros ->. congruence.
    - destruct (keqb re k0) eqn:R0; [apply eqb_true in R0|apply eqb_false in R0; cbn; now apply ft_cplx].
      destruct (kpos im) eqn:P.
      + cbn [fst snd app]. apply ft_imag; trivial. destruct (keqb im k1) eqn:E1; [apply eqb_true in E1; left; auto|]. apply eqb_false in E1. right. right. repeat split; trivial. intros ->. congruence.
      + cbn [fst snd app]. apply ft_imag; trivial. destruct (keqb im (kneg k1)) eqn:E1; [apply eqb_true in E1; right; left; auto|]. apply eqb_false in E1. right. right. repeat split; trivial. intros ->. congruence.
  Qed.
  Notation nonzero := (nonzero k0).
  Definition sep (hash : bool) (ns : bool) : text := (if ns then (if hash then tx " " else tx "*") else []) ++ (if hash then tx "#" else []).
  Lemma write_nonzero hash m : nonzero m -> exists f ns, factor_text (N.eqb (mo_id m) 1) (mo_re m) (mo_im m) f ns /\
    write false hash m = if N.eqb (mo_id m) 1 then f else f ++ sep hash ns ++ decN (mo_id m) ++ star (mo_conj m).
  Proof.
    intros [N0 NZ]. unfold MonModel.write. rewrite (proj2 (N.eqb_neq _ _) N0). cbn [orb].
    assert (keqb (mo_re m) k0 && keqb (mo_im m) k0 = false) as ->.
    { destruct (keqb (mo_re m) k0) eqn:A; [|reflexivity]. destruct (keqb (mo_im m) k0) eqn:B; [|reflexivity]. apply eqb_true in A, B. tauto. }
    pose proof (ff_text (N.eqb (mo_id m) 1) (mo_re m) (mo_im m)) as F. destruct (ff (mo_re m) (mo_im m) (mo_id m =? 1)%N false) as [f ns]. cbn [fst snd] in F.
    exists f, ns. split; [exact F|]. destruct (mo_id m =? 1)%N; [reflexivity|]. unfold sep. now rewrite <- !app_assoc.
  Qed.
  Lemma write_zero hash m : ~ nonzero m -> write false hash m = tx "0".
  Proof.
    intro H. unfold MonModel.write. assert ((mo_id m =? 0)%N || (keqb (mo_re m) k0 && keqb (mo_im m) k0) = true) as ->; [|reflexivity].
    destruct (mo_id m =? 0)%N eqn:E; [reflexivity|]. apply N.eqb_neq in E. cbn. apply andb_true_iff.
    destruct (keqb (mo_re m) k0) eqn:A; [|apply eqb_false in A; destruct H; split; auto]. destruct (keqb (mo_im m) k0) eqn:B; [auto|]. apply eqb_false in B. destruct H. split; auto.
  Qed.
  Lemma show_char x c : exact x -> In c (show x) -> decimal_digit c \/ In c (tx "+-.e"). Proof. apply (sh_chars _ _ _ _ _ _ _ SH). Qed.
  Lemma show_not x c : exact x -> ~ decimal_digit c -> ~ In c (tx "+-.e") -> ~ In c (show x).
  Proof. intros E D N H. destruct (show_char x c E H); contradiction. Qed.
  Ltac nochar := let HH := fresh in intro HH; cbn in HH; repeat (destruct HH as [HH|HH]; [discriminate HH|]); exact HH.
  Lemma nd (c : ascii) : nat_of_ascii c < 48 \/ 57 < nat_of_ascii c -> ~ decimal_digit c. Proof. unfold decimal_digit. lia. Qed.
  Ltac nodig := apply nd; cbv; lia.
  Lemma factor_no_hash s re im f ns : exact re -> exact im -> factor_text s re im f ns -> ~ has "#" f.
  Proof.
    intros Er Ei H. assert (A : forall x, exact x -> ~ In "#"%char (show x)) by (intros x Ex; apply show_not; [exact Ex|nodig|nochar]).
    unfold has. destruct H as [_ _ _|_ _ _|_ _|a _ _ I|_ _].
    - intros [].
    - nochar.
    - now apply A.
    - intro H. apply in_app_or in H as [H|H]; [|revert H; nochar]. destruct I as [[_ ->]|[[_ ->]|(_ & _ & ->)]]; [destruct H|revert H; nochar|now apply (A im)].
    - intro H. apply in_app_or in H as [H|H]; [revert H; nochar|]. apply in_app_or in H as [H|H]; [now apply (A re)|]. apply in_app_or in H as [H|H]; [revert H; nochar|].
      apply in_app_or in H as [H|H]; [now apply (A im)|revert H; nochar].
  Qed.
  (** the last character of a factor's text tells its kind *)
  Lemma show_last x : exact x -> exists a c, show x = a ++ [c] /\ (decimal_digit c \/ In c (tx "+-.e")).
  Proof.
    intro E. destruct (sh_some _ _ _ _ _ _ _ SH x E) as (c & r & H). assert (N : show x <> []) by (rewrite H; discriminate).
    destruct (exists_last N) as (a & d & D). exists a, d. split; [exact D|]. apply (show_char x d E). rewrite D. apply in_or_app. right. now left.
  Qed.
  Lemma factor_space s re im f ns : factor_text s re im f ns -> exact re -> exact im -> ns = true -> f <> [] .
  Proof.
    intros H Er Ei N. destruct H as [_ _ _|_ _ _|_ _|a _ _ I|_ _]; try discriminate.
    - destruct (sh_some _ _ _ _ _ _ _ SH re Er) as (c & r & Q). rewrite Q. discriminate.
    - destruct a; discriminate.
  Qed.
  Lemma im_text_inj im im' a : exact im -> exact im' -> im_text im a -> im_text im' a -> im = im'.
  Proof.
    intros E E' H H'. pose proof (sh_some _ _ _ _ _ _ _ SH) as S. pose proof (sh_lone _ _ _ _ _ _ _ SH) as L.
    destruct H as [[-> ->]|[[-> ->]|(N1 & N2 & ->)]], H' as [[-> A]|[[-> A]|(N1' & N2' & A)]]; trivial; try discriminate.
    - destruct (S im' E') as (c & r & Q). rewrite Q in A. discriminate.
    - symmetry in A. now apply L in A.
    - destruct (S im E) as (c & r & Q). rewrite Q in A. discriminate.
    - now apply L in A.
    - now apply (sh_inj _ _ _ _ _ _ _ SH).
  Qed.
  Lemma snoc_i (a : text) : tx "(" ++ a ++ tx "i)" = (tx "(" ++ a ++ tx "i") ++ tx ")". Proof. now rewrite <- !app_assoc. Qed.
  Lemma cplx_last re im : exists a, tx "(" ++ show re ++ tx " + " ++ show im ++ tx "i)" = a ++ [")"%char].
  Proof. exists (tx "(" ++ show re ++ tx " + " ++ show im ++ tx "i"). now rewrite <- !app_assoc. Qed.
  Lemma show_end x a c : exact x -> show x = a ++ [c] -> c <> "i"%char /\ c <> ")"%char /\ c <> " "%char.
  Proof.
    intros E H. assert (D : decimal_digit c \/ In c (tx "+-.e")) by (apply (show_char x c E); rewrite H; apply in_or_app; right; now left).
    repeat split; intros ->; (destruct D as [D|D]; [revert D; nodig|revert D; nochar]).
  Qed.
  Lemma show_plain x f : exact x -> show x = f -> f <> [] /\ f <> tx "-".
  Proof. intros E <-. split; [|now apply (sh_lone _ _ _ _ _ _ _ SH)]. destruct (sh_some _ _ _ _ _ _ _ SH x E) as (c & r & ->). discriminate. Qed.
  Lemma cplx_inj re im re' im' : exact re -> exact im -> exact re' -> exact im' ->
    tx "(" ++ show re ++ tx " + " ++ show im ++ tx "i)" = tx "(" ++ show re' ++ tx " + " ++ show im' ++ tx "i)" -> re = re' /\ im = im'.
  Proof.
    intros Er Ei Er' Ei' H. injection H as H. assert (A : forall x, exact x -> ~ In " "%char (show x)) by (intros x Ex; apply show_not; [exact Ex|nodig|nochar]).
    apply (split_unique " ") in H as [H1 H2]; [|now apply A|now apply A]. injection H2 as H2.
    assert (B : forall x, exact x -> ~ In "i"%char (show x)) by (intros x Ex; apply show_not; [exact Ex|nodig|nochar]).
    apply (split_unique "i") in H2 as [H2 _]; [|now apply B|now apply B]. split; now apply (sh_inj _ _ _ _ _ _ _ SH).
  Qed.
  Lemma factor_inj s re im re' im' f f' ns ns' : exact re -> exact im -> exact re' -> exact im' ->
    factor_text s re im f ns -> factor_text s re' im' f' ns' -> f = f' -> re = re' /\ im = im' /\ ns = ns'.
  Proof.
    intros Er Ei Er' Ei' H H'.
    destruct H as [A B C|A B C|A B|a A B I|A B]; destruct H' as [A' B' C'|A' B' C'|A' B'|a' A' B' I'|A' B']; intro E;
      try discriminate; try (subst; auto; fail).
    - symmetry in E. now apply show_plain in E as [E _].
    - symmetry in E. apply app_eq_nil in E as [_ E]. discriminate.
    - symmetry in E. now apply show_plain in E as [_ E].
    - symmetry in E. apply (last_eq _ []) in E as [_ E]. discriminate.
    - now apply show_plain in E as [E _].
    - now apply show_plain in E as [_ E].
    - apply (sh_inj _ _ _ _ _ _ _ SH) in E; subst; auto.
    - apply show_end in E as [E _]; [contradiction|exact Er].
    - destruct (cplx_last re' im') as [x X]. rewrite X in E. apply show_end in E as (_ & E & _); [contradiction|exact Er].
    - apply app_eq_nil in E as [_ E]. discriminate.
    - apply (last_eq _ []) in E as [_ E]. discriminate.
    - symmetry in E. apply show_end in E as [E _]; [contradiction|exact Er'].
    - apply last_eq in E as [<- _]. rewrite (im_text_inj im im' a); subst; auto.
    - destruct (cplx_last re' im') as [x X]. rewrite X in E. apply last_eq in E as [_ E]. discriminate.
    - destruct (cplx_last re im) as [x X]. rewrite X in E. symmetry in E. apply show_end in E as (_ & E & _); [contradiction|exact Er'].
    - destruct (cplx_last re im) as [x X]. rewrite X in E. apply last_eq in E as [_ E]. discriminate.
    - apply cplx_inj in E as [-> ->]; auto.
  Qed.
  Lemma has_hash_text f ns id c : has "#" (f ++ sep true ns ++ decN id ++ star c).
  Proof. unfold has, sep. apply in_or_app. right. apply in_or_app. left. apply in_or_app. right. now left. Qed.
  Definition spaced (f : text) (ns : bool) : text := f ++ (if ns then tx " " else []).
  Lemma hash_text f ns id c : f ++ sep true ns ++ decN id ++ star c = spaced f ns ++ "#"%char :: decN id ++ star c.
  Proof. unfold sep, spaced. rewrite <- !app_assoc. reflexivity. Qed.
  Lemma spaced_no_hash f ns : ~ has "#" f -> ~ has "#" (spaced f ns).
  Proof. unfold has, spaced. intros H Q. apply in_app_or in Q as [Q|Q]; [contradiction|]. destruct ns; [revert Q; nochar|destruct Q]. Qed.
  Lemma factor_unspaced s re im f : factor_text s re im f false -> f = [] \/ f = tx "-".
  Proof. intro H. inversion H; auto. Qed.
  Lemma spaced_inj s re im re' im' f f' ns ns' : factor_text s re im f ns -> factor_text s re' im' f' ns' -> spaced f ns = spaced f' ns' -> f = f'.
  Proof.
    unfold spaced. intros H H' E. destruct ns, ns'.
    - now apply last_eq in E as [E _].
    - rewrite app_nil_r in E. destruct (factor_unspaced _ _ _ _ H') as [-> | ->].
      + apply app_eq_nil in E as [_ E]. discriminate.
      + apply (last_eq _ []) in E as [_ E]. discriminate.
    - rewrite app_nil_r in E. destruct (factor_unspaced _ _ _ _ H) as [-> | ->].
      + symmetry in E. apply app_eq_nil in E as [_ E]. discriminate.
      + apply (last_eq []) in E as [_ E]. discriminate.
    - now rewrite !app_nil_r in E.
  Qed.
  Notation all_exact := (all_exact exact).
  Lemma hash_unique m m' : nonzero m -> nonzero m' -> all_exact m -> all_exact m' -> write false true m = write false true m' -> same_mono m m'.
  Proof.
    intros NZ NZ' [Er Ei] [Er' Ei'] E. destruct (write_nonzero true m NZ) as (f & ns & F & W). destruct (write_nonzero true m' NZ') as (f' & ns' & F' & W').
    rewrite W, W' in E. pose proof (factor_no_hash _ _ _ _ _ Er Ei F) as N. pose proof (factor_no_hash _ _ _ _ _ Er' Ei' F') as N'.
    destruct (N.eqb (mo_id m) 1) eqn:I, (N.eqb (mo_id m') 1) eqn:I'.
    - apply N.eqb_eq in I, I'. destruct (factor_inj _ _ _ _ _ _ _ _ _ Er Ei Er' Ei' F F' E) as (A & B & _). unfold same_mono. repeat split; congruence.
    - destruct N. rewrite E. apply has_hash_text.
    - destruct N'. rewrite <- E. apply has_hash_text.
    - rewrite !hash_text in E. apply split_unique in E as [E1 E2]; [|now apply spaced_no_hash|now apply spaced_no_hash].
      apply decN_star in E2 as [E2 E3]. pose proof (spaced_inj _ _ _ _ _ _ _ _ _ F F' E1) as E4.
      destruct (factor_inj _ _ _ _ _ _ _ _ _ Er Ei Er' Ei' F F' E4) as (A & B & _). unfold same_mono. auto.
  Qed.

  (** reading back *)
  Hypothesis RD : reader stod.
  Lemma not_read_symbol t d z c : t = d ++ star c -> integer d z -> In "*"%char (removelast t) -> False.
  Proof.
    intros -> I H. assert (Q : In "*"%char d).
    { destruct c; cbn [star] in H.
      - change (tx "*") with ["*"%char] in H. now rewrite removelast_last in H.
      - rewrite app_nil_r in H. destruct (integer_nonempty d z I) as (a & x & -> & _). rewrite removelast_last in H. apply in_or_app. now left. }
    apply (integer_chars d z _ I) in Q as [Q|[Q|[Q|Q]]]; [now apply not_digit_star| |discriminate|discriminate]. unfold blank in Q. cbv in Q. lia.
  Qed.
  Lemma symbol_end t d z c a x : t = d ++ star c -> integer d z -> t = a ++ [x] -> decimal_digit x \/ x = "*"%char.
  Proof.
    intros E I E'. destruct c; cbn [star] in E.
    - change (tx "*") with ["*"%char] in E. rewrite E in E'. apply last_eq in E' as [_ <-]. now right.
    - rewrite app_nil_r in E. destruct (integer_nonempty d z I) as (b & y & -> & D). rewrite E in E'. apply last_eq in E' as [_ <-]. now left.
  Qed.
  Lemma hash_in (f d : text) : has "#" (f ++ tx "#" ++ d).
  Proof. unfold has. apply in_or_app. right. now left. Qed.
  (** no text without # but with an inner star is read *)
  Lemma inner_star_unread t m : ~ has "#" t -> In "*"%char (removelast t) -> ~ reads t m.
  Proof.
    intros N S H. destruct H as [d z c I Hz|d z c I Hz|d z c I Hz|f x d z c F Hf I Hz|f x F Hf Hd].
    - now apply (not_read_symbol _ d z c eq_refl I S).
    - now apply (not_read_symbol _ d z c eq_refl I S).
    - apply N. apply (hash_in []).
    - apply N. apply hash_in.
    - apply (rd_star _ RD _ _ F). unfold has. clear - S. destruct f as [|a f]; [destruct S|]. revert S. apply (incl_tran (l := removelast (a :: f)) (incl_refl _)). intros y Y.
      pose proof (app_removelast_last a (l := a :: f) ltac:(discriminate)) as E. rewrite E. apply in_or_app. now left.
  Qed.
  (** a text with # is read only if what stands before it is a number, or nothing *)
  Lemma hash_read f r m : ~ has "#" f -> reads (f ++ tx "#" ++ r) m -> f = [] \/ exists x, number stod f x.
  Proof.
    intros N H. remember (f ++ tx "#" ++ r) as t eqn:E. destruct H as [d z c I Hz|d z c I Hz|d z c I Hz|g x d z c G Hg I Hz|g x G Hg Hd].
    - destruct (no_char d z c "#" I); [auto|]. rewrite E. apply hash_in.
    - destruct (no_char d z c "#" I); [auto|]. rewrite E. apply hash_in.
    - apply (split_unique "#" []) in E as [E _]; [auto|intros []|exact N].
    - apply (split_unique "#" g) in E as [E _]; [|exact Hg|exact N]. right. exists x. now rewrite <- E.
    - destruct Hg. rewrite E. apply hash_in.
  Qed.
  Notation scalar_back := (scalar_back k0 k1 kneg show stod).
  Notation symbol_back := (symbol_back k0 k1 kneg).
  Lemma mono_eta m : m = mk_mono (mo_id m) (mo_re m) (mo_im m) (mo_conj m). Proof. now destruct m. Qed.
  Lemma star_nonblank f id c : f <> [] -> In "*"%char (removelast (f ++ tx "*" ++ decN id ++ star c)).
  Proof.
    intros _. pose proof (decN_nonempty id) as N. rewrite removelast_app by discriminate. apply in_or_app. right. rewrite removelast_app.
    - now left.
    - destruct (decN id); [contradiction|discriminate].
  Qed.
  Lemma starred_no_hash f id c : ~ has "#" f -> ~ has "#" (f ++ tx "*" ++ decN id ++ star c).
  Proof.
    unfold has. intros N H. apply in_app_or in H as [H|H]; [contradiction|]. apply in_app_or in H as [H|H]; [revert H; nochar|].
    apply in_app_or in H as [H|H]; [revert H; apply not_in_digits; [apply decN_digits|exact not_digit_hash]|]. destruct c; [revert H; nochar|destruct H].
  Qed.
  Lemma symbol_reads_back hash m : nonzero m -> all_exact m -> mo_id m <> 1%N -> (mo_id m < 2 ^ 31)%N ->
    reads (write false hash m) m <-> symbol_back hash m.
  Proof.
    intros NZ [Er Ei] N1 B. destruct (write_nonzero hash m NZ) as (f & ns & F & ->). rewrite (proj2 (N.eqb_neq _ _) N1) in *. unfold symbol_back.
    pose proof (factor_no_hash _ _ _ _ _ Er Ei F) as NH. destruct ns.
    - (* a factor: never *)
      pose proof (factor_space _ _ _ _ _ F Er Ei eq_refl) as NE.
      assert (NB : ~ (mo_im m = k0 /\ (mo_re m = k1 \/ hash = false /\ mo_re m = kneg k1))).
      { intros [A C]. inversion F as [| |X Y Z T|a X Y Z T|X Y Z T]; subst; [|contradiction|contradiction]. destruct Y as [Y|[Y Y']]; [discriminate|tauto]. }
      split; [|tauto]. intro H. exfalso. destruct hash; unfold sep in H.
      + assert (E : f ++ (tx " " ++ tx "#") ++ decN (mo_id m) ++ star (mo_conj m) = (f ++ tx " ") ++ tx "#" ++ decN (mo_id m) ++ star (mo_conj m)) by now rewrite <- !app_assoc.
        rewrite E in H. apply hash_read in H as [H|[x H]].
        * apply app_eq_nil in H as [_ H]. discriminate.
        * apply (rd_end _ RD) in H as [H _]. now apply H.
        * apply (spaced_no_hash f true NH).
      + rewrite app_nil_r in H. revert H. apply inner_star_unread; [now apply starred_no_hash|now apply star_nonblank].
    - pose proof (decN_integer _ B) as I. pose proof (minus_decN_integer _ B) as IM.
      inversion F as [X Y Z T|X Y Z T| | |]; subst f.
      + (* factor 1 *)
        split; [tauto|]. intros _. destruct m as [i r j c]; cbn [mo_id mo_re mo_im mo_conj] in *; subst r j. destruct hash; unfold sep; cbn [app].
        * pose proof (reads_hash K k0 k1 kneg stod _ _ c I ltac:(lia)) as R. rewrite N2Z.id in R. exact R.
        * pose proof (reads_symbol K k0 k1 kneg stod _ _ c I ltac:(lia)) as R. rewrite N2Z.id in R. exact R.
      + destruct hash; unfold sep.
        * split.
          -- intro H. exfalso. cbn [app] in H. apply (hash_read (tx "-")) in H as [H|[x H]]; [discriminate| |exact NH]. now apply (rd_minus _ RD) in H.
          -- intros (_ & _ & [A|[A _]]); [|discriminate]. exfalso. destruct (sh_one _ _ _ _ _ _ _ SH) as (P1 & P2 & _). rewrite <- A, Z in P1. congruence.
        * split; [auto|]. intros _. cbn [app]. destruct m as [i r j c]; cbn [mo_id mo_re mo_im mo_conj] in *; subst r j.
          assert (NZ0 : (i <> 0)%N) by apply NZ. change (2 ^ 31)%N with 2147483648%N in B.
          pose proof (reads_minus K k0 k1 kneg stod _ _ c IM ltac:(lia)) as R. rewrite Z.opp_involutive, N2Z.id in R. exact R.
  Qed.
  Lemma scalar_reads_back hash m : nonzero m -> all_exact m -> mo_id m = 1%N -> reads (write false hash m) m <-> scalar_back m.
  Proof.
    intros NZ [Er Ei] N1. destruct (write_nonzero hash m NZ) as (f & ns & F & ->). rewrite (proj2 (N.eqb_eq _ _) N1) in *. unfold scalar_back.
    pose proof (factor_no_hash _ _ _ _ _ Er Ei F) as NH.
    inversion F as [X Y Z T|X Y Z T|X Y Z T|a X Y Z T W|X Y Z T]; subst f; try discriminate.
    - split.
      + intro H. split; [exact N1|]. remember (show (mo_re m)) as t eqn:Et. 
        assert (NS : ~ In "*"%char t) by (rewrite Et; apply show_not; [exact Er|nodig|nochar]).
        destruct H as [d z c I Hz|d z c I Hz|d z c I Hz|g x d z c G Hg I Hz|g x G Hg Hd]; cbn [mo_id mo_re mo_im mo_conj] in *.
        * destruct c; [destruct NS; apply in_or_app; right; now left|]. cbn [star] in *. rewrite app_nil_r in *. assert (z = 1%Z) as -> by lia. auto 10.
        * destruct c; [destruct NS; apply in_or_app; right; now left|]. cbn [star] in *. rewrite app_nil_r in *. assert (z = (-1)%Z) as -> by lia. auto 10.
        * destruct NH. apply (hash_in []).
        * destruct NH. apply hash_in.
        * auto 10.
      + intros (_ & C & _ & [[H H']|[[H H']|[H H']]]); destruct m as [i r j c]; cbn [mo_id mo_re mo_im mo_conj] in *; subst i j c.
        * now apply reads_number.
        * subst r. pose proof (reads_symbol K k0 k1 kneg stod _ _ false H ltac:(lia)) as R. cbn [star] in R. rewrite app_nil_r in R. exact R.
        * subst r. pose proof (reads_minus K k0 k1 kneg stod _ _ false H ltac:(lia)) as R. cbn [star] in R. rewrite app_nil_r in R. exact R.
    - split; [|intros (_ & _ & Q & _); contradiction]. intro H. exfalso. remember (a ++ tx "i") as t eqn:Et.
      destruct H as [d z c I Hz|d z c I Hz|d z c I Hz|g x d z c G Hg I Hz|g x G Hg Hd].
      + destruct (symbol_end _ d z c a "i" eq_refl I Et) as [Q|Q]; [revert Q; nodig|discriminate].
      + destruct (symbol_end _ d z c a "i" eq_refl I Et) as [Q|Q]; [revert Q; nodig|discriminate].
      + destruct NH. apply (hash_in []).
      + destruct NH. apply hash_in.
      + rewrite Et in G. apply (rd_end _ RD) in G as [_ G]. now apply G.
    - split; [|intros (_ & _ & Q & _); contradiction]. intro H. exfalso. destruct (cplx_last (mo_re m) (mo_im m)) as [a Ea]. remember (tx "(" ++ show (mo_re m) ++ tx " + " ++ show (mo_im m) ++ tx "i)") as t eqn:Et.
      destruct H as [d z c I Hz|d z c I Hz|d z c I Hz|g x d z c G Hg I Hz|g x G Hg Hd].
      + destruct (symbol_end _ d z c a ")" eq_refl I Ea) as [Q|Q]; [revert Q; nodig|discriminate].
      + destruct (symbol_end _ d z c a ")" eq_refl I Ea) as [Q|Q]; [revert Q; nodig|discriminate].
      + destruct NH. apply (hash_in []).
      + destruct NH. apply hash_in.
      + rewrite Et in G. now apply (rd_paren _ RD) in G.
  Qed.
  Lemma zero_reads hash m : ~ nonzero m -> parse (write false hash m) = MRead (mk_mono 0 k1 k0 false).
  Proof. intro H. rewrite write_zero by exact H. reflexivity. Qed.
  Lemma reads_back hash m : nonzero m -> all_exact m -> (mo_id m < 2 ^ 31)%N -> 1 <= List.length (write false hash m) <= 32 ->
    (parse (write false hash m) = MRead m <-> symbol_back hash m \/ scalar_back m).
  Proof.
    intros NZ E B L. rewrite parse_reads by exact L. destruct (N.eq_dec (mo_id m) 1) as [I|I].
    - rewrite (scalar_reads_back hash m NZ E I). unfold symbol_back. tauto.
    - rewrite (symbol_reads_back hash m NZ E I B). unfold scalar_back. tauto.
  Qed.
  (** the plain cases need no assumption on lengths or on reading *)
  Lemma write_nonempty hash m : all_exact m -> 1 <= List.length (write false hash m).
  Proof.
    intros [Er Ei]. destruct (N.eq_dec (mo_id m) 0) as [Z|Z]; [rewrite write_zero by (intros [H _]; contradiction); cbn; lia|].
    destruct (keqb (mo_re m) k0) eqn:A; [destruct (keqb (mo_im m) k0) eqn:B|].
    - apply eqb_true in A, B. rewrite write_zero by (intros [_ [H|H]]; contradiction). cbn. lia.
    - apply eqb_false in B. destruct (write_nonzero hash m) as (f & ns & F & ->); [split; auto|]. destruct (N.eqb (mo_id m) 1).
      + inversion F; subst; try discriminate; try contradiction; rewrite !app_length; cbn; lia.
      + rewrite !app_length. pose proof (decN_nonempty (mo_id m)). destruct (decN (mo_id m)); [contradiction|cbn; lia].
    - apply eqb_false in A. destruct (write_nonzero hash m) as (f & ns & F & ->); [split; auto|]. destruct (N.eqb (mo_id m) 1).
      + inversion F; subst; try discriminate; try contradiction; [|cbn; lia]. destruct (sh_some _ _ _ _ _ _ _ SH _ Er) as (c & r & ->). cbn. lia.
      + rewrite !app_length. pose proof (decN_nonempty (mo_id m)). destruct (decN (mo_id m)); [contradiction|cbn; lia].
  Qed.
  Lemma plain_back hash m : (2 <= mo_id m < 2 ^ 31)%N -> mo_im m = k0 -> (mo_re m = k1 \/ (hash = false /\ mo_re m = kneg k1)) ->
    parse (write false hash m) = MRead m.
  Proof.
    intros [B1 B2] I R. pose proof (decN_integer _ B2) as D. pose proof (minus_decN_integer _ B2) as DM. pose proof (decN_length _ B2) as L. pose proof (decN_nonempty (mo_id m)) as NE.
    destruct (sh_one _ _ _ _ _ _ _ SH) as (P1 & P2 & N1 & N2).
    assert (NZ : nonzero m) by (split; [lia|left; destruct R as [-> |[_ ->]]; assumption]).
    destruct (write_nonzero hash m NZ) as (f & ns & F & W). assert (NO : (mo_id m =? 1)%N = false) by (apply N.eqb_neq; lia). rewrite NO in *.
    assert (NB : kneg k1 <> k1) by (intro Q; rewrite Q in P2; congruence).
    destruct m as [i r j c]. cbn [mo_id mo_re mo_im mo_conj] in *. subst j. assert (Lc : List.length (star c) <= 1) by (destruct c; cbn; lia).
    assert (Li : 1 <= List.length (decN i)) by (destruct (decN i); [contradiction|cbn; lia]).
    inversion F as [X Y Z T|X Y Z T|X Y Z T|a X Y Z T U|X Y Z T]; subst f ns; try contradiction.
    - subst r. destruct hash; unfold sep in W; cbn [app] in W; rewrite W; apply parse_reads.
      + cbn [tx list_ascii_of_string List.length app]. rewrite app_length. lia.
      + pose proof (reads_hash K k0 k1 kneg stod _ _ c D ltac:(lia)) as Q. rewrite N2Z.id in Q. exact Q.
      + rewrite app_length. lia.
      + pose proof (reads_symbol K k0 k1 kneg stod _ _ c D ltac:(lia)) as Q. rewrite N2Z.id in Q. exact Q.
    - subst r. destruct R as [R|[-> _]]; [contradiction|]. unfold sep in W. cbn [app] in W. rewrite W. apply parse_reads.
      + cbn [tx list_ascii_of_string List.length app]. rewrite app_length. lia.
      + change (2 ^ 31)%N with 2147483648%N in B2.
        pose proof (reads_minus K k0 k1 kneg stod _ _ c DM ltac:(lia)) as Q. rewrite Z.opp_involutive, N2Z.id in Q. exact Q.
    - destruct Y as [Y|[Y Y']]; [discriminate|]. destruct R as [R|[_ R]]; contradiction.
  Qed.
End Write.
