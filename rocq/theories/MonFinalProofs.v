(** Numbers with one decimal, counted in tenths: an instance for examples and refutations. *)
From Coq Require Import NArith ZArith Arith Bool Ascii String List Lia.
From Verif Require Import TextModel MonModel MonSpec MonProofs MonWriteProofs.
Import ListNotations.
Local Open Scope list_scope.

Definition show10 (z : Z) : text :=
  (if (z <? 0)%Z then tx "-" else []) ++ decN (Z.to_N (Z.abs z / 10)) ++
  (if (Z.abs z mod 10 =? 0)%Z then [] else tx "." ++ [digit_char (Z.to_N (Z.abs z mod 10))]).
Definition stod10 (t : text) : option (Z * nat) :=
  let neg := match t with c :: _ => Ascii.eqb c "-" | [] => false end in
  let r := if neg then tl t else t in
  let sg z := if neg then (- z)%Z else z in
  match take_while is_digit r with
  | [] => None
  | ds => match drop_while is_digit r with
          | p :: more => if Ascii.eqb p "." then
                           match more with
                           | c :: more' => if is_digit c then Some (sg (10 * digits_value ds + digit_of c)%Z, List.length t - List.length more')
                                           else Some (sg (10 * digits_value ds)%Z, List.length t - List.length more)
                           | [] => Some (sg (10 * digits_value ds)%Z, List.length t)
                           end
                         else Some (sg (10 * digits_value ds)%Z, List.length t - List.length (p :: more))
          | [] => Some (sg (10 * digits_value ds)%Z, List.length t)
          end
  end.
Definition exact10 (z : Z) : Prop := In z [0; 10; -10; 25; 20; -5; 50]%Z.
Definition pos10 (z : Z) : bool := (0 <? z)%Z.

Definition numc (c : ascii) : bool := is_digit c || Ascii.eqb c "-" || Ascii.eqb c ".".
Lemma digits_numc t : Forall (fun c => is_digit c = true) t -> Forall (fun c => numc c = true) t.
Proof. intro F. rewrite Forall_forall in *. intros c H. unfold numc. now rewrite (F c H). Qed.
Lemma number10 t x : number stod10 t x -> Forall (fun c => numc c = true) t.
Proof.
  intros (N & n & H & L). unfold stod10 in H. set (neg := match t with c :: _ => Ascii.eqb c "-" | [] => false end) in *.
  assert (E : t = (if neg then tx "-" else []) ++ (if neg then tl t else t)).
  { destruct neg eqn:G; [|reflexivity]. destruct t as [|c t]; [contradiction|]. unfold neg in G. apply Ascii.eqb_eq in G. now subst c. }
  set (r := if neg then tl t else t) in *. pose proof (take_drop is_digit r) as T. pose proof (take_all is_digit r) as A.
  assert (S : Forall (fun c => numc c = true) (if neg then tx "-" else [])) by (destruct neg; repeat constructor).
  assert (Lt : List.length t = List.length (if neg then tx "-" else []) + (List.length (take_while is_digit r) + List.length (drop_while is_digit r))).
  { rewrite E at 1. rewrite app_length. rewrite T at 1. now rewrite app_length. }
  rewrite E. apply Forall_app. split; [exact S|]. rewrite T. apply Forall_app. split; [now apply digits_numc|].
  destruct (take_while is_digit r) as [|d ds] eqn:D; [discriminate|]. cbn [List.length] in Lt.
  destruct (drop_while is_digit r) as [|p more] eqn:P; [constructor|]. cbn [List.length] in Lt. destruct (Ascii.eqb p ".") eqn:Q.
  - apply Ascii.eqb_eq in Q. subst p. destruct more as [|c more']; [repeat constructor|]. destruct (is_digit c) eqn:C.
    + injection H as _ <-. cbn [List.length] in *. destruct more'; [|cbn [List.length] in *; lia]. constructor; [reflexivity|]. constructor; [|constructor]. unfold numc. now rewrite C.
    + injection H as _ <-. cbn [List.length] in *. lia.
  - injection H as _ <-. cbn [List.length] in *. lia.
Qed.
Lemma reader10 : reader stod10.
Proof.
  split.
  - intros t x H Q. apply number10 in H. rewrite Forall_forall in H. apply H in Q. discriminate.
  - intros t c x H. apply number10 in H. apply Forall_app in H as [_ H]. inversion H as [|? ? Q]; subst. split; intros ->; discriminate.
  - intros t x H. apply number10 in H. inversion H as [|? ? Q]; subst. discriminate.
  - intros x (_ & n & H & _). discriminate.
Qed.
Lemma exact10_all (P : Z -> Prop) : P 0%Z -> P 10%Z -> P (-10)%Z -> P 25%Z -> P 20%Z -> P (-5)%Z -> P 50%Z -> forall x, exact10 x -> P x.
Proof. intros H0 H1 H2 H3 H4 H5 H6 x [<-|[<-|[<-|[<-|[<-|[<-|[<-|[]]]]]]]]; assumption. Qed.
Definition okc (c : ascii) : bool := is_digit c || existsb (Ascii.eqb c) (tx "+-.e").
Lemma okc_iff c : okc c = true -> decimal_digit c \/ In c (tx "+-.e").
Proof.
  unfold okc. intro H. apply orb_true_iff in H as [H|H]; [left; now apply is_digit_iff|right]. apply existsb_exists in H as (d & I & E).
  apply Ascii.eqb_eq in E. now subst d.
Qed.
Lemma shown10 : shown 0%Z 10%Z Z.opp pos10 Z.eqb show10 exact10.
Proof.
  split.
  - apply Z.eqb_eq.
  - repeat split; discriminate.
  - intros x c E H. apply okc_iff. revert c H. apply forallb_forall. revert x E. apply exact10_all; reflexivity.
  - apply exact10_all; vm_compute; eauto.
  - apply exact10_all; vm_compute; discriminate.
  - intros x y E F. revert y F x E.
    apply (exact10_all (fun y => forall x, exact10 x -> show10 x = show10 y -> x = y));
      (refine (exact10_all _ _ _ _ _ _ _ _); intro H; vm_compute in H; try discriminate H; reflexivity).
Qed.
Notation parse10 := (parse 0%Z 10%Z Z.opp stod10).
Notation write10 := (write 0%Z 10%Z Z.opp pos10 Z.eqb show10).
Definition sym10 (i : N) (x : Z) (c : bool) : mono Z := mk_mono i x 0%Z c.
Lemma write10_a : write10 false true (sym10 5 25 true) = tx "2.5 #5*". Proof. reflexivity. Qed.
Lemma reads_fun {K} (k0 k1 : K) kneg stod t m m' : 1 <= List.length t <= 32 -> reads k0 k1 kneg stod t m -> reads k0 k1 kneg stod t m' -> m = m'.
Proof. intros L H H'. apply (parse_reads K k0 k1 kneg stod t m L) in H. apply (parse_reads K k0 k1 kneg stod t m' L) in H'. congruence. Qed.
Lemma least_undefined K (k0 k1 : K) kneg stod : parse k0 k1 kneg stod (tx "-2147483648") = MUndef.
Proof. reflexivity. Qed.
Lemma dot10 : has "." (show10 25). Proof. right. now left. Qed.
Lemma back_example : shown 0%Z 10%Z Z.opp pos10 Z.eqb show10 exact10 /\ reader stod10 /\ nonzero 0%Z (sym10 1 25 false) /\ all_exact exact10 (sym10 1 25 false) /\
  (mo_id (sym10 1 25 false) < 2 ^ 31)%N /\ 1 <= List.length (write10 false true (sym10 1 25 false)) <= 32 /\ scalar_back 0%Z 10%Z Z.opp show10 stod10 (sym10 1 25 false).
Proof.
  split; [exact shown10|]. split; [exact reader10|]. split; [split; [discriminate|left; discriminate]|]. split; [split; unfold exact10; cbn; tauto|].
  split; [reflexivity|]. split; [split; vm_compute; repeat constructor|]. split; [reflexivity|]. split; [reflexivity|]. split; [reflexivity|].
  left. split; [exact dot10|]. split; [discriminate|]. exists 3. split; [reflexivity|]. vm_compute. repeat constructor.
Qed.
Lemma factor_unread : write10 false true (sym10 5 25 true) = tx "2.5 #5*" /\ parse10 (write10 false true (sym10 5 25 true)) = MBad /\
  write10 false false (sym10 5 25 true) = tx "2.5*5*" /\ parse10 (write10 false false (sym10 5 25 true)) = MBad /\
  write10 false true (sym10 5 (-10) false) = tx "-#5" /\ parse10 (write10 false true (sym10 5 (-10) false)) = MBad.
Proof. repeat split; reflexivity. Qed.
Lemma scalar_misread : write10 false true (sym10 1 20 false) = tx "2" /\ parse10 (write10 false true (sym10 1 20 false)) = MRead (sym10 2 10 false).
Proof. split; reflexivity. Qed.
Lemma hash_example : nonzero 0%Z (mk_mono 5 25 20 true)%Z /\ all_exact exact10 (mk_mono 5 25 20 true)%Z /\
  write10 false true (mk_mono 5 25 20 true)%Z = tx "(2.5 + 2i) #5*" /\ write10 false true (mk_mono 5 0 (-10) false)%Z = tx "-i #5".
Proof. split; [split; [discriminate|left; discriminate]|]. split; [split; unfold exact10; cbn; tauto|]. split; reflexivity. Qed.
Lemma plain_ambiguous : exists m m', nonzero 0%Z m /\ nonzero 0%Z m' /\ all_exact exact10 m /\ all_exact exact10 m' /\
  write10 false false m = write10 false false m' /\ ~ same_mono m m'.
Proof.
  exists (sym10 1 50 false), (sym10 5 10 false). split; [split; [discriminate|left; discriminate]|]. split; [split; [discriminate|left; discriminate]|].
  split; [split; unfold exact10; cbn; tauto|]. split; [split; unfold exact10; cbn; tauto|]. split; [reflexivity|]. intros [H _]. discriminate.
Qed.
