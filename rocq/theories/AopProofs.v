(** Operations on arrays of polynomials. *)
From Coq Require Import List NArith Arith Bool Lia.
From Verif Require Import CoreModel FieldModel FieldProofs SymModel PolyModel PolyProofs PolyOpsProofs AlgModel PauliModel RawModel RawSpec RawFinalProofs AopModel AopSpec.
Import ListNotations.
Local Open Scope list_scope.
Local Open Scope nat_scope.

Lemma abind_ok {A B} (x : aout A) (g : A -> aout B) b : abind x g = AOk b -> exists a, x = AOk a /\ g a = AOk b.
Proof. destruct x; cbn; intro H; try discriminate. now exists a. Qed.
Lemma aeach_ok {A B} (g : A -> aout B) l bs : aeach g l = AOk bs <-> Forall2 (fun a b => g a = AOk b) l bs.
Proof.
  revert bs. induction l as [|a l IH]; intro bs; cbn [aeach].
  - split; [intro H; injection H as <-; constructor|intro H; inversion H; reflexivity].
  - split.
    + intro H. apply abind_ok in H. destruct H as (b & E & H). apply abind_ok in H. destruct H as (r & E2 & H). injection H as <-. constructor; [exact E|now apply IH].
    + intro H. inversion H as [|? b ? r E F]. subst. apply IH in F. rewrite E. cbn [abind]. rewrite F. reflexivity.
Qed.
Lemma F2_nth {A B} (P : A -> B -> Prop) l m : Forall2 P l m -> length l = length m /\ forall i b, nth_error m i = Some b -> exists a, nth_error l i = Some a /\ P a b.
Proof.
  induction 1 as [|a b l m H F [IH1 IH2]]; [split; [reflexivity|]; intros [|i] b; discriminate|]. split; [cbn; now rewrite IH1|]. intros [|i] c E; cbn in E; [injection E as <-; now exists a|]. now apply IH2.
Qed.
Lemma F2_make {A B} (P : A -> B -> Prop) l : (forall a, In a l -> exists b, P a b) -> exists m, Forall2 P l m.
Proof. induction l as [|a l IH]; intro H; [exists []; constructor|]. destruct (H a (or_introl eq_refl)) as [b E]. destruct IH as [m M]; [intros x X; apply H; now right|]. exists (b :: m). now constructor. Qed.
Lemma same_shape_ok a b : same_shape a b = true <-> a = b.
Proof.
  revert b. induction a as [|x a IH]; intros [|y b]; cbn; split; intro H; try discriminate; try reflexivity.
  - apply andb_true_iff in H. destruct H as [E H]. apply Nat.eqb_eq in E. apply IH in H. congruence.
  - injection H as -> ->. rewrite Nat.eqb_refl. now apply IH.
Qed.

Section Proofs.
  Context {R : rfield}.
  Notation raw := (list (hseq * cx R)).
  Variable t : table.
  Variable srt : list (mono R) -> list (mono R).
  Variable unit : hseq.
  Notation stands := (stands t srt unit). Notation entry := (entry t srt unit). Notation one := (to_raw_one t srt unit). Notation many := (to_raw_many t srt unit).
  Lemma scalar_stands w p : (w = c0 /\ p = [] \/ w <> c0 /\ p = [(unit, w)]) <-> scalar_raw (R:=R) unit w = p.
  Proof.
    unfold scalar_raw. destruct (is_zero w) eqn:Z.
    - apply is_zero_true in Z. split; [intros [[_ ->]|[N _]]; [reflexivity|now destruct N]|intros <-; left; now split].
    - assert (N : w <> c0) by (intro E; apply is_zero_true in E; congruence). split; [intros [[E _]|[_ ->]]; [now destruct N|reflexivity]|intros <-; right; now split].
  Qed.
  Lemma lift_ok (x : option raw) p : lift_raw x = AOk p <-> x = Some p. Proof. destruct x; cbn; split; intro H; try discriminate; congruence. Qed.
  Lemma one_ok s e p : size e = 1 -> (one (GArray s e) = AOk p <-> stands e 0 p).
  Proof.
    destruct e as [l|l|c l]; cbn [size]; destruct l as [|x [|? ?]]; try discriminate; intros _; cbn [to_raw_one AopSpec.stands nth_error].
    - rewrite lift_ok. split; [intro H; now exists x|intros (y & Y & H); injection Y as <-; exact H].
    - split; congruence.
    - split; [intro H; injection H as <-; exists x; split; [reflexivity|now apply scalar_stands]|intros (y & Y & H); injection Y as <-; apply scalar_stands in H; congruence].
  Qed.
  Lemma many_ok s e ps : many (GArray s e) = AOk ps -> length ps = size e /\ forall i p, nth_error ps i = Some p -> stands e i p.
  Proof.
    destruct e as [l|l|c l]; cbn [to_raw_many AopSpec.stands size]; intro H.
    - apply aeach_ok, F2_nth in H. destruct H as [L H]. split; [easy|]. intros i p P. destruct (H i p P) as (x & X & E). apply lift_ok in E. now exists x.
    - injection H as <-. now split.
    - injection H as <-. split; [apply map_length|]. intros i p P. rewrite nth_error_map in P. destruct (nth_error l i) as [w|]; [|discriminate]. injection P as P. exists w. split; [reflexivity|now apply scalar_stands].
  Qed.
  Lemma many_some s e : readable t srt unit e -> exists ps, many (GArray s e) = AOk ps.
  Proof.
    destruct e as [l|l|c l]; intro H; [|now exists l|eexists; reflexivity]. cbn [to_raw_many]. destruct (F2_make (fun x p => lift_raw (raw_of_poly t (make_poly t srt x)) = AOk p) l) as [ps F].
    - intros x X. apply In_nth_error in X. destruct X as [i X]. destruct (H i) as (p & y & Y & E); [cbn; apply nth_error_Some; congruence|]. rewrite X in Y. injection Y as <-. exists p. now apply lift_ok.
    - exists ps. now apply aeach_ok.
  Qed.
  Lemma stands_fun e i p q : stands e i p -> stands e i q -> p = q.
  Proof.
    destruct e as [l|l|c l]; cbn [AopSpec.stands]; [intros (x & X & E) (y & Y & F)|congruence|intros (x & X & E) (y & Y & F)]; rewrite X in Y; injection Y as <-; [congruence|]. apply scalar_stands in E, F. congruence.
  Qed.
  Lemma stands_lt e i p : stands e i p -> i < size e.
  Proof. destruct e as [l|l|c l]; cbn; [intros (x & X & _)|intro X|intros (x & X & _)]; apply nth_error_Some; congruence. Qed.
  Lemma entry_one e i p : size e = 1 -> stands e 0 p -> entry e i p. Proof. intros H S. unfold AopSpec.entry. now rewrite H. Qed.
  Lemma entry_many e i p : size e <> 1 -> stands e i p -> entry e i p. Proof. intros H S. unfold AopSpec.entry. destruct (Nat.eqb_spec (size e) 1); [easy|exact S]. Qed.
  Lemma monomials (l : list raw) : monomial_result l = true <-> forall r, In r l -> length r <= 1.
  Proof. unfold monomial_result. rewrite forallb_forall. split; intros H r I; specialize (H r I); now apply Nat.leb_le. Qed.
  Lemma report_ok shape (x : aout (list raw)) o : report shape x = AOk o -> exists l, x = AOk l /\ o = (shape, l, monomial_result l).
  Proof. intro H. apply abind_ok in H. destruct H as (l & E & H). exists l. split; [exact E|congruence]. Qed.
  (** kinds of arrays *)
  Definition single_kind (k : kind) : Prop := k = KMonomial \/ k = KPolynomial \/ k = KReal \/ k = KComplex.
  Definition array_kind (k : kind) : Prop := k = KMonomials \/ k = KPolynomials \/ k = KReals \/ k = KComplexes.
  Lemma kind_array s (e : entries (R:=R)) : plane s e -> exists k, kind_of (GArray s e) = AOk k /\ (size e = 1 -> single_kind k) /\ (size e <> 1 -> array_kind k).
  Proof.
    unfold single_kind, array_kind. destruct e as [l|l|c l]; cbn [plane kind_of size]; intro P.
    - destruct (Nat.eqb_spec (length l) 1), (forallb one_term l); eexists; (split; [reflexivity|]); split; intro; try easy; tauto.
    - destruct (Nat.eqb_spec (length l) 1), (forallb one_term l); eexists; (split; [reflexivity|]); split; intro; try easy; tauto.
    - rewrite P. cbn. destruct (Nat.eqb_spec (length l) 1), c; eexists; (split; [reflexivity|]); split; intro; try easy; tauto.
  Qed.
  Lemma kind_plane s (e : entries (R:=R)) k : kind_of (GArray s e) = AOk k -> plane s e.
  Proof. destruct e as [l|l|c l]; cbn; try easy. destruct (Nat.eqb_spec (length s) 2); [easy|discriminate]. Qed.

  Variable f : raw -> raw -> aout raw.
  Notation bin := (binary t srt unit f).
  Lemma product_arrays ls (le : entries (R:=R)) rs (re : entries (R:=R)) lk rk : kind_of (GArray ls le) = AOk lk -> kind_of (GArray rs re) = AOk rk ->
    product_type lk ls rk rs = if size le =? 1 then if size re =? 1 then POneToOne else POneToMany else if size re =? 1 then PManyToOne else if same_shape ls rs then PManyToMany else PMismatched.
  Proof.
    intros L K. destruct (kind_array ls le (kind_plane _ _ _ L)) as (a & A1 & A2 & A3). destruct (kind_array rs re (kind_plane _ _ _ K)) as (b & B1 & B2 & B3). rewrite L in A1. injection A1 as <-. rewrite K in B1. injection B1 as <-.
    destruct (Nat.eqb_spec (size le) 1) as [E|E]; [specialize (A2 E); clear A3|specialize (A3 E); clear A2]; (destruct (Nat.eqb_spec (size re) 1) as [F|F]; [specialize (B2 F); clear B3|specialize (B3 F); clear B2]).
    - destruct A2 as [->|[->|[->| ->]]]; destruct B2 as [->|[->|[->| ->]]]; reflexivity.
    - destruct A2 as [->|[->|[->| ->]]]; destruct B3 as [->|[->|[->| ->]]]; reflexivity.
    - destruct A3 as [->|[->|[->| ->]]]; destruct B2 as [->|[->|[->| ->]]]; reflexivity.
    - destruct A3 as [->|[->|[->| ->]]]; destruct B3 as [->|[->|[->| ->]]]; reflexivity.
  Qed.
  Lemma combine_nth {A B} (l : list A) (m : list B) i x : nth_error (List.combine l m) i = Some x -> nth_error l i = Some (fst x) /\ nth_error m i = Some (snd x).
  Proof. revert m i. induction l as [|a l IH]; intros [|b m] [|i] H; cbn in *; try discriminate; [injection H as <-; now split|now apply IH]. Qed.
  Lemma bin_ok refused mt sq lhs rhs o : array_ok lhs -> array_ok rhs -> bin refused mt sq lhs rhs = AOk o -> pointwise t srt unit (fun p q r => f p q = AOk r) lhs rhs o.
  Proof.
    intros OL OR H. unfold binary in H. apply abind_ok in H. destruct H as (lk & LK & H). apply abind_ok in H. destruct H as (rk & RK & H).
    destruct lhs as [id| |ls le|]; [injection LK as <-; destruct rk, mt, sq; discriminate H| | |].
    { destruct rhs as [id| |rs re|]; cbn in LK, RK; try discriminate RK.
      - injection LK as <-. injection RK as <-. cbn in H. now destruct mt.
      - injection LK as <-. injection RK as <-. discriminate H.
      - injection LK as <-. destruct rk, mt; discriminate H. }
    2:{ discriminate LK. }
    destruct rhs as [id| |rs re|].
    { injection RK as <-. destruct lk, mt, sq; discriminate H. }
    { injection RK as <-. cbn [to_raw_one] in H. destruct lk; cbn [product_type] in H; try discriminate H; try (apply abind_ok in H; destruct H as (? & _ & H); discriminate H); destruct mt; discriminate H. }
    2:{ discriminate RK. }
    cbn [shape_of] in H. rewrite (product_arrays ls le rs re lk rk LK RK) in H. pose proof (kind_plane _ _ _ LK) as PL. pose proof (kind_plane _ _ _ RK) as PR. cbn [shape_of] in H. exists ls, le, rs, re. split; [reflexivity|]. split; [reflexivity|].
    unfold fit, has_shape, has_size. destruct OL as [OL _]. destruct OR as [OR _].
    destruct (Nat.eqb_spec (size le) 1) as [E|E]; (destruct (Nat.eqb_spec (size re) 1) as [F|F]).
    - apply abind_ok in H. destruct H as (p & P & H). apply abind_ok in H. destruct H as (q & Q & H). apply report_ok in H. destruct H as (l & L & ->). apply abind_ok in L. destruct L as (r & X & L). injection L as <-. cbn [fst snd length].
      split; [auto|]. split; [split; [auto|split; easy]|]. split; [split; lia|]. split; [apply monomials|]. intros [|[|i]] r' N; try discriminate N. injection N as <-. exists p, q. apply one_ok in P; [|exact E]. apply one_ok in Q; [|exact F]. split; [now apply entry_one|]. split; [now apply entry_one|exact X].
    - apply abind_ok in H. destruct H as (p & P & H). apply abind_ok in H. destruct H as (qs & Q & H). apply report_ok in H. destruct H as (l & L & ->). apply aeach_ok, F2_nth in L. destruct L as [LN L]. apply one_ok in P; [|exact E]. apply many_ok in Q. destruct Q as [QN Q]. cbn [fst snd].
      split; [auto|]. split; [split; [easy|split; easy]|]. split; [split; [lia|easy]|]. split; [apply monomials|]. intros i r N. destruct (L i r N) as (q & I & X). exists p, q. split; [now apply entry_one|]. split; [apply entry_many; auto|exact X].
    - apply abind_ok in H. destruct H as (ps & P & H). apply abind_ok in H. destruct H as (q & Q & H). apply report_ok in H. destruct H as (l & L & ->). apply aeach_ok, F2_nth in L. destruct L as [LN L]. apply one_ok in Q; [|exact F]. apply many_ok in P. destruct P as [PN P]. cbn [fst snd].
      split; [auto|]. split; [split; [easy|split; easy]|]. split; [split; [easy|lia]|]. split; [apply monomials|]. intros i r N. destruct (L i r N) as (p & I & X). exists p, q. split; [apply entry_many; auto|]. split; [now apply entry_one|exact X].
    - destruct (same_shape ls rs) eqn:SS; [|discriminate H]. apply same_shape_ok in SS. subst rs. apply abind_ok in H. destruct H as (ps & P & H). apply abind_ok in H. destruct H as (qs & Q & H). apply report_ok in H. destruct H as (l & L & ->). apply aeach_ok, F2_nth in L. destruct L as [LN L].
      apply many_ok in P. destruct P as [PN P]. apply many_ok in Q. destruct Q as [QN Q]. rewrite combine_length in LN. cbn [fst snd].
      split; [auto|]. split; [split; [easy|split; easy]|]. split; [split; [easy|lia]|]. split; [apply monomials|]. intros i r N. destruct (L i r N) as (x & I & X). apply combine_nth in I. destruct I as [I1 I2]. exists (fst x), (snd x). split; [apply entry_many; auto|]. split; [apply entry_many; auto|exact X].
  Qed.
  (** every operation on arrays that fit is carried out *)
  Lemma bin_some refused mt sq ls (le : entries (R:=R)) rs (re : entries (R:=R)) : array_ok (GArray ls le) -> array_ok (GArray rs re) -> fit ls le rs re -> readable t srt unit le -> readable t srt unit re ->
    (forall i p q, entry le i p -> entry re i q -> exists r, f p q = AOk r) -> exists o, bin refused mt sq (GArray ls le) (GArray rs re) = AOk o.
  Proof.
    intros [OL _] [OR _] (PL & PR & FT) RL RR TF. unfold binary. destruct (kind_array ls le PL) as (lk & LK & _). destruct (kind_array rs re PR) as (rk & RK & _). rewrite LK, RK. cbn [abind]. cbn [shape_of]. rewrite (product_arrays ls le rs re lk rk LK RK).
    destruct (Nat.eqb_spec (size le) 1) as [E|E]; (destruct (Nat.eqb_spec (size re) 1) as [F|F]).
    - destruct (RL 0) as [p P]; [lia|]. destruct (RR 0) as [q Q]; [lia|]. rewrite (proj2 (one_ok ls le p E) P), (proj2 (one_ok rs re q F) Q). cbn [abind]. destruct (TF 0 p q) as [r X]; [now apply entry_one|now apply entry_one|]. rewrite X. eexists. reflexivity.
    - destruct (RL 0) as [p P]; [lia|]. rewrite (proj2 (one_ok ls le p E) P). destruct (many_some rs re RR) as [qs Q]. rewrite Q. cbn [abind]. apply many_ok in Q. destruct Q as [_ Q]. destruct (F2_make (fun q r => f p q = AOk r) qs) as [l L].
      { intros q I. apply In_nth_error in I. destruct I as [i I]. apply (TF i); [now apply entry_one|apply entry_many; auto]. }
      apply aeach_ok in L. unfold one_to_many. rewrite L. eexists. reflexivity.
    - destruct (RR 0) as [q Q]; [lia|]. rewrite (proj2 (one_ok rs re q F) Q). destruct (many_some ls le RL) as [ps P]. rewrite P. cbn [abind]. apply many_ok in P. destruct P as [_ P]. destruct (F2_make (fun p r => f p q = AOk r) ps) as [l L].
      { intros p I. apply In_nth_error in I. destruct I as [i I]. apply (TF i); [apply entry_many; auto|now apply entry_one]. }
      apply aeach_ok in L. unfold many_to_one. rewrite L. eexists. reflexivity.
    - destruct FT as [FT|[FT|FT]]; [easy|easy|]. subst rs. rewrite (proj2 (same_shape_ok ls ls) eq_refl). destruct (many_some ls le RL) as [ps P]. destruct (many_some ls re RR) as [qs Q]. rewrite P, Q. cbn [abind]. apply many_ok in P. destruct P as [_ P]. apply many_ok in Q. destruct Q as [_ Q].
      destruct (F2_make (fun x r => f (fst x) (snd x) = AOk r) (List.combine ps qs)) as [l L].
      { intros x I. apply In_nth_error in I. destruct I as [i I]. apply combine_nth in I. destruct I as [I1 I2]. apply (TF i); apply entry_many; auto. }
      apply aeach_ok in L. unfold many_to_many. rewrite L. eexists. reflexivity.
  Qed.
  (** and what is carried out could be read *)
  Lemma bin_readable refused mt sq ls (le : entries (R:=R)) rs (re : entries (R:=R)) o : array_ok (GArray ls le) -> array_ok (GArray rs re) -> (size le = 1 -> size re <> 0) -> (size re = 1 -> size le <> 0) -> bin refused mt sq (GArray ls le) (GArray rs re) = AOk o -> readable t srt unit le /\ readable t srt unit re.
  Proof.
    intros OL OR N1 N2 H. apply bin_ok in H; [|exact OL|exact OR]. destruct H as (ls' & le' & rs' & re' & L & K & (_ & _ & FT) & _ & SZ & _ & PW). injection L as <- <-. injection K as <- <-. destruct OL as [OL _]. destruct OR as [OR _].
    assert (AT : forall i, i < length (snd (fst o)) -> (exists p, entry le i p) /\ exists q, entry re i q).
    { intros i I. destruct (nth_error (snd (fst o)) i) as [r|] eqn:N; [|apply nth_error_None in N; lia]. destruct (PW i r N) as (p & q & P & Q & _). split; [now exists p|now exists q]. }
    destruct SZ as [S1 S2]. unfold AopSpec.entry in AT. split; intros i I.
    - destruct (Nat.eqb_spec (size le) 1) as [E|E].
      + destruct (AT 0) as [[p P] _]; [specialize (S1 E); specialize (N1 E); lia|]. exists p. now replace i with 0 by lia.
      + destruct (AT i) as [[p P] _]; [specialize (S2 E); lia|]. now exists p.
    - destruct (Nat.eqb_spec (size re) 1) as [F|F].
      + assert (0 < length (snd (fst o))). { destruct (Nat.eq_dec (size le) 1) as [E|E]; [specialize (S1 E); lia|]. specialize (S2 E). specialize (N2 F). lia. }
        destruct (AT 0) as [_ [q Q]]; [lia|]. exists q. now replace i with 0 by lia.
      + destruct (AT i) as [_ [q Q]]; [|now exists q]. destruct (Nat.eq_dec (size le) 1) as [E|E]; [specialize (S1 E); lia|]. specialize (S2 E). destruct FT as [FT|[FT|FT]]; [easy|easy|]. subst rs. lia.
  Qed.
End Proofs.
