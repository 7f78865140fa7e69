From Coq Require Import NArith ZArith Arith Bool Ascii String List Lia.
From Verif Require Import CoreModel TextModel FieldModel FieldProofs SymModel SymSpec SymFinalProofs PolyModel PolySpec PolyProofs PolyTableProofs PolyFinalProofs.
From Verif Require Import PioModel PioSpec PioProofs StgModel StgSpec.
Import ListNotations.
Local Open Scope list_scope.
Local Open Scope nat_scope.

Lemma sbind_ok {A B} (x : sout A) (f : A -> sout B) b : sbind x f = SOk b <-> exists a0 : A, x = SOk a0 /\ f a0 = SOk b.
Proof. destruct x as [a0|]; cbn; split; [intro H; now exists a0|intros (a' & [= ->] & H); assumption|discriminate|intros (a' & H & _); discriminate]. Qed.
Lemma each_iff {A B} (f : A -> sout B) l bs : each f l = SOk bs <-> Forall2 (fun a b => f a = SOk b) l bs.
Proof.
  revert bs. induction l as [|a l IH]; intro bs; cbn [each].
  - split; [intros [= <-]; constructor|intro F; inversion F; reflexivity].
  - rewrite sbind_ok. split.
    + intros (b & Hb & H). apply sbind_ok in H as (bs' & Hs & H). injection H as <-. constructor; [assumption|now apply IH].
    + intro F. inversion F as [|? b ? bs' Hb F']; subst. exists b. split; [assumption|]. apply sbind_ok. exists bs'. split; [now apply IH|reflexivity].
Qed.
Lemma with_index_iff {A B} (f : nat -> A -> sout B) (P : A -> B -> Prop) l k bs :
  (forall j a b, In a l -> (f j a = SOk b <-> P a b)) -> (with_index f k l = SOk bs <-> Forall2 P l bs).
Proof.
  intro H. revert k bs. induction l as [|a l IH]; intros k bs; cbn [with_index].
  - split; [intros [= <-]; constructor|intro F; inversion F; reflexivity].
  - assert (IH' : forall k bs, with_index f k l = SOk bs <-> Forall2 P l bs) by (apply IH; intros j x b Hx; apply H; now right).
    rewrite sbind_ok. split.
    + intros (b & Hb & E). apply sbind_ok in E as (bs' & Hs & E). injection E as <-. constructor; [apply (H k); [now left|assumption]|now apply (IH' (S k))].
    + intro F. inversion F as [|? b ? bs' Hb F']; subst. exists b. split; [apply H; [now left|assumption]|]. apply sbind_ok. exists bs'. split; [now apply IH'|reflexivity].
Qed.
Lemma with_index_err {A B} (f : nat -> A -> sout B) l e : forall k,
  with_index f k l = SErr e <-> exists j a, nth_error l j = Some a /\ f (k + j) a = SErr e /\ forall i b, i < j -> nth_error l i = Some b -> exists y, f (k + i) b = SOk y.
Proof.
  induction l as [|a l IH]; intro k; cbn [with_index].
  - split; [discriminate|]. intros (j & b & H & _). destruct j; discriminate.
  - destruct (f k a) as [y|e'] eqn:E; cbn [sbind].
    + split.
      * intro H. assert (H' : with_index f (S k) l = SErr e) by (destruct (with_index f (S k) l); [discriminate|cbn in H; congruence]).
        apply IH in H' as (j & b & Hj & Hf & Hb). exists (S j), b. split; [assumption|]. split; [replace (k + S j) with (S k + j) by lia; assumption|].
        intros [|i] z Hi Hz; [injection Hz as <-; rewrite Nat.add_0_r; eauto|]. replace (k + S i) with (S k + i) by lia. apply (Hb i z); [lia|assumption].
      * intros (j & b & Hj & Hf & Hb). destruct j as [|j]; [injection Hj as <-; rewrite Nat.add_0_r in Hf; congruence|].
        assert (H' : with_index f (S k) l = SErr e).
        { apply IH. exists j, b. split; [assumption|]. split; [replace (S k + j) with (k + S j) by lia; assumption|].
          intros i z Hi Hz. replace (S k + i) with (k + S i) by lia. apply (Hb (S i) z); [lia|assumption]. }
        now rewrite H'.
    + split.
      * intro H. assert (e' = e) by congruence. subst e'. exists 0, a. split; [reflexivity|]. split; [now rewrite Nat.add_0_r|]. intros i b Hi. lia.
      * intros (j & b & Hj & Hf & Hb). destruct j as [|j]; [injection Hj as <-; rewrite Nat.add_0_r in Hf; congruence|].
        destruct (Hb 0 a) as (y & Hy); [lia|reflexivity|]. rewrite Nat.add_0_r in Hy. congruence.
Qed.

Lemma wrap_in z : in16 z -> wrap16 z = z.
Proof. unfold in16, wrap16. change (2 ^ 15)%Z with 32768%Z. change (2 ^ 16)%Z with 65536%Z. intro H. rewrite Z.mod_small by lia. lia. Qed.
Lemma from_one_iff bad z i : from_one bad z = SOk i <-> z = (Z.of_nat i + 1)%Z.
Proof. unfold from_one. destruct (Z.ltb_spec z 1) as [H|H]; split; [discriminate|lia|intros [= <-]; lia|intros ->; f_equal; lia]. Qed.
Lemma from_one_err bad z e : from_one bad z = SErr e -> e = bad.
Proof. unfold from_one. destruct (z <? 1)%Z; congruence. Qed.

Section Read.
  Context {R : rfield}.
  Variable scan16 : text -> option Z.
  Variable trunc16 : R -> option Z.
  Variable of_z : Z -> R.
  Hypothesis Hc : casts16 trunc16 of_z.
  Notation read_vector := (read_vector scan16 trunc16).
  Notation read_term := (read_term scan16 trunc16 of_z).
  Notation read_staging := (read_staging scan16 trunc16 of_z).
  Notation letters := (letters scan16 of_z).
  Notation seq_term := (seq_term scan16 of_z).
  Implicit Types (a v : marray R) (e : serr).

  (** reading the operators *)
  Definition ops bad v := sbind (read_vector bad v) (fun zs => each (from_one bad) zs).
  Lemma from_each bad zs w : each (from_one bad) zs = SOk w <-> zs = map (fun i => Z.of_nat i + 1)%Z w.
  Proof.
    rewrite each_iff. revert w. induction zs as [|z zs IH]; intro w.
    - split; [intro F; inversion F; reflexivity|intro E; destruct w; [constructor|discriminate]].
    - split.
      + intro F. inversion F as [|? i ? w' Hi F']; subst. apply from_one_iff in Hi. apply IH in F'. cbn [map]. now rewrite Hi, F'.
      + destruct w as [|i w]; [discriminate|]. cbn [map]. intro E. assert (E1 : z = (Z.of_nat i + 1)%Z) by congruence. assert (E2 : zs = map (fun i => Z.of_nat i + 1)%Z w) by congruence.
        constructor; [now apply from_one_iff|now apply IH].
  Qed.
  Lemma ops_iff bad v w : plain_vector of_z v -> ops bad v = SOk w <-> letters v w.
  Proof.
    intros [P1 P2]. unfold ops. rewrite sbind_ok. split.
    - intros (zs & Hv & Hz). apply from_each in Hz. subst zs. destruct v as [l|l|l|l|l|l|]; cbn [StgModel.read_vector] in Hv; try discriminate.
      + apply each_iff in Hv. apply letters_text. clear P1 P2. revert l Hv. induction w as [|i w IH]; intros l F; cbn [map] in F; inversion F as [|t ? l' ? Ht F']; subst; constructor; [|now apply IH].
        destruct t as [s|]; [|discriminate]. exists s. split; [reflexivity|]. destruct (scan16 s); congruence.
      + injection Hv as E. specialize (P1 l eq_refl). assert (El : l = map (fun i => Z.of_nat i + 1)%Z w).
        { rewrite <- E. clear E. induction P1 as [|z l Hz F IH]; [reflexivity|]. cbn [map]. rewrite (wrap_in z Hz). now rewrite <- IH. }
        rewrite El. apply letters_int. rewrite El in P1. exact (proj1 (Forall_map _ _ w) P1).
      + apply each_iff in Hv. specialize (P2 l eq_refl). assert (El : l = map (fun i => of_z (Z.of_nat i + 1)) w /\ Forall (fun i => in16 (Z.of_nat i + 1)) w).
        { clear P1. revert w Hv. induction P2 as [|x l Hx F IH]; intros w G; destruct w as [|i w]; cbn [map] in G; inversion G as [|? ? ? ? Hi G']; subst; [split; constructor|].
          destruct Hx as (z & Hz & ->). rewrite (Hc z Hz) in Hi. injection Hi as ->. destruct (IH w G') as [-> Fw]. split; [reflexivity|constructor; assumption]. }
        destruct El as [-> Fw]. now apply letters_real.
      + injection Hv as E. assert (El : l = repeat true (List.length w) /\ w = repeat 0 (List.length w)).
        { clear P1 P2. revert w E. induction l as [|b l IH]; intros w E; destruct w as [|i w]; try discriminate E; [split; reflexivity|]. cbn [map] in E.
          assert (E1 : (if b then 1 else 0)%Z = (Z.of_nat i + 1)%Z) by congruence. assert (E2 : map (fun b : bool => if b then 1%Z else 0%Z) l = map (fun i => Z.of_nat i + 1)%Z w) by congruence.
          destruct (IH w E2) as [L1 L2]. cbn [List.length repeat]. rewrite <- L1, <- L2. destruct b; [|lia]. assert (i = 0) by lia. subst i. split; reflexivity. }
        destruct El as [-> ->]. rewrite repeat_length. apply letters_bool.
    - intro L. exists (map (fun i => Z.of_nat i + 1)%Z w). split; [|now apply from_each]. destruct L as [w F|w F|n|l w F]; cbn [StgModel.read_vector].
      + f_equal. rewrite map_map. apply map_ext_in. intros i Hi. apply wrap_in. rewrite Forall_forall in F. now apply F.
      + apply each_iff. clear P1 P2. induction F as [|i w Hi F IH]; cbn [map]; constructor; [now rewrite (Hc _ Hi)|assumption].
      + f_equal. clear. induction n as [|n IH]; [reflexivity|]. cbn [repeat map]. now rewrite IH.
      + apply each_iff. clear P1 P2. induction F as [|t i l w Hi F IH]; cbn [map]; constructor; [|assumption]. destruct Hi as (s & -> & Hs). now rewrite Hs.
  Qed.
  Lemma each_err {A B} (f : A -> sout B) e0 l e : (forall (z : A) e', f z = SErr e' -> e' = e0) -> each f l = SErr e -> e = e0.
  Proof.
    intro H. revert e. induction l as [|a0 l IH]; intro e; cbn [each]; [discriminate|]. destruct (f a0) as [b|e'] eqn:E; cbn [sbind].
    - destruct (each f l) as [bs|e'']; cbn; [discriminate|]. intros [= <-]. now apply IH.
    - intros [= <-]. exact (H a0 e' E).
  Qed.
  Lemma ops_err bad v e : plain_vector of_z v -> ops bad v = SErr e -> e = bad.
  Proof.
    intros [P1 P2]. unfold ops. destruct (read_vector bad v) as [zs|e'] eqn:E; cbn [sbind].
    - apply each_err. intros z e'. apply from_one_err.
    - intros [= <-]. destruct v as [l|l|l|l|l|l|]; cbn [StgModel.read_vector] in E; try congruence.
      + revert E. apply each_err. intros [s|] e; [destruct (scan16 s)|]; congruence.
      + specialize (P2 l eq_refl). exfalso. assert (G : exists zs, each (fun x => match trunc16 x with Some z => SOk z | None => SErr SUndefined end) l = SOk zs).
        { clear E P1. induction P2 as [|x l Hx F IH]; [exists []; reflexivity|]. destruct Hx as (z & Hz & ->). destruct IH as (zs & Q). exists (z :: zs).
          cbn [each]. rewrite (Hc z Hz). cbn [sbind]. rewrite Q. reflexivity. }
        destruct G as (zs & Q). congruence.
  Qed.
  Lemma term_iff k a x : plain_seq of_z a -> read_term k a = SOk x <-> seq_term a x.
  Proof.
    intro P. unfold StgModel.read_term. set (bad := SBadTerm (k + 1)).
    assert (T : forall (B : Type) (g : list nat -> sout B) v, sbind (read_vector bad v) (fun zs => sbind (each (from_one bad) zs) g) = sbind (ops bad v) g).
    { intros B g v. unfold ops. destruct (read_vector bad v); reflexivity. }
    split.
    - intro H. destruct a as [l| | | | | |]; try discriminate. destruct l as [|v [|f [|]]]; try discriminate; cbv zeta in H.
      + rewrite T in H. apply sbind_ok in H as (w & Hw & H). injection H as <-. apply seq_term_1. apply (ops_iff bad); [now apply (P v [])|assumption].
      + rewrite T in H. apply sbind_ok in H as (w & Hw & H). apply sbind_ok in H as (c & Hf & H). injection H as <-. apply seq_term_2; [apply (ops_iff bad); [now apply (P v [f])|assumption]|].
        unfold term_factor in Hf. destruct (scalar_factor of_z f) as [c'|] eqn:E; [|discriminate]. injection Hf as <-. now apply (factor_spec of_z).
    - intro H. destruct H as [v w L|v w f c L W]; cbv zeta; rewrite T.
      + rewrite (proj2 (ops_iff bad v w (P v [] eq_refl)) L). reflexivity.
      + rewrite (proj2 (ops_iff bad v w (P v [f] eq_refl)) L). cbn [sbind]. unfold term_factor. apply (factor_spec of_z) in W. rewrite W. reflexivity.
  Qed.
  Lemma term_err k a e : plain_seq of_z a -> read_term k a = SErr e -> e = SBadTerm (k + 1).
  Proof.
    intro P. unfold StgModel.read_term. set (bad := SBadTerm (k + 1)).
    assert (T : forall (B : Type) (g : list nat -> sout B) v, sbind (read_vector bad v) (fun zs => sbind (each (from_one bad) zs) g) = sbind (ops bad v) g).
    { intros B g v. unfold ops. destruct (read_vector bad v); reflexivity. }
    destruct a as [l| | | | | |]; try congruence. destruct l as [|v [|f [|]]]; try congruence; cbv zeta; rewrite T.
    - destruct (ops bad v) as [w|e'] eqn:E; cbn [sbind]; [discriminate|]. intros [= <-]. exact (ops_err _ _ _ (P v [] eq_refl) E).
    - destruct (ops bad v) as [w|e'] eqn:E; cbn [sbind].
      + unfold term_factor. destruct (scalar_factor of_z f); cbn; congruence.
      + intros [= <-]. exact (ops_err _ _ _ (P v [f] eq_refl) E).
  Qed.

  Lemma read_iff a l : plain_cell of_z a -> read_staging a = SOk l <-> seq_denotes scan16 of_z a l.
  Proof.
    intro P. unfold StgModel.read_staging, seq_denotes. destruct a as [els| | | | | |]; try (split; [discriminate|intros (els & [=] & _)]).
    specialize (P els eq_refl). rewrite Forall_forall in P. rewrite (with_index_iff read_term seq_term).
    - split; [intro F; now exists els|intros (els' & [= <-] & F); exact F].
    - intros j a b Ha. apply term_iff. now apply P.
  Qed.
  Lemma bad_term els n : plain_cell of_z (MCell els) -> read_staging (MCell els) = SErr (SBadTerm n) <->
    exists j a, n = j + 1 /\ nth_error els j = Some a /\ (forall x, ~ seq_term a x) /\ forall i b, i < j -> nth_error els i = Some b -> exists x, seq_term b x.
  Proof.
    intro P. specialize (P els eq_refl). rewrite Forall_forall in P. cbn [StgModel.read_staging]. rewrite with_index_err. split.
    - intros (j & a & Hj & He & Hb). pose proof (P a (nth_error_In _ _ Hj)) as Pa. exists j, a. pose proof (term_err _ _ _ Pa He) as Q. split; [injection Q as ->; lia|].
      split; [assumption|]. split; [intros x Hx; apply (term_iff (0 + j) a x Pa) in Hx; congruence|].
      intros i b Hi Hn. destruct (Hb i b Hi Hn) as (x & Hx). exists x. apply (term_iff (0 + i)); [exact (P b (nth_error_In _ _ Hn))|assumption].
    - intros (j & a & -> & Hj & Hx & Hb). exists j, a. split; [assumption|]. pose proof (P a (nth_error_In _ _ Hj)) as Pa. split.
      + destruct (read_term (0 + j) a) as [x|e] eqn:E; [apply (term_iff _ _ _ Pa) in E; now apply Hx in E|]. now rewrite (term_err _ _ _ Pa E).
      + intros i b Hi Hn. destruct (Hb i b Hi Hn) as (x & Hs). exists x. apply term_iff; [exact (P b (nth_error_In _ _ Hn))|assumption].
  Qed.
  Lemma not_cell a : (forall els, a <> MCell els) -> read_staging a = SErr SNotCell.
  Proof. intro H. destruct a as [els| | | | | |]; try reflexivity. now destruct (H els). Qed.

  (** ** resolving *)
  Variables (n_ops : nat) (resolve : list nat -> hseq).
  Lemma bad_operator_none w k : bad_operator n_ops k w = None <-> Forall (fun o => o < n_ops) w.
  Proof.
    revert k. induction w as [|o w IH]; intro k; cbn [bad_operator]; [split; [constructor|reflexivity]|]. destruct (Nat.leb_spec n_ops o).
    - split; [discriminate|]. intro F. inversion F; subst. lia.
    - rewrite IH. split; intro F; [constructor; assumption|now inversion F].
  Qed.
  Lemma bad_operator_some w k m : bad_operator n_ops k w = Some m <-> exists i o, m = k + i /\ nth_error w i = Some o /\ n_ops <= o /\ Forall (fun o => o < n_ops) (firstn i w).
  Proof.
    revert k. induction w as [|o w IH]; intro k; cbn [bad_operator].
    - split; [discriminate|]. intros (i & o & _ & H & _). destruct i; discriminate.
    - destruct (Nat.leb_spec n_ops o) as [L|L].
      + split.
        * intros [= <-]. exists 0, o. split; [lia|]. split; [reflexivity|]. split; [assumption|constructor].
        * intros (i & o' & -> & Hi & Ho & F). destruct i as [|i]; [f_equal; lia|]. cbn [firstn] in F. inversion F; subst. lia.
      + rewrite IH. split.
        * intros (i & o' & -> & Hi & Ho & F). exists (S i), o'. split; [lia|]. split; [assumption|]. split; [assumption|]. cbn [firstn]. constructor; assumption.
        * intros (i & o' & -> & Hi & Ho & F). destruct i as [|i]; [injection Hi as <-; lia|]. exists i, o'. split; [lia|]. split; [assumption|]. split; [assumption|]. now inversion F.
  Qed.
  Lemma resolve_ok k (x : list nat * cx R) y : resolve_term n_ops resolve k x = SOk y <-> Forall (fun o => o < n_ops) (fst x) /\ y = mk_sterm (resolve (fst x)) (snd x) None false.
  Proof.
    unfold resolve_term. destruct (bad_operator n_ops 0 (fst x)) as [m|] eqn:E.
    - split; [discriminate|]. intros [F _]. apply (bad_operator_none _ 0) in F. congruence.
    - apply bad_operator_none in E. split; [intros [= <-]; auto|intros [_ ->]; reflexivity].
  Qed.
  Lemma supply_iff (l : list (list nat * cx R)) ts : supply_context n_ops resolve l = SOk ts <->
    Forall (fun x => Forall (fun o => o < n_ops) (fst x)) l /\ ts = staged (map (fun x => (resolve (fst x), snd x)) l).
  Proof.
    unfold supply_context. rewrite (with_index_iff _ (fun x y => Forall (fun o => o < n_ops) (fst x) /\ y = mk_sterm (resolve (fst x)) (snd x) None false)).
    - unfold staged. rewrite map_map. cbn [fst snd]. split.
      + intro F. induction F as [|x y l ts [H1 ->] F [IH1 IH2]]; [split; constructor|]. split; [constructor; assumption|]. cbn [map]. now rewrite IH2.
      + intros [F ->]. induction F as [|x l H F IH]; cbn [map]; constructor; auto.
    - intros j a b _. apply resolve_ok.
  Qed.
  Lemma supply_err (l : list (list nat * cx R)) e : supply_context n_ops resolve l = SErr e <->
    exists j w f i o, e = SBadOperator (j + 1) (i + 1) /\ nth_error l j = Some (w, f) /\ nth_error w i = Some o /\ n_ops <= o /\ Forall (fun o => o < n_ops) (firstn i w) /\
      forall j' x, j' < j -> nth_error l j' = Some x -> Forall (fun o => o < n_ops) (fst x).
  Proof.
    unfold supply_context. rewrite with_index_err. split.
    - intros (j & [w f] & Hj & He & Hb). unfold resolve_term in He. cbn [fst snd] in He. destruct (bad_operator n_ops 0 w) as [m|] eqn:E; [|discriminate]. injection He as <-.
      apply bad_operator_some in E as (i & o & -> & Hi & Ho & F). exists j, w, f, i, o. split; [reflexivity|]. split; [assumption|]. split; [assumption|]. split; [assumption|]. split; [assumption|].
      intros j' x Hj' Hx. destruct (Hb j' x Hj' Hx) as (y & Hy). now apply resolve_ok in Hy.
    - intros (j & w & f & i & o & -> & Hj & Hi & Ho & F & Hb). exists j, (w, f). split; [assumption|]. split.
      + unfold resolve_term. cbn [fst snd]. assert (E : bad_operator n_ops 0 w = Some i) by (apply bad_operator_some; exists i, o; auto). now rewrite E.
      + intros j' x Hj' Hx. eexists. apply resolve_ok. split; [exact (Hb j' x Hj' Hx)|reflexivity].
  Qed.
  Definition pairs (l : list (sterm (R:=R))) : list (hseq * cx R) := map (fun x => (s_seq x, s_f x)) l.
  Lemma raw_back (raw : list (hseq * cx R)) : pairs (staged raw) = raw.
  Proof. unfold pairs, staged. rewrite map_map. cbn. induction raw as [|[q w] raw IH]; [reflexivity|]. cbn [map]. now rewrite IH. Qed.
End Read.
