(** Arguments of commands: proofs. *)
From Coq Require Import List String Arith Bool Lia Sorted OrderedTypeEx.
From Verif Require Import AlgModel TensorModel UtilModel UtilSpec UtilProofs ArgModel ArgSpec.
Import ListNotations.
Local Open Scope string_scope.
Local Open Scope nat_scope.
Local Open Scope list_scope.

(** * the order of names *)
Lemma ltb_lt a b : String.ltb a b = true <-> String_as_OT.lt a b.
Proof. unfold String.ltb. rewrite <- String_as_OT.cmp_lt. unfold String_as_OT.cmp. destruct (String.compare a b); split; congruence. Qed.
Lemma ltb_irr a : String.ltb a a = false.
Proof. destruct (String.ltb a a) eqn:E; [|reflexivity]. apply ltb_lt in E. destruct (String_as_OT.lt_not_eq a a E eq_refl). Qed.
Lemma ltb_trans a b c : String.ltb a b = true -> String.ltb b c = true -> String.ltb a c = true.
Proof. rewrite !ltb_lt. apply String_as_OT.lt_trans. Qed.
Lemma ltb_total a b : String.ltb a b = false -> String.ltb b a = false -> a = b.
Proof.
  unfold String.ltb. rewrite (String.compare_antisym b a). destruct (String.compare a b) eqn:E; cbn; try discriminate. intros _ _. now apply String.compare_eq_iff.
Qed.
Lemma ltb_weak : weak_order String.ltb.
Proof.
  constructor; [exact ltb_irr|exact ltb_trans|]. intros a b c (H1 & H2) (H3 & H4). pose proof (ltb_total a b H1 H2). pose proof (ltb_total b c H3 H4). subst. split; apply ltb_irr.
Qed.
Lemma mem_in n l : mem n l = true <-> In n l.
Proof. unfold mem. rewrite existsb_exists. split; [intros (m & H & E); apply String.eqb_eq in E; now subst|intros H; exists n; split; [exact H|apply String.eqb_refl]]. Qed.
Lemma mem_out n l : mem n l = false <-> ~ In n l.
Proof. rewrite <- mem_in. destruct (mem n l); split; congruence. Qed.
(** * sets *)
Definition strict (s : list string) : Prop := StronglySorted (fun a b => String.ltb a b = true) s.
Lemma add_in n m s : In m (set_add n s) <-> m = n \/ In m s.
Proof.
  induction s as [|a s IH]; cbn [set_add]; [cbn; intuition|]. destruct (String.ltb n a) eqn:E1; [cbn; intuition|]. destruct (String.ltb a n) eqn:E2.
  - cbn [In]. rewrite IH. cbn. intuition.
  - pose proof (ltb_total n a E1 E2). subst a. cbn. intuition.
Qed.
Lemma add_strict n s : strict s -> strict (set_add n s).
Proof.
  intros S. induction S as [|a s S IH F]; cbn [set_add]; [repeat constructor|]. destruct (String.ltb n a) eqn:E1.
  - constructor; [constructor; assumption|]. constructor; [exact E1|]. rewrite Forall_forall in *. intros b Hb. exact (ltb_trans _ _ _ E1 (F b Hb)).
  - destruct (String.ltb a n) eqn:E2; [|constructor; assumption]. constructor; [exact IH|]. apply Forall_forall. intros b Hb. apply add_in in Hb. destruct Hb as [->|Hb]; [exact E2|]. rewrite Forall_forall in F. now apply F.
Qed.
Lemma set_strict l : strict (set_of_names l) /\ forall n, In n (set_of_names l) <-> In n l.
Proof.
  assert (G : forall s, strict s -> strict (fold_left (fun s n => set_add n s) l s) /\ forall n, In n (fold_left (fun s n => set_add n s) l s) <-> In n l \/ In n s).
  { induction l as [|a l IH]; intros s S; cbn [fold_left]; [split; [exact S|cbn; intuition]|]. destruct (IH (set_add a s) (add_strict a s S)) as (S' & M). split; [exact S'|].
    intros n. rewrite M, add_in. cbn. intuition. }
  destruct (G [] ltac:(constructor)) as (S & M). split; [exact S|]. intros n. unfold set_of_names. rewrite M. cbn. intuition.
Qed.
Lemma strict_unique s s' : strict s -> strict s' -> (forall n, In n s <-> In n s') -> s = s'.
Proof.
  intros S. revert s'. induction S as [|a s S IH F]; intros s' S' M.
  - destruct s' as [|b s']; [reflexivity|]. exfalso. apply (M b). now left.
  - destruct S' as [|b s' S' F']; [exfalso; apply (M a); now left|]. rewrite Forall_forall in F, F'.
    assert (E : a = b).
    { destruct (proj1 (M a) (or_introl eq_refl)) as [E|H]; [now symmetry|]. destruct (proj2 (M b) (or_introl eq_refl)) as [E|H']; [exact E|].
      pose proof (ltb_trans _ _ _ (F b H') (F' a H)) as Q. now rewrite ltb_irr in Q. }
    subst b. f_equal. apply IH; [exact S'|]. intros n. specialize (M n). cbn in M. split; intros H.
    + destruct (proj1 M (or_intror H)) as [<-|H']; [|exact H']. specialize (F a H). now rewrite ltb_irr in F.
    + destruct (proj2 M (or_intror H)) as [<-|H']; [|exact H']. specialize (F' a H). now rewrite ltb_irr in F'.
Qed.

(** * exclusions *)
Lemma exclude_means a b x y : exclude a b = (x, y) -> (x = a /\ y = b) \/ (x = b /\ y = a).
Proof. unfold exclude. destruct (String.ltb a b); intros [= <- <-]; auto. Qed.
Lemma exclude_either a b pairs : In (exclude a b) pairs -> excluded pairs a b.
Proof. unfold exclude, excluded. destruct (String.ltb a b); auto. Qed.
Lemma all_excluded l i j a b : i <> j -> nth_error l i = Some a -> nth_error l j = Some b -> excluded (exclude_all l) a b.
Proof.
  assert (G : forall l i j a b, i < j -> nth_error l i = Some a -> nth_error l j = Some b -> In (exclude a b) (exclude_all l)).
  { clear. induction l as [|x l IH]; intros i j a b L Hi Hj; [destruct i; discriminate|]. destruct j as [|j]; [lia|]. cbn in Hj. cbn [exclude_all]. apply in_or_app. destruct i as [|i].
    - left. cbn in Hi. injection Hi as <-. apply in_map. eapply nth_error_In. exact Hj.
    - right. apply (IH i j); [lia|exact Hi|exact Hj]. }
  intros N Hi Hj. destruct (Nat.lt_ge_cases i j) as [L|L].
  - now apply exclude_either, (G l i j).
  - assert (K : In (exclude b a) (exclude_all l)) by (apply (G l j i); [lia|assumption|assumption]). apply exclude_either in K. unfold excluded in *. tauto.
Qed.
Lemma only_excluded l a b : excluded (exclude_all l) a b -> exists i j, i <> j /\ nth_error l i = Some a /\ nth_error l j = Some b.
Proof.
  assert (G : forall l a b, In (a, b) (exclude_all l) -> exists i j, i <> j /\ nth_error l i = Some a /\ nth_error l j = Some b).
  { clear. induction l as [|x l IH]; intros a b H; cbn in H; [destruct H|]. apply in_app_or in H. destruct H as [H|H].
    - apply in_map_iff in H. destruct H as (y & E & H). apply In_nth_error in H. destruct H as (j & Hj). destruct (exclude_means _ _ _ _ E) as [(-> & ->)|(-> & ->)].
      + exists 0, (S j). repeat split; [lia|exact Hj].
      + exists (S j), 0. repeat split; [lia|exact Hj].
    - destruct (IH a b H) as (i & j & N & Hi & Hj). exists (S i), (S j). repeat split; [lia|exact Hi|exact Hj]. }
  intros [H|H]; destruct (G l _ _ H) as (i & j & N & Hi & Hj); [exists i, j|exists j, i]; repeat split; auto.
Qed.
Section Validate.
  Variables (pairs : list (string * string)) (flags params : list string).
  Lemma clashes_in n m : In m (clashes pairs flags params n) <-> In (n, m) pairs /\ used flags params m.
  Proof.
    unfold clashes. rewrite (proj2 (set_strict _)), filter_In, in_map_iff, orb_true_iff, !mem_in. unfold used. split.
    - intros (((a, b) & <- & H) & U). apply filter_In in H. destruct H as (H & E). cbn in *. apply String.eqb_eq in E. subst a. auto.
    - intros (H & U). split; [|exact U]. exists (n, m). split; [reflexivity|]. apply filter_In. split; [exact H|apply String.eqb_refl].
  Qed.
  Lemma first_clash_some names x y : first_clash pairs flags params names = Some (x, y) -> In x names /\ In (x, y) pairs /\ used flags params y.
  Proof.
    induction names as [|n names IH]; cbn [first_clash]; [discriminate|]. destruct (clashes pairs flags params n) as [|m l] eqn:E.
    - intros H. destruct (IH H) as (I & K). split; [now right|exact K].
    - intros [= <- <-]. split; [now left|]. apply clashes_in. rewrite E. now left.
  Qed.
  Lemma first_clash_none names : first_clash pairs flags params names = None -> forall x y, In x names -> In (x, y) pairs -> ~ used flags params y.
  Proof.
    induction names as [|n names IH]; cbn [first_clash]; [intros _ x y []|]. destruct (clashes pairs flags params n) as [|m l] eqn:E; [|discriminate].
    intros H x y [<-|Hx] Hp U; [|exact (IH H x y Hx Hp U)]. assert (K : In y (clashes pairs flags params n)) by (apply clashes_in; auto). now rewrite E in K.
  Qed.
  Lemma validate_none : validate pairs flags params = None <-> forall a b, excluded pairs a b -> used flags params a -> used flags params b -> False.
  Proof.
    unfold validate. split.
    - intros H a b X Ua Ub. destruct (first_clash pairs flags params flags) as [c|] eqn:E; [discriminate|].
      pose proof (first_clash_none _ E) as K1. pose proof (first_clash_none _ H) as K2.
      assert (G : forall x y, In (x, y) pairs -> used flags params x -> used flags params y -> False).
      { intros x y P [Ux|Ux] Uy; [exact (K1 x y Ux P Uy)|]. apply (K2 x y); [|exact P|exact Uy]. now apply (proj2 (set_strict _)). }
      destruct X as [X|X]; [exact (G a b X Ua Ub)|exact (G b a X Ub Ua)].
    - intros H. destruct (first_clash pairs flags params flags) as [(x, y)|] eqn:E.
      + exfalso. apply first_clash_some in E. destruct E as (I & P & U). apply (H x y); [now left|now left|exact U].
      + destruct (first_clash pairs flags params (set_of_names params)) as [(x, y)|] eqn:E'; [|reflexivity]. exfalso. apply first_clash_some in E'. destruct E' as (I & P & U).
        apply (H x y); [now left| |exact U]. right. exact (proj1 (proj2 (set_strict params) x) I).
  Qed.
  Lemma validate_some a b : validate pairs flags params = Some (a, b) -> In (a, b) pairs /\ used flags params a /\ used flags params b.
  Proof.
    unfold validate. destruct (first_clash pairs flags params flags) as [(x, y)|] eqn:E.
    - intros [= <- <-]. apply first_clash_some in E. destruct E as (I & P & U). split; [exact P|]. split; [now left|exact U].
    - intros H. apply first_clash_some in H. destruct H as (I & P & U). split; [exact P|]. split; [|exact U]. right. exact (proj1 (proj2 (set_strict params) a) I).
  Qed.
End Validate.

(** * sorting the arguments *)
Section Args.
  Context {A : Type}.
  Variable text : A -> option string.
  Notation item := (item A).
  Notation written := (@written A).
  Notation fits := (fits text).
  Notation given := (given text).
  Notation flagged := (flagged text).
  Notation sorted := (sorted A).
  Lemma lookup_app n (m m' : list (string * A)) : lookup n (m ++ m') = match lookup n m with Some v => Some v | None => lookup n m' end.
  Proof. unfold lookup. induction m as [|(a, v) m IH]; [reflexivity|]. cbn [find app]. destruct (String.eqb (fst (a, v)) n); [reflexivity|exact IH]. Qed.
  Lemma emplace_lookup n k v (m : list (string * A)) : lookup n (emplace k v m) = match lookup n m with Some w => Some w | None => if String.eqb k n then Some v else None end.
  Proof.
    unfold emplace. destruct (lookup k m) as [w|] eqn:E.
    - destruct (lookup n m) as [u|] eqn:E'; [reflexivity|]. destruct (String.eqb_spec k n) as [->|N]; [congruence|reflexivity].
    - rewrite lookup_app. destruct (lookup n m); [reflexivity|]. unfold lookup. cbn. now destruct (String.eqb k n).
  Qed.
  Lemma lookup_keys n (m : list (string * A)) : In n (map fst m) <-> lookup n m <> None.
  Proof.
    unfold lookup. induction m as [|(a, v) m IH]; [cbn; intuition|]. cbn [map find fst]. destruct (String.eqb_spec a n) as [->|N]; [cbn; split; [discriminate|now left]|].
    rewrite <- IH. cbn. split; [intros [?|?]; [contradiction|assumption]|now right].
  Qed.
  Section Clean.
    Variables params flags : list string.
    Variable size : nat.
    (** what [s] becomes *)
    Record adds (items : list item) (s s' : sorted) : Prop := {
      ad_inputs : so_inputs s' = so_inputs s ++ plains items;
      ad_strict : strict (so_flags s) -> strict (so_flags s');
      ad_flags : forall n, In n (so_flags s') <-> In n (so_flags s) \/ flagged items n;
      ad_params : forall n, lookup n (so_params s') = match lookup n (so_params s) with Some v => Some v | None => given items n end }.
    Definition names (items : list item) : nat := List.length (filter (fun i => match i with Named _ _ => true | _ => false end) items).
    Lemma written_length items : List.length (written items) = List.length items + names items.
    Proof. unfold names. induction items as [|[a v|a|x] items IH]; cbn [ArgSpec.written flat_map app filter List.length]; [reflexivity| | |]; unfold ArgSpec.written in IH; rewrite ?IH; cbn [List.length]; lia. Qed.
    (** one well formed list of items, with something after it *)
    Lemma clean_items items : Forall (fits params flags) items -> forall rest cursor s, size >= cursor + List.length (written items) + List.length rest ->
      exists s', adds items s s' /\ clean text params flags size cursor (written items ++ rest) s = clean text params flags size (cursor + List.length items) rest s'.
    Proof.
      induction 1 as [|i items Hi Hs IH]; intros rest cursor s L.
      - exists s. split; [|cbn; now rewrite Nat.add_0_r]. constructor; [now rewrite app_nil_r|auto| |intros n; now destruct (lookup n (so_params s))]. intros n. split; [auto|]. intros [H|(a & [] & _)]; exact H.
      - destruct i as [a v|a|x]; cbn [ArgSpec.fits] in Hi; cbn [ArgSpec.written flat_map app] in *; fold (written items) in *.
        + destruct Hi as (n & Tn & Pn). destruct (IH rest (S cursor) (add_param n v s)) as (s' & [A1 A2 A3 A4] & E); [cbn in L; lia|]. exists s'. split.
          * constructor; [exact A1|exact A2| |].
            -- intros m. rewrite A3. cbn [so_flags add_param]. split; (intros [H|(b & H & T)]; [now left|right; exists b; split; [|exact T]]); [now right|]. now destruct H as [H|H].
            -- intros m. rewrite A4. cbn [so_params add_param]. rewrite emplace_lookup. destruct (lookup m (so_params s)); [reflexivity|]. cbn [ArgSpec.given]. rewrite Tn. now destruct (String.eqb n m).
          * cbn [clean]. rewrite Tn. apply mem_in in Pn. rewrite Pn. cbn [List.length app] in L. rewrite (proj2 (Nat.leb_gt size (cursor + 1))) by lia. rewrite E. f_equal. cbn. lia.
        + destruct Hi as (n & Tn & Pn & Fn). destruct (IH rest (S cursor) (add_flag n s)) as (s' & [A1 A2 A3 A4] & E); [cbn in L; lia|]. exists s'. split.
          * constructor; [exact A1|intros S; apply A2; now apply add_strict| |exact A4].
            intros m. rewrite A3. cbn [so_flags add_flag]. rewrite add_in. split.
            -- intros [[->|H]|(b & H & T)]; [right; exists a; split; [now left|exact Tn]|now left|right; exists b; split; [now right|exact T]].
            -- intros [H|(b & [H|H] & T)]; [now left; right| |right; exists b; auto]. injection H as <-. left. left. congruence.
          * cbn [clean]. rewrite Tn. apply mem_out in Pn. apply mem_in in Fn. rewrite Pn, Fn. rewrite E. f_equal. cbn. lia.
        + destruct (IH rest (S cursor) (add_input x s)) as (s' & [A1 A2 A3 A4] & E); [cbn in L; lia|]. exists s'. split.
          * constructor; [rewrite A1; cbn; now rewrite <- app_assoc|exact A2| |exact A4].
            intros m. rewrite A3. cbn [so_flags add_input]. split; (intros [H|(b & H & T)]; [now left|right; exists b; split; [|exact T]]); [now right|]. now destruct H as [H|H].
          * cbn [clean]. destruct (text x) as [n|] eqn:T; [destruct (Hi n eq_refl) as (N1 & N2); apply mem_out in N1, N2; rewrite N1, N2|]; rewrite E; f_equal; cbn; lia.
    Qed.
    (** every list of arguments is one of items, and perhaps a name without its value *)
    Lemma split_args args : exists items, Forall (fits params flags) items /\ (args = written items \/ exists a n, args = written items ++ [a] /\ text a = Some n /\ In n params).
    Proof.
      assert (G : forall k args, List.length args <= k -> exists items, Forall (fits params flags) items /\ (args = written items \/ exists a n, args = written items ++ [a] /\ text a = Some n /\ In n params)).
      { clear. induction k as [|k IH]; intros args L; [destruct args; [|cbn in L; lia]; exists []; split; [constructor|now left]|].
        destruct args as [|x r]; [exists []; split; [constructor|now left]|]. cbn in L.
        assert (Go : forall i pre r', fits params flags i -> written [i] = pre -> x :: r = pre ++ r' -> List.length r' <= k ->
          exists items, Forall (fits params flags) items /\ (x :: r = written items \/ exists a n, x :: r = written items ++ [a] /\ text a = Some n /\ In n params)).
        { intros i pre r' Fi Ep Er Lr. destruct (IH r' Lr) as (items & Fs & D). exists (i :: items). split; [now constructor|].
          assert (W : written (i :: items) = pre ++ written items) by (subst pre; unfold ArgSpec.written; cbn; now rewrite app_nil_r). rewrite W, Er.
          destruct D as [->|(a & n & -> & T)]; [now left|]. right. exists a, n. rewrite app_assoc. auto. }
        destruct (text x) as [n|] eqn:T.
        - destruct (mem n params) eqn:P.
          + apply mem_in in P. destruct r as [|d r']; [exists []; split; [constructor|]; right; exists x, n; auto|].
            apply (Go (Named x d) [x; d] r'); [now exists n|reflexivity|reflexivity|cbn in L; lia].
          + apply mem_out in P. destruct (mem n flags) eqn:Q.
            * apply mem_in in Q. apply (Go (Flag x) [x] r); [now exists n|reflexivity|reflexivity|lia].
            * apply mem_out in Q. apply (Go (Plain x) [x] r); [intros m; rewrite T; intros [= <-]; auto|reflexivity|reflexivity|lia].
        - apply (Go (Plain x) [x] r); [intros m; rewrite T; discriminate|reflexivity|reflexivity|lia]. }
      exact (G (List.length args) args (Nat.le_refl _)).
    Qed.
  End Clean.
  Variables params flags : list string.
  Definition start : sorted := mk_sorted [] [] [].
  Lemma sorted_items items : Forall (fits params flags) items -> exists s, clean_inputs text params flags (written items) = Value s /\ adds items start s.
  Proof.
    intros F. unfold clean_inputs. destruct (clean_items params flags (List.length (written items)) items F [] 0 start) as (s & Ad & E); [cbn; lia|]. exists s. split; [|exact Ad].
    rewrite app_nil_r in E. fold start. rewrite E. reflexivity.
  Qed.
  Lemma missing_value items a n : Forall (fits params flags) items -> text a = Some n -> In n params ->
    clean_inputs text params flags (written items ++ [a]) = if Nat.eqb (names items) 0 then Throws else Undefined.
  Proof.
    intros F T P. unfold clean_inputs. rewrite app_length. cbn [List.length]. destruct (clean_items params flags (List.length (written items) + 1) items F [a] 0 start) as (s & _ & E); [cbn; lia|].
    fold start. rewrite E. cbn [clean]. rewrite T. apply mem_in in P. rewrite P. rewrite written_length. destruct (Nat.eqb_spec (names items) 0) as [Z|Z].
    - rewrite (proj2 (Nat.leb_le _ _)) by lia. reflexivity.
    - rewrite (proj2 (Nat.leb_gt _ _)) by lia. reflexivity.
  Qed.
  Lemma no_names_count items : no_names items <-> names items = 0.
  Proof.
    unfold no_names, names. induction items as [|[a v|a|x] items IH]; cbn [filter List.length].
    - split; [reflexivity|intros _ a v []].
    - split; [intros H; exfalso; apply (H a v); now left|discriminate].
    - rewrite <- IH. split; intros H b v I; [apply (H b v); now right|]. destruct I as [I|I]; [discriminate|exact (H b v I)].
    - rewrite <- IH. split; intros H b v I; [apply (H b v); now right|]. destruct I as [I|I]; [discriminate|exact (H b v I)].
  Qed.
  (** ** the theorems on sorting *)
  Lemma t_sorted items : Forall (fits params flags) items -> exists s, clean_inputs text params flags (written items) = Value s /\
    so_inputs s = plains items /\ (forall n, In n (so_flags s) <-> flagged items n) /\ (forall n, lookup n (so_params s) = given items n).
  Proof.
    intros F. destruct (sorted_items items F) as (s & E & [A1 A2 A3 A4]). exists s. split; [exact E|]. split; [exact A1|]. split.
    - intros n. rewrite A3. cbn. intuition.
    - intros n. rewrite A4. reflexivity.
  Qed.
  Lemma t_accepted args s : clean_inputs text params flags args = Value s -> exists items, args = written items /\ Forall (fits params flags) items.
  Proof.
    intros H. destruct (split_args params flags args) as (items & F & [E|(a & n & -> & T & P)]); [now exists items|]. rewrite (missing_value items a n F T P) in H. destruct (Nat.eqb (names items) 0); discriminate.
  Qed.
  Lemma t_missing items a n : Forall (fits params flags) items -> no_names items -> text a = Some n -> In n params -> clean_inputs text params flags (written items ++ [a]) = Throws.
  Proof. intros F N T P. rewrite (missing_value items a n F T P). apply no_names_count in N. now rewrite N. Qed.
  Lemma t_undefined args : clean_inputs text params flags args = Undefined <->
    exists items a n, args = written items ++ [a] /\ Forall (fits params flags) items /\ ~ no_names items /\ text a = Some n /\ In n params.
  Proof.
    split.
    - intros H. destruct (split_args params flags args) as (items & F & [->|(a & n & -> & T & P)]).
      + destruct (sorted_items items F) as (s & E & _). congruence.
      + exists items, a, n. rewrite (missing_value items a n F T P) in H. rewrite no_names_count. destruct (Nat.eqb_spec (names items) 0); [discriminate|auto].
    - intros (items & a & n & -> & F & N & T & P). rewrite (missing_value items a n F T P). rewrite no_names_count in N. apply Nat.eqb_neq in N. now rewrite N.
  Qed.
End Args.
