(** Statements about tensors, iterators, flatteners and automatic storage, as used by the property file. *)
From Coq Require Import List NArith Arith Bool Lia Sorted.
From Verif Require Import CoreModel CoreSpec AlgModel EnumModel EnumSpec EnumProofs TensorModel TensorSpec TensorProofs.
Import ListNotations.
Local Open Scope nat_scope.

(* ------------------------------------------------------------ round trips *)
Lemma offset_then_index lm dims index : dims <> [] -> small dims -> index_of dims index ->
  exists o, index_to_offset lm dims index = Value o /\ (o < element_count dims)%N /\ offset_to_index lm dims o = Value index.
Proof.
  intros NE B H. exists (N.of_nat (position lm dims index)). split; [now apply offset_checked|]. split; [|now apply index_checked].
  rewrite count_small by assumption. pose proof (position_bound lm dims index H). lia.
Qed.
Lemma index_then_offset lm dims o : dims <> [] -> small dims -> (o < N.of_nat (volume dims))%N ->
  exists index, offset_to_index lm dims o = Value index /\ index_of dims index /\ index_to_offset lm dims index = Value o.
Proof.
  intros NE B H. destruct (every_position lm dims (N.to_nat o)) as (x & X & E); [lia|]. exists x.
  assert (Q : o = N.of_nat (position lm dims x)) by lia. rewrite Q. split; [now apply index_checked|]. split; [exact X|now apply offset_checked].
Qed.
Lemma count_exact dims : dims <> [] -> small dims -> element_count dims = N.of_nat (volume dims).
Proof. apply count_small. Qed.

(* ------------------------------------------------------------ iterators *)
Lemma iterator_in_order lm dims fuel : dims <> [] -> volume dims <= fuel ->
  exists l, index_iterator fuel lm dims = Ret l /\ length l = volume dims /\
    forall k index g, nth_error l k = Some (index, g) <-> g = k /\ index_of dims index /\ position lm dims index = k.
Proof.
  intros NE F. exists (numbered 0 (indices_in_order lm dims)). split; [now apply index_iterator_spec|].
  split; [rewrite numbered_length; apply in_order_length|]. intros k index g. rewrite numbered_nth. cbn [fst snd].
  rewrite in_order_nth. rewrite Nat.add_0_l. tauto.
Qed.
Lemma sorted_map {A B} (R : A -> A -> Prop) (T : B -> B -> Prop) (f : A -> B) l :
  StronglySorted R l -> (forall a b, In a l -> In b l -> R a b -> T (f a) (f b)) -> StronglySorted T (map f l).
Proof.
  induction 1 as [|a l S IH Fa]; intro H; [constructor|]. cbn. constructor.
  - apply IH. intros x y X Y. apply H; now right.
  - apply Forall_map. rewrite Forall_forall in *. intros x X. apply H; [now left|now right|now apply Fa].
Qed.
Lemma corners_between dims lo hi x : corners dims lo hi -> between lo hi x -> index_of dims x.
Proof.
  intros (L & LE & H) B. unfold between, in_box in B. revert dims hi x L LE H B.
  induction lo as [|a lo IH]; intros dims hi x L LE H B; inversion L as [|? d ? dims' L1 L2]; subst; inversion LE as [|? b ? hi' E1 E2]; subst;
    cbn [List.combine] in B; inversion B as [|? c ? x' B1 B2]; subst; [constructor|].
  inversion H as [|? ? ? ? H1 H2]; subst. cbn [fst snd] in B1. constructor; [lia|]. eapply IH; eassumption.
Qed.
Lemma range_sorted lm dims lo hi : corners dims lo hi ->
  StronglySorted (fun x y => position lm dims x < position lm dims y) (range_in_order lm lo hi).
Proof.
  intro C. unfold range_in_order, position. destruct lm.
  - apply (sorted_map lex_lt); [apply (proj1 (box_spec _))|]. intros x y X Y L.
    assert (X' : index_of dims (rev x)). { apply (corners_between dims lo hi); [exact C|]. apply (range_in true). unfold range_in_order. now apply in_map. }
    assert (Y' : index_of dims (rev y)). { apply (corners_between dims lo hi); [exact C|]. apply (range_in true). unfold range_in_order. now apply in_map. }
    rewrite !column_rev by (now apply index_of_length). rewrite !rev_involutive.
    apply lex_row; [| |exact L]; [rewrite <- (rev_involutive x)|rewrite <- (rev_involutive y)]; now apply index_of_rev.
  - rewrite <- (map_id (box (List.combine lo hi))). apply (sorted_map lex_lt); [apply (proj1 (box_spec _))|]. intros x y X Y L.
    apply lex_row; [| |exact L]; apply (corners_between dims lo hi); try exact C; now apply (range_in false).
Qed.
Lemma corners_le dims lo hi : corners dims lo hi -> Forall2 le lo hi.
Proof. now intros (_ & H & _). Qed.
Lemma corners_nil dims lo hi : dims <> [] -> corners dims lo hi -> lo <> [].
Proof. intros NE (H & _) E. subst. inversion H. now subst. Qed.
Lemma range_box_small dims lo hi : corners dims lo hi -> length (box (List.combine lo hi)) <= volume dims.
Proof.
  intros (L & LE & H). rewrite box_length. revert dims hi L LE H.
  induction lo as [|a lo IH]; intros dims hi L LE H; inversion L as [|? d ? dims' L1 L2]; subst; inversion LE as [|? b ? hi' E1 E2]; subst; [cbn; lia|].
  inversion H as [|? ? ? ? H1 H2]; subst. cbn [List.combine fold_right fst snd]. rewrite volume_cons. specialize (IH _ _ L2 E2 H2). nia.
Qed.
Lemma offset_iterator_in_order lm dims lo hi fuel : dims <> [] -> corners dims lo hi -> volume dims <= fuel ->
  exists l, mdoi_run fuel lm lo hi = Ret l /\
    StronglySorted (fun x y => position lm dims x < position lm dims y) (map fst l) /\
    (forall x, In x (map fst l) <-> between lo hi x) /\ map snd l = seq 0 (length l).
Proof.
  intros NE C F. exists (numbered 0 (range_in_order lm lo hi)). split.
  { apply mdoi_run_spec; [now apply (corners_nil dims lo hi)|now apply (corners_le dims)|]. pose proof (range_box_small dims lo hi C). lia. }
  rewrite numbered_fst. split; [now apply range_sorted|]. split; [intro x; apply range_in|].
  rewrite numbered_length. unfold numbered. generalize (range_in_order lm lo hi) as l, 0. induction l as [|a l IH]; intro g; [reflexivity|]. cbn. f_equal. apply IH.
Qed.

(* ------------------------------------------------------------ flattener *)
Lemma tmap_value {A B} (f : A -> tout B) (g : A -> B) l : (forall a, In a l -> f a = Value (g a)) -> tmap f l = Value (map g l).
Proof.
  induction l as [|a l IH]; intro H; [reflexivity|]. cbn. rewrite (H a) by (now left). cbn. rewrite IH by (intros b Hb; apply H; now right). reflexivity.
Qed.
(** Picks the listed value in each dimension *)
Definition pick (per_dim : list (list nat)) (raw : list nat) : list nat := map (fun p => nth (snd p) (fst p) 0) (List.combine per_dim raw).
Lemma remap_spec per_dim raw : index_of (index_sizes per_dim) raw -> remap_index per_dim raw = Value (pick per_dim raw).
Proof.
  unfold index_of, index_sizes. revert raw. induction per_dim as [|l per_dim IH]; intros raw H; cbn [map] in H; inversion H as [|r ? raw' ? L R]; subst; [reflexivity|].
  cbn [remap_index]. rewrite (nth_error_nth' l 0) by exact L. rewrite IH by exact R. reflexivity.
Qed.
Lemma pick_in dims per_dim raw : Forall2 (fun d l => Forall (fun i => i < d) l) dims per_dim ->
  index_of (index_sizes per_dim) raw -> index_of dims (pick per_dim raw).
Proof.
  intro H. revert raw. induction H as [|d l dims per_dim F H IH]; intros raw I; inversion I as [|r ? raw' ? L R]; subst; [constructor|].
  cbn. constructor; [|now apply IH]. rewrite Forall_forall in F. apply F. now apply nth_In.
Qed.
Lemma flatten_spec dims per_dim fuel : per_dim <> [] -> small dims ->
  Forall2 (fun d l => Forall (fun i => i < d) l) dims per_dim -> volume (index_sizes per_dim) <= fuel ->
  exists l, flatten_all fuel dims per_dim = Ret (Value l) /\ length l = volume (index_sizes per_dim) /\
    forall k raw, index_of (index_sizes per_dim) raw -> column_position (index_sizes per_dim) raw = k ->
      nth_error l k = Some (N.of_nat (column_position dims (pick per_dim raw))).
Proof.
  intros NE B H F. exists (map (fun p => N.of_nat (column_position dims (pick per_dim (fst p)))) (numbered 0 (indices_in_order true (index_sizes per_dim)))).
  split; [|split].
  - unfold flatten_all. rewrite index_iterator_spec; [|destruct per_dim; [contradiction|discriminate]|exact F]. cbn [bind]. f_equal. apply tmap_value.
    intros [raw g] Hp. unfold flattened. cbn [fst]. apply (in_map fst) in Hp. rewrite numbered_fst in Hp. cbn [fst] in Hp. apply in_order_in in Hp.
    rewrite remap_spec by exact Hp. cbn [tbind]. apply (offset_exact true); [now apply pick_in|exact B].
  - now rewrite map_length, numbered_length, in_order_length.
  - intros k raw I P. apply (map_nth_error (fun p => N.of_nat (column_position dims (pick per_dim (fst p)))) k _ (d := (raw, k))).
    apply numbered_nth. cbn [fst snd]. split; [|lia]. apply in_order_nth. auto.
Qed.
Lemma flattener_counts per_dim : small (index_sizes per_dim) ->
  (per_dim <> [] -> flattener_size per_dim = N.of_nat (volume (index_sizes per_dim))) /\
  (flattener_empty per_dim = true <-> per_dim = [] \/ volume (index_sizes per_dim) = 0).
Proof.
  intro B. split.
  - intro NE. unfold flattener_size. apply count_small; [destruct per_dim; [contradiction|discriminate]|exact B].
  - unfold flattener_empty. destruct per_dim as [|l per_dim]; [tauto|]. rewrite existsb_exists. split.
    + intros (n & I & Z). apply Nat.eqb_eq in Z. subst. right. clear B. induction (index_sizes (l :: per_dim)) as [|d dims IH]; [contradiction|].
      rewrite volume_cons. destruct I as [->|I]; [reflexivity|]. rewrite IH by exact I. lia.
    + intros [H|H]; [discriminate|]. clear B. induction (index_sizes (l :: per_dim)) as [|d dims IH]; [discriminate|].
      rewrite volume_cons in H. destruct d as [|d].
      * exists 0. split; [now left|reflexivity].
      * destruct IH as (n & I & Z); [lia|]. exists n. split; [now right|exact Z].
Qed.

(* ------------------------------------------------------------ automatic storage *)
Section AutoProofs.
  Context {E : Type}.
  Variable make_element : list nat -> E.
  Notation make := (tensor_make make_element).
  Lemma make_spec fuel thr hint dims t : dims <> [] -> volume dims <= fuel -> make fuel thr hint dims = Ret t ->
    tn_dims t = dims /\ (tn_storage t = Explicit -> tn_data t = map make_element (indices_in_order true dims)).
  Proof.
    intros NE F H. unfold tensor_make in H. destruct (get_storage_type _ _ _).
    - rewrite index_iterator_spec in H by assumption. cbn [bind] in H. injection H as <-. cbn. split; [reflexivity|]. intros _.
      rewrite <- (numbered_fst 0 (indices_in_order true dims)) at 2. now rewrite map_map.
    - injection H as <-. cbn. split; [reflexivity|discriminate].
  Qed.
  Lemma storage_choice fuel thr hint dims t : dims <> [] -> small dims -> make fuel thr hint dims = Ret t ->
    (forall s, hint = Some s -> tn_storage t = s) /\ (hint = None -> (tn_storage t = Explicit <-> (N.of_nat (volume dims) <= thr)%N)).
  Proof.
    intros NE SM H. unfold tensor_make in H. rewrite (count_exact dims NE SM) in H.
    assert (E' : tn_storage t = get_storage_type thr hint (N.of_nat (volume dims))).
    { destruct (get_storage_type _ _ _); [|now injection H as <-]. destruct (index_iterator fuel true dims); cbn [bind] in H; try discriminate. now injection H as <-. }
    rewrite E'. unfold get_storage_type. split; [now intros s ->|]. intros ->. destruct (N.ltb_spec thr (N.of_nat (volume dims))).
    - split; [discriminate|lia].
    - split; [lia|reflexivity].
  Qed.
  Lemma data_spec (t : tensor E) dims index : tn_data t = map make_element (indices_in_order true dims) -> index_of dims index ->
    data_at t (N.of_nat (position true dims index)) = Value (make_element index).
  Proof.
    intros D I. unfold data_at. rewrite Nat2N.id, D. erewrite map_nth_error; [reflexivity|]. apply in_order_nth. auto.
  Qed.
  Lemma read_no_checks fuel thr hint dims t index : dims <> [] -> small dims -> volume dims <= fuel -> make fuel thr hint dims = Ret t ->
    index_of dims index -> elem_no_checks make_element t index = Value (make_element index).
  Proof.
    intros NE B F M I. destruct (make_spec fuel thr hint dims t NE F M) as [D X]. unfold elem_no_checks. destruct (tn_storage t); [|reflexivity].
    rewrite D, offset_exact by assumption. cbn [tbind]. apply data_spec; auto.
  Qed.
  Lemma read_index fuel thr hint dims t index : dims <> [] -> small dims -> volume dims <= fuel -> make fuel thr hint dims = Ret t ->
    (index_of dims index -> elem make_element t index = Value (make_element index)) /\
    (~ index_of dims index -> elem make_element t index = Throws).
  Proof.
    intros NE B F M. destruct (make_spec fuel thr hint dims t NE F M) as [D X]. unfold elem. rewrite D. split; intro I.
    - rewrite (proj2 (validate_spec dims index) I). cbn [tbind]. now apply (read_no_checks fuel thr hint dims).
    - destruct (validate_cases dims index) as [V|V]; rewrite V; [|reflexivity]. exfalso. apply I. now apply validate_spec.
  Qed.
  Lemma read_offset_no_checks fuel thr hint dims t index : dims <> [] -> small dims -> volume dims <= fuel -> make fuel thr hint dims = Ret t ->
    index_of dims index -> elem_at_no_checks make_element t (N.of_nat (position true dims index)) = Value (make_element index).
  Proof.
    intros NE B F M I. destruct (make_spec fuel thr hint dims t NE F M) as [D X]. unfold elem_at_no_checks. destruct (tn_storage t).
    - apply data_spec; auto.
    - rewrite D, index_exact by assumption. reflexivity.
  Qed.
  Lemma read_offset fuel thr hint dims t : dims <> [] -> small dims -> volume dims <= fuel -> make fuel thr hint dims = Ret t ->
    (forall index, index_of dims index -> elem_at make_element t (N.of_nat (column_position dims index)) = Value (make_element index)) /\
    (forall o, (N.of_nat (volume dims) <= o)%N -> elem_at make_element t o = Throws).
  Proof.
    intros NE B F M. destruct (make_spec fuel thr hint dims t NE F M) as [D X]. unfold elem_at. rewrite D. unfold validate_offset. rewrite count_small by assumption. split.
    - intros index I. pose proof (column_bound dims index I).
      destruct (N.leb_spec (N.of_nat (volume dims)) (N.of_nat (column_position dims index))); [lia|]. cbn [tbind]. now apply (read_offset_no_checks fuel thr hint dims).
    - intros o H. destruct (N.leb_spec (N.of_nat (volume dims)) o); [reflexivity|lia].
  Qed.
  Lemma splice_visit_spec fuel thr hint dims t index g : dims <> [] -> small dims -> volume dims <= fuel -> make fuel thr hint dims = Ret t ->
    index_of dims index -> splice_visit make_element t (index, g) = Value (index, N.of_nat (column_position dims index), make_element index, g).
  Proof.
    intros NE B F M I. pose proof (read_no_checks fuel thr hint dims t index NE B F M I) as R.
    destruct (make_spec fuel thr hint dims t NE F M) as [D X]. unfold splice_visit. cbn [fst snd]. rewrite D.
    rewrite (offset_exact true) by assumption. cbn [tbind]. unfold elem_no_checks in R. rewrite D, (offset_exact true) in R by assumption. cbn [tbind] in R.
    change (position true dims index) with (column_position dims index) in *. destruct (tn_storage t).
    - rewrite R. reflexivity.
    - reflexivity.
  Qed.
  Definition visit_of (dims index : list nat) : list nat * N * E := (index, N.of_nat (column_position dims index), make_element index).
  Lemma range_run_spec fuel thr hint dims t lo hi : dims <> [] -> small dims -> volume dims <= fuel -> make fuel thr hint dims = Ret t ->
    (lo <> [] /\ Forall2 le lo hi /\ Forall2 le hi dims) ->
    range_run make_element fuel t lo hi = Ret (Value (map (fun p => (visit_of dims (fst p), snd p)) (numbered 0 (range_in_order true lo hi)))).
  Proof.
    intros NE B F M (NL & LE & H). unfold range_run.
    assert (I : forall x, between lo hi x -> index_of dims x).
    { clear - LE H. unfold between, in_box. revert dims H. induction LE as [|a b lo hi L LE IH]; intros dims H x Bx; inversion H as [|? d ? dims' H1 H2]; subst;
      cbn [List.combine] in Bx; inversion Bx as [|? c ? x' B1 B2]; subst; [constructor|]. cbn in B1. constructor; [lia|]. now apply IH. }
    rewrite mdoi_run_spec; [|exact NL|exact LE|].
    - cbn [bind]. f_equal. apply tmap_value. intros [x g] Hp. apply (in_map fst) in Hp. rewrite numbered_fst in Hp. cbn [fst] in Hp. apply range_in in Hp.
      rewrite (splice_visit_spec fuel thr hint dims t x g NE B F M); [reflexivity|now apply I].
    - rewrite box_length. apply Nat.le_trans with (volume dims); [|exact F]. clear - LE H.
      revert dims H. induction LE as [|a b lo hi L LE IH]; intros dims H; inversion H as [|? d ? dims' H1 H2]; subst; [cbn; lia|].
      cbn [List.combine fold_right fst snd]. rewrite volume_cons. specialize (IH _ H2). nia.
  Qed.
  Lemma splice_spec fuel thr hint dims t lo hi : dims <> [] -> small dims -> volume dims <= fuel -> make fuel thr hint dims = Ret t ->
    (corners dims lo hi -> exists l, splice_run make_element fuel t lo hi = Ret (Value (map (fun p => (visit_of dims (fst p), snd p)) (numbered 0 l))) /\
       StronglySorted (fun x y => column_position dims x < column_position dims y) l /\ (forall x, In x l <-> between lo hi x)) /\
    (~ corners dims lo hi -> splice_run make_element fuel t lo hi = Ret Throws).
  Proof.
    intros NE B F M. destruct (make_spec fuel thr hint dims t NE F M) as [D X]. unfold splice_run. rewrite D. split; intro C.
    - rewrite (proj2 (validate_range_spec dims lo hi) C). exists (range_in_order true lo hi). split; [|split].
      + apply (range_run_spec fuel thr hint dims t); try assumption. destruct C as (C1 & C2 & C3). split; [now apply (index_of_nil dims)|auto].
      + now apply (range_sorted true).
      + intro x. apply range_in.
    - destruct (validate_range_cases dims lo hi) as [V|V]; rewrite V; [|reflexivity]. exfalso. apply C. now apply validate_range_spec.
  Qed.
  Lemma data_visits_spec dims l k : small dims -> (forall j x, nth_error l j = Some x -> index_of dims x /\ column_position dims x = k + j) ->
    data_visits dims (N.of_nat k) (map make_element l) = Value (map (visit_of dims) l).
  Proof.
    intros B. revert k. induction l as [|x l IH]; intros k H; [reflexivity|]. cbn [map data_visits].
    destruct (H 0 x eq_refl) as [I P]. rewrite Nat.add_0_r in P. rewrite <- P. change (column_position dims x) with (position true dims x).
    rewrite index_exact by assumption. cbn [tbind]. rewrite <- Nat2N.inj_succ. change (position true dims x) with (column_position dims x). rewrite P.
    rewrite IH; [|intros j y Y; destruct (H (S j) y Y) as [I' P']; split; [exact I'|lia]]. cbn [tbind]. unfold visit_of. now rewrite P.
  Qed.
  Lemma full_range dims : dims <> [] -> range_in_order true (repeat 0 (length dims)) dims = indices_in_order true dims.
  Proof.
    intro NE. unfold range_in_order, indices_in_order. f_equal. f_equal. rewrite mrange_rev. f_equal. clear NE.
    induction dims as [|d dims IH]; [reflexivity|]. cbn [length repeat List.combine map]. now rewrite IH.
  Qed.
  Lemma full_spec fuel thr hint dims t : dims <> [] -> small dims -> volume dims <= fuel -> make fuel thr hint dims = Ret t ->
    full_run make_element fuel t = Ret (Value (map (visit_of dims) (indices_in_order true dims))).
  Proof.
    intros NE B F M. destruct (make_spec fuel thr hint dims t NE F M) as [D X]. unfold full_run. rewrite D. destruct (tn_storage t) eqn:St.
    - rewrite X by reflexivity. f_equal. change 0%N with (N.of_nat 0). apply data_visits_spec; [exact B|].
      intros j x Hx. apply in_order_nth in Hx. exact Hx.
    - rewrite (range_run_spec fuel thr hint dims t); try assumption.
      + cbn [bind tbind]. rewrite full_range by exact NE. f_equal. f_equal. rewrite map_map. cbn [fst].
        rewrite <- (numbered_fst 0 (indices_in_order true dims)) at 2. now rewrite map_map.
      + split; [destruct dims; [contradiction|discriminate]|]. split; [|clear; induction dims; constructor; auto].
        clear. induction dims as [|d dims IH]; cbn; constructor; [lia|exact IH].
  Qed.
  Lemma full_in_order fuel thr hint dims t : dims <> [] -> small dims -> volume dims <= fuel -> make fuel thr hint dims = Ret t ->
    exists l, full_run make_element fuel t = Ret (Value l) /\ length l = volume dims /\
      forall k index o e, nth_error l k = Some (index, o, e) <-> index_of dims index /\ column_position dims index = k /\ o = N.of_nat k /\ e = make_element index.
  Proof.
    intros NE B F M. exists (map (visit_of dims) (indices_in_order true dims)). split; [now apply (full_spec fuel thr hint)|].
    split; [now rewrite map_length, in_order_length|]. intros k index o e. split.
    - intro H. destruct (nth_error (indices_in_order true dims) k) as [x|] eqn:Q.
      + rewrite (map_nth_error (visit_of dims) k _ Q) in H. unfold visit_of in H. injection H as <- <- <-.
        apply in_order_nth in Q as [I P]. cbn [position] in P. split; [exact I|]. split; [exact P|]. split; [now f_equal|reflexivity].
      + apply nth_error_None in Q. assert (Z : nth_error (map (visit_of dims) (indices_in_order true dims)) k = None). { apply nth_error_None. now rewrite map_length. } congruence.
    - intros (I & P & -> & ->). replace (index, N.of_nat k, make_element index) with (visit_of dims index) by (unfold visit_of; now rewrite P).
      apply map_nth_error. apply in_order_nth. auto.
  Qed.
  (** Explicit and virtual storage show the same *)
  Lemma storage_invisible fuel thr1 thr2 hint1 hint2 dims t1 t2 : dims <> [] -> small dims -> volume dims <= fuel ->
    make fuel thr1 hint1 dims = Ret t1 -> make fuel thr2 hint2 dims = Ret t2 ->
    (forall index, elem make_element t1 index = elem make_element t2 index) /\
    (forall o, elem_at make_element t1 o = elem_at make_element t2 o) /\
    full_run make_element fuel t1 = full_run make_element fuel t2 /\
    (forall lo hi, splice_run make_element fuel t1 lo hi = splice_run make_element fuel t2 lo hi).
  Proof.
    intros NE B F M1 M2. split; [|split; [|split]].
    - intro index. destruct (validate_cases dims index) as [V|V].
      + apply validate_spec in V. destruct (read_index fuel thr1 hint1 dims t1 index NE B F M1) as [A _], (read_index fuel thr2 hint2 dims t2 index NE B F M2) as [A' _].
        now rewrite A, A'.
      + assert (W : ~ index_of dims index). { intro I. apply validate_spec in I. congruence. }
        destruct (read_index fuel thr1 hint1 dims t1 index NE B F M1) as [_ A], (read_index fuel thr2 hint2 dims t2 index NE B F M2) as [_ A']. now rewrite A, A'.
    - intro o. destruct (read_offset fuel thr1 hint1 dims t1 NE B F M1) as [A R], (read_offset fuel thr2 hint2 dims t2 NE B F M2) as [A' R'].
      destruct (N.lt_ge_cases o (N.of_nat (volume dims))) as [L|L].
      + destruct (every_position true dims (N.to_nat o)) as (x & I & P); [lia|]. cbn [position] in P.
        assert (Q : o = N.of_nat (column_position dims x)) by lia. rewrite Q, A, A' by exact I. reflexivity.
      + now rewrite R, R'.
    - now rewrite (full_spec fuel thr1 hint1 dims t1), (full_spec fuel thr2 hint2 dims t2).
    - intros lo hi. destruct (validate_range_cases dims lo hi) as [V|V].
      + apply validate_range_spec in V. unfold splice_run. destruct (make_spec fuel thr1 hint1 dims t1 NE F M1) as [-> _], (make_spec fuel thr2 hint2 dims t2 NE F M2) as [-> _].
        rewrite (proj2 (validate_range_spec dims lo hi) V).
        assert (C : lo <> [] /\ Forall2 le lo hi /\ Forall2 le hi dims). { destruct V as (C1 & C2 & C3). split; [now apply (index_of_nil dims)|auto]. }
        now rewrite (range_run_spec fuel thr1 hint1 dims t1), (range_run_spec fuel thr2 hint2 dims t2).
      + assert (W : ~ corners dims lo hi). { intro I. apply validate_range_spec in I. congruence. }
        destruct (splice_spec fuel thr1 hint1 dims t1 lo hi NE B F M1) as [_ A], (splice_spec fuel thr2 hint2 dims t2 lo hi NE B F M2) as [_ A'].
        now rewrite A, A'.
  Qed.
End AutoProofs.
Lemma range_size_spec dims lo hi : small dims -> corners dims lo hi -> range_size lo hi = N.of_nat (length (range_in_order true lo hi)).
Proof.
  intros B C. unfold range_size. rewrite one_wrap at 1. rewrite scan_product, N.mul_1_l.
  assert (V : volume (range_dims lo hi) = length (box (List.combine lo hi))).
  { rewrite box_length. unfold range_dims. generalize (List.combine lo hi). intro r. induction r as [|p r IH]; [reflexivity|]. cbn [map]. rewrite volume_cons, IH. reflexivity. }
  rewrite range_length, V. apply wrap_small. pose proof (range_box_small dims lo hi C). unfold small in B. lia.
Qed.
