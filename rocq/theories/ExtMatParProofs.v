(** Extended matrices made by several threads: every execution. *)
From Coq Require Import List ZArith Arith Bool Sorted Permutation Lia.
From Verif Require Import CoreModel FieldModel FieldProofs AlgModel InfModel InfSpec TreeModel TreeSpec TreeProofs MatModel MatProofs
  FTabModel FTabSpec FTabListProofs FTabProofs FTabTableProofs FTabProductProofs FTabValueProofs ExtMatModel ExtMatSpec ExtMatProofs.
Import ListNotations.

Lemma find_split {V} : forall p q (t n : itree V), t_find_node p t = Some n -> t_find q n = t_find (p ++ q) t.
Proof. induction p as [|x p IH]; intros q t n H; cbn in *; [congruence|]. destruct (child x (t_children t)); [now apply IH|discriminate]. Qed.

Lemma upd_nth {X} (y : X) : forall l w x, w < length l -> nth_error (firstn w l ++ y :: skipn (S w) l) x = if x =? w then Some y else nth_error l x.
Proof.
  induction l as [|a l IH]; intros w x Lt; cbn in Lt; [lia|]. destruct w as [|w]; [destruct x; reflexivity|]. destruct x as [|x]; [reflexivity|]. cbn. apply IH. lia.
Qed.
Lemma upd_length {X} (y : X) : forall l w, w < length l -> length (firstn w l ++ y :: skipn (S w) l) = length l.
Proof. induction l as [|a l IH]; intros w Lt; cbn in Lt; [lia|]. destruct w as [|w]; [reflexivity|]. cbn. f_equal. apply IH. lia. Qed.

Section Par.
  Variables (outcomes : list nat) (srcs : list (list nat)) (nt : network) (L : nat).
  Hypothesis MK : make_network outcomes srcs = Some nt.
  Variables (A : Type) (mono : nat -> A) (t : ftab) (n : nat) (src : nat -> nat -> A) (progs : list (list action)).
  Notation sound_table := (sound_table srcs nt L).
  Notation factor_list := (factor_list srcs nt L).
  Hypothesis S1 : sound_table t.
  Hypothesis Good : forall ks, asked progs ks -> factor_list t ks.
  (** actions on the same cell are the same *)
  Hypothesis Same : forall p p' a a' x, In p progs -> In p' progs -> In a p -> In a' p' -> In x (cells_of n a) -> In x (cells_of n a') ->
    match a, a' with ACopy _, ACopy _ => True | AReq ks _, AReq ks' _ => ks = ks' | _, _ => False end.

  Definition given (defs : list (list nat * list (option word))) (ks : list nat) (id : nat) : Prop :=
    find_factors t ks = Some id \/ (find_factors t ks = None /\ exists i qs, nth_error defs i = Some (ks, qs) /\ id = length (ft_syms t) + i).
  Definition written (s : mstate A) (a : action) : Prop :=
    match a with
    | ACopy _ => forall i j, In (i, j) (cells_of n a) -> ms_mat s i j = src i j
    | AReq ks cells => exists id, given (ms_defs s) ks id /\ forall i j, In (i, j) cells -> ms_mat s i j = mono id
    end.
  Record inv (s : mstate A) : Prop := mk_inv {
    iv_len : length (ms_work s) = length progs;
    iv_index : indexes t (ms_defs s) (ms_tree s);
    iv_defs : forall ks qs, In (ks, qs) (ms_defs s) -> asked progs ks /\ find_factors t ks = None /\ Forall2 (symbol_seq t) ks qs;
    iv_nodes : forall p, has nat p (ms_tree s) -> p = [] \/ exists ks qs, In (ks, qs) (ms_defs s) /\ prefix p (key ks);
    iv_hint : forall w pc h prog, nth_error (ms_work s) w = Some (pc, Some h) -> nth_error progs w = Some prog ->
      exists ks cells, nth_error prog pc = Some (AReq ks cells) /\ key ks = fst h ++ snd h /\ has nat (fst h) (ms_tree s) /\ find_factors t ks = None;
    iv_written : forall w pc h prog k a, nth_error (ms_work s) w = Some (pc, h) -> nth_error progs w = Some prog -> nth_error prog k = Some a -> k < pc -> written s a }.

  Lemma key_app_inv ks p q : key ks = p ++ q -> exists a b, ks = a ++ b /\ p = key a /\ q = key b.
  Proof.
    unfold key. revert p q. induction ks as [|k ks IH]; intros p q E; destruct p as [|x p]; cbn in E; try discriminate.
    - exists [], []. auto.
    - exists [], (k :: ks). auto.
    - injection E as <- E. destruct (IH p q E) as [a [b [-> [-> ->]]]]. exists (k :: a), b. auto.
  Qed.
  Lemma given_fun defs tree ks i j : indexes t defs tree -> given defs ks i -> given defs ks j -> i = j.
  Proof.
    intros [_ Ix] [G|[G [a [qa [Ga ->]]]]] [H|[H [b [qb [Gb ->]]]]]; try congruence.
    assert (X : t_find (key ks) tree = Some (length (ft_syms t) + a)) by (apply Ix; eauto). assert (Y : t_find (key ks) tree = Some (length (ft_syms t) + b)) by (apply Ix; eauto). congruence.
  Qed.
  Lemma given_more defs d ks i : given defs ks i -> given (defs ++ [d]) ks i.
  Proof. intros [G|[G [a [q [Ga ->]]]]]; [now left|]. right. split; [exact G|]. exists a, q. split; [|reflexivity]. rewrite nth_error_app1; [exact Ga|]. apply nth_error_Some. congruence. Qed.
  Lemma asked_in w prog pc ks cells : nth_error progs w = Some prog -> nth_error prog pc = Some (AReq ks cells) -> asked progs ks.
  Proof. intros P E. exists prog, cells. split; eapply nth_error_In; eassumption. Qed.
  Lemma request_len ks : asked progs ks -> find_factors t ks = None -> 2 <= length ks.
  Proof.
    intros Hk F. pose proof (Good ks Hk) as G. destruct ks as [|a [|b ks]]; cbn; [destruct G as [G _]; congruence| |lia].
    exfalso. now apply (single_found outcomes srcs nt L MK t a S1 G).
  Qed.
  (** writing the cells of an action keeps what has been written *)
  Lemma written_put s s' w prog pc a w' prog' k b f :
    nth_error progs w = Some prog -> nth_error prog pc = Some a -> nth_error progs w' = Some prog' -> nth_error prog' k = Some b ->
    ms_mat s' = put (cells_of n a) f (ms_mat s) -> indexes t (ms_defs s') (ms_tree s') -> (forall ks id, given (ms_defs s) ks id -> given (ms_defs s') ks id) ->
    match a with ACopy _ => f = src | AReq ks _ => exists id, f = (fun _ _ => mono id) /\ given (ms_defs s') ks id end ->
    written s b -> written s' b.
  Proof.
    intros P Pa P' Pb Em Ix Gm Fa Wb. apply nth_error_In in P, Pa, P', Pb. unfold written in *. rewrite Em. destruct b as [col|ks cells].
    - intros i j I. destruct (in_dec (fun x y : nat * nat => ltac:(decide equality; apply Nat.eq_dec)) (i, j) (cells_of n a)) as [Ia|Na].
      + rewrite put_in by exact Ia. pose proof (Same _ _ _ _ _ P P' Pa Pb Ia I) as Sm. destruct a; [now rewrite Fa|contradiction].
      + rewrite put_out by exact Na. now apply Wb.
    - destruct Wb as [id [G Wb]]. exists id. split; [now apply Gm|]. intros i j I.
      destruct (in_dec (fun x y : nat * nat => ltac:(decide equality; apply Nat.eq_dec)) (i, j) (cells_of n a)) as [Ia|Na].
      + rewrite put_in by exact Ia. pose proof (Same _ _ _ _ _ P P' Pa Pb Ia I) as Sm. destruct a as [|ks' cells']; [contradiction|]. subst ks'.
        destruct Fa as [id' [-> G']]. f_equal. apply (given_fun (ms_defs s') (ms_tree s') ks id' id Ix G'). now apply Gm.
      + rewrite put_out by exact Na. now apply Wb.
  Qed.
  Lemma written_done s' prog w pc a f : nth_error progs w = Some prog -> nth_error prog pc = Some a ->
    (exists m, ms_mat s' = put (cells_of n a) f m) ->
    match a with ACopy _ => f = src | AReq ks _ => exists id, f = (fun _ _ => mono id) /\ given (ms_defs s') ks id end -> written s' a.
  Proof.
    intros P Pa [m Em] Fa. unfold written. destruct a as [col|ks cells].
    - intros i j I. rewrite Em, put_in by exact I. now subst f.
    - destruct Fa as [id [-> G]]. exists id. split; [exact G|]. intros i j I. rewrite Em. now rewrite put_in.
  Qed.
  (** a step that finishes the action *)
  Lemma inv_advance s s' w prog pc h a f : inv s -> nth_error (ms_work s) w = Some (pc, h) -> nth_error progs w = Some prog -> nth_error prog pc = Some a ->
    ms_work s' = ms_set s w (S pc) None -> ms_mat s' = put (cells_of n a) f (ms_mat s) ->
    indexes t (ms_defs s') (ms_tree s') -> (forall ks id, given (ms_defs s) ks id -> given (ms_defs s') ks id) ->
    (forall ks qs, In (ks, qs) (ms_defs s') -> asked progs ks /\ find_factors t ks = None /\ Forall2 (symbol_seq t) ks qs) ->
    (forall p, has nat p (ms_tree s') -> p = [] \/ exists ks qs, In (ks, qs) (ms_defs s') /\ prefix p (key ks)) ->
    (forall p, has nat p (ms_tree s) -> has nat p (ms_tree s')) ->
    match a with ACopy _ => f = src | AReq ks _ => exists id, f = (fun _ _ => mono id) /\ given (ms_defs s') ks id end -> inv s'.
  Proof.
    intros I Hw P Pa Ew Em Ix Gm Hd Hn Hh Fa. assert (Lw : w < length (ms_work s)) by (apply nth_error_Some; congruence).
    constructor; try assumption.
    - rewrite Ew. unfold ms_set. rewrite upd_length by exact Lw. apply I.
    - intros w' pc' h' prog' H P'. rewrite Ew in H. unfold ms_set in H. rewrite upd_nth in H by exact Lw. destruct (Nat.eqb_spec w' w); [discriminate|].
      destruct (iv_hint s I w' pc' h' prog' H P') as [ks [cells [B1 [B2 [B3 B4]]]]]. exists ks, cells. auto.
    - intros w' pc' h' prog' k b H P' Pb Lk. rewrite Ew in H. unfold ms_set in H. rewrite upd_nth in H by exact Lw. destruct (Nat.eqb_spec w' w) as [->|N].
      + injection H as <- <-. rewrite P in P'. injection P' as <-. destruct (Nat.eq_dec k pc) as [->|Nk].
        * rewrite Pa in Pb. injection Pb as <-. apply (written_done s' prog w pc a f); eauto.
        * apply (written_put s s' w prog pc a w prog k b f); try assumption. apply (iv_written s I w pc h prog k b); try assumption. lia.
      + apply (written_put s s' w prog pc a w' prog' k b f); try assumption. now apply (iv_written s I w' pc' h' prog' k b).
  Qed.
  Lemma inv_write s w prog pc h a f : inv s -> nth_error (ms_work s) w = Some (pc, h) -> nth_error progs w = Some prog -> nth_error prog pc = Some a ->
    match a with ACopy _ => f = src | AReq ks _ => exists id, f = (fun _ _ => mono id) /\ given (ms_defs s) ks id end -> inv (ms_write s w pc (cells_of n a) f).
  Proof. intros I Hw P Pa Fa. apply (inv_advance s _ w prog pc h a f); try assumption; try reflexivity; try apply I; auto. Qed.

  (** how far a worker is *)
  Definition far (s : mstate A) (w : nat) : nat := match nth_error (ms_work s) w with Some (pc, h) => 2 * pc + match h with Some _ => 1 | None => 0 end | None => 0 end.
  Lemma far_set s s' w pc h pc' h' : nth_error (ms_work s) w = Some (pc, h) -> ms_work s' = ms_set s w pc' h' ->
    far s' w = 2 * pc' + (match h' with Some _ => 1 | None => 0 end) /\ forall w', w' <> w -> far s' w' = far s w'.
  Proof.
    intros Hw Ew. assert (Lw : w < length (ms_work s)) by (apply nth_error_Some; congruence). unfold far. rewrite Ew. unfold ms_set. split.
    - rewrite upd_nth by exact Lw. now rewrite Nat.eqb_refl.
    - intros w' N. rewrite upd_nth by exact Lw. destruct (Nat.eqb_spec w' w); [contradiction|reflexivity].
  Qed.
  Definition advances (s s' : mstate A) (w : nat) : Prop :=
    (forall w', far s w' <= far s' w') /\ forall prog, nth_error progs w = Some prog -> far s w < far s' w \/ 2 * length prog <= far s w.
  Lemma advances_set s s' w pc h pc' h' : nth_error (ms_work s) w = Some (pc, h) -> ms_work s' = ms_set s w pc' h' ->
    2 * pc + (match h with Some _ => 1 | None => 0 end) < 2 * pc' + (match h' with Some _ => 1 | None => 0 end) -> advances s s' w.
  Proof.
    intros Hw Ew Lt. destruct (far_set s s' w pc h pc' h' Hw Ew) as [B1 B2]. assert (B0 : far s w = 2 * pc + match h with Some _ => 1 | None => 0 end) by (unfold far; now rewrite Hw).
    split; [|intros prog P; left; lia]. intros w'. destruct (Nat.eq_dec w' w) as [->|N]; [lia|]. now rewrite B2.
  Qed.

  Lemma step_ok s w : inv s -> w < length progs -> (exists s', mstep mono t n src progs s w = FOk s' /\ inv s' /\ advances s s' w) \/ (mstep mono t n src progs s w = FTerminate /\ clash t progs).
  Proof.
    intros I Lw. unfold mstep. destruct (nth_error progs w) as [prog|] eqn:P; [|apply nth_error_None in P; lia].
    destruct (nth_error (ms_work s) w) as [[pc h]|] eqn:Hw; [|apply nth_error_None in Hw; rewrite (iv_len s I) in Hw; lia].
    destruct (nth_error prog pc) as [[col|ks cells]|] eqn:Pa.
    - left. eexists. split; [reflexivity|]. split.
      + apply (inv_write s w prog pc h (ACopy col) src); try assumption. reflexivity.
      + eapply advances_set; [exact Hw|reflexivity|destruct h; cbn -[Nat.mul]; lia].
    - pose proof (asked_in w prog pc ks cells P Pa) as Ak. pose proof (Good ks Ak) as Gk. destruct h as [[pre rem]|].
      + unfold register. destruct (iv_hint s I w pc (pre, rem) prog Hw P) as [ks' [cells' [B1 [B2 [B3 B4]]]]]. rewrite Pa in B1. injection B1 as <- <-. cbn [fst snd] in *.
        destruct (sequences_ok (ft_syms t) ks) as [qs [Q1 Q2]]. { intros k Ik. destruct Gk as [_ [_ Gk]]. destruct (Gk k Ik) as [q [X _]]. now exists q. }
        rewrite Q1. cbn [fbind]. unfold has in B3. destruct (t_find_node pre (ms_tree s)) as [node|] eqn:Fn; [|congruence].
        rewrite (find_split pre rem (ms_tree s) node Fn), <- B2. destruct (iv_index s I) as [[hs Eh] Ix].
        destruct (t_find (key ks) (ms_tree s)) as [id|] eqn:Ft.
        * left. eexists. split; [reflexivity|]. split.
          -- apply (inv_write s w prog pc (Some (pre, rem)) (AReq ks cells) (fun _ _ => mono id)); try assumption. exists id. split; [reflexivity|]. right. split; [exact B4|]. apply Ix. exact Ft.
          -- eapply advances_set; [exact Hw|reflexivity|cbn -[Nat.mul]; lia].
        * left. eexists. split; [reflexivity|].
          assert (Nk : forall i q, nth_error (ms_defs s) i <> Some (ks, q)). { intros i q E. assert (t_find (key ks) (ms_tree s) = Some (length (ft_syms t) + i)) by (apply Ix; eauto). congruence. }
          split; [|eapply advances_set; [exact Hw|reflexivity|cbn -[Nat.mul]; lia]].
          assert (Ix' : indexes t (ms_defs s ++ [(ks, qs)]) (t_add (key ks) (length (ft_syms t) + length (ms_defs s)) (ms_tree s))).
          { split; [exists (TAdd hs (key ks) (length (ft_syms t) + length (ms_defs s))); now rewrite Eh|]. intros ks' k. rewrite Eh, find_add by apply eval_sorted. rewrite <- Eh.
            destruct (path_eq_dec (key ks') (key ks)) as [E|N].
            - apply key_inj in E. subst ks'. split.
              + intros E. injection E as <-. exists (length (ms_defs s)), qs. rewrite nth_error_app2, Nat.sub_diag by lia. auto.
              + intros [i [q [E ->]]]. destruct (Nat.lt_ge_cases i (length (ms_defs s))) as [H|H].
                * rewrite nth_error_app1 in E by exact H. exfalso. now apply (Nk i q).
                * assert (i < length (ms_defs s ++ [(ks, qs)])) as H' by (apply nth_error_Some; congruence). rewrite app_length in H'. cbn in H'. do 2 f_equal. lia.
            - rewrite Ix. split; intros [i [q [E ->]]]; exists i, q; (split; [|reflexivity]).
              + rewrite nth_error_app1; [exact E|]. apply nth_error_Some. congruence.
              + destruct (Nat.lt_ge_cases i (length (ms_defs s))) as [H|H]; [now rewrite nth_error_app1 in E|]. rewrite nth_error_app2 in E by exact H.
                destruct (i - length (ms_defs s)) as [|[|d]]; cbn in E; try discriminate. injection E as <- <-. congruence. }
          apply (inv_advance s _ w prog pc (Some (pre, rem)) (AReq ks cells) (fun _ _ => mono (length (ft_syms t) + length (ms_defs s)))); try assumption; try reflexivity; cbn [ms_defs ms_tree].
          -- intros ks' id G. now apply given_more.
          -- intros ks' q Iq. apply in_app_iff in Iq. destruct Iq as [Iq|[E|[]]]; [now apply (iv_defs s I)|]. injection E as <- <-. auto.
          -- intros p Hp. rewrite Eh in Hp. apply has_add in Hp; [|apply eval_sorted]. rewrite <- Eh in Hp. destruct Hp as [Hp|Hp].
             ++ right. exists ks, qs. split; [apply in_app_iff; right; now left|exact Hp].
             ++ destruct (iv_nodes s I p Hp) as [->|[ks' [q [X Y]]]]; [now left|]. right. exists ks', q. split; [apply in_app_iff; now left|exact Y].
          -- intros p Hp. rewrite Eh. apply has_add; [apply eval_sorted|]. right. now rewrite <- Eh.
          -- exists (length (ft_syms t) + length (ms_defs s)). split; [reflexivity|]. right. split; [exact B4|]. exists (length (ms_defs s)), qs. rewrite nth_error_app2, Nat.sub_diag by lia. auto.
      + unfold look. destruct (find_factors t ks) as [id|] eqn:F.
        * left. eexists. split; [reflexivity|]. split.
          -- apply (inv_write s w prog pc None (AReq ks cells) (fun _ _ => mono id)); try assumption. exists id. split; [reflexivity|]. now left.
          -- eapply advances_set; [exact Hw|reflexivity|cbn -[Nat.mul]; lia].
        * pose proof (hint_spec nat (key ks) (ms_tree s)) as Hs. destruct (t_hint (key ks) (ms_tree s)) as [node rest]. destruct Hs as [pre [E [Fn Hr]]]. destruct rest as [|x rest].
          -- rewrite app_nil_r in E. subst pre. destruct (iv_index s I) as [[hs Eh] Ix]. destruct (t_value node) as [id|] eqn:V.
             ++ left. eexists. split; [reflexivity|]. split.
                ** apply (inv_write s w prog pc None (AReq ks cells) (fun _ _ => mono id)); try assumption. exists id. split; [reflexivity|]. right. split; [exact F|]. apply Ix. now rewrite find_node_value, Fn.
                ** eapply advances_set; [exact Hw|reflexivity|cbn -[Nat.mul]; lia].
             ++ right. split; [reflexivity|]. destruct (iv_nodes s I (key ks)) as [E|[ks' [qs [X [r Y]]]]].
                { unfold has. congruence. }
                { unfold key in E. apply map_eq_nil in E. exfalso. now apply (proj1 Gk). }
                destruct (iv_defs s I ks' qs X) as [D1 [D2 _]]. 
                destruct (key_app_inv ks' (key ks) r Y) as [a [b [-> [Ea _]]]]. apply key_inj in Ea. subst a. destruct b as [|y b]; [|now exists ks, y, b].
                exfalso. rewrite app_nil_r in *. apply In_nth_error in X. destruct X as [i X]. assert (t_find (key ks) (ms_tree s) = Some (length (ft_syms t) + i)) as Z by (apply Ix; eauto).
                rewrite find_node_value, Fn, V in Z. discriminate.
          -- left. eexists. split; [reflexivity|]. split; [|eapply advances_set; [exact Hw|reflexivity|cbn -[Nat.mul]; lia]].
             assert (Lw' : w < length (ms_work s)) by (rewrite (iv_len s I); exact Lw).
             constructor; cbn [ms_tree ms_defs ms_mat ms_work]; try apply I.
             ++ unfold ms_set. rewrite upd_length by exact Lw'. apply I.
             ++ intros w' pc' h' prog' H P'. unfold ms_set in H. rewrite upd_nth in H by exact Lw'. destruct (Nat.eqb_spec w' w) as [->|N].
                ** injection H as <- <-. rewrite P in P'. injection P' as <-. exists ks, cells. split; [exact Pa|]. cbn [fst snd].
                   assert (Ef : firstn (length ks - length (x :: rest)) (key ks) = pre).
                   { rewrite E. assert (Ll : length ks = length pre + length (x :: rest)) by (rewrite <- app_length, <- E; unfold key; now rewrite map_length).
                     rewrite Ll. replace (length pre + length (x :: rest) - length (x :: rest)) with (length pre) by lia. rewrite firstn_app, firstn_all, Nat.sub_diag. cbn. now rewrite app_nil_r. }
                   match goal with |- context [firstn ?q (key ks)] => change (firstn q (key ks)) with (firstn (length ks - length (x :: rest)) (key ks)) end.
                   rewrite Ef. split; [exact E|]. split; [|exact F]. unfold has. congruence.
                ** now apply (iv_hint s I w' pc' h' prog').
             ++ intros w' pc' h' prog' k b H P' Pb Lk. unfold ms_set in H. rewrite upd_nth in H by exact Lw'. destruct (Nat.eqb_spec w' w) as [->|N].
                ** injection H as <- <-. rewrite P in P'. injection P' as <-. apply (iv_written s I w pc None prog k b); assumption.
                ** now apply (iv_written s I w' pc' h' prog' k b).
    - left. exists s. split; [now destruct h|]. split; [exact I|]. split; [auto|]. intros prog' P'. assert (prog' = prog) as -> by congruence. right. apply nth_error_None in Pa. unfold far. rewrite Hw. lia.
  Qed.
  Lemma idle_step s w : length progs <= w -> mstep mono t n src progs s w = FOk s.
  Proof. intros H. unfold mstep. apply nth_error_None in H. rewrite H. now destruct (nth_error (ms_work s) w) as [[? ?]|]. Qed.

  Lemma start_inv : inv (mstart mono progs).
  Proof.
    constructor; cbn [mstart ms_work ms_tree ms_defs ms_mat].
    - apply map_length.
    - split; [now exists TNew|]. intros ks k. change (t_find (key ks) (t_eval (V := nat) TNew) = Some k <-> exists i qs, nth_error (@nil (list nat * list (option word))) i = Some (ks, qs) /\ k = length (ft_syms t) + i).
      rewrite find_entry. cbn. split; [discriminate|]. intros [[|i] [qs [E _]]]; discriminate.
    - intros ks qs [].
    - intros p Hp. apply (has_present nat TNew) in Hp. now left.
    - intros w pc h prog H. rewrite nth_error_map in H. destruct (nth_error progs w); discriminate.
    - intros w pc h prog k a H _ _ Lk. rewrite nth_error_map in H. destruct (nth_error progs w); [|discriminate]. injection H as <- <-. lia.
  Qed.
  Lemma run_ok : forall order s, inv s ->
    (exists s', mrun mono t n src progs s order = FOk s' /\ inv s' /\
       forall w prog, nth_error progs w = Some prog -> far s w + count_occ Nat.eq_dec order w <= far s' w \/ 2 * length prog <= far s' w) \/
    (mrun mono t n src progs s order = FTerminate /\ clash t progs).
  Proof.
    induction order as [|w order IH]; intros s I.
    - left. exists s. split; [reflexivity|]. split; [exact I|]. intros. left. cbn. lia.
    - cbn [mrun]. destruct (Nat.lt_ge_cases w (length progs)) as [Lw|Lw].
      + destruct (step_ok s w I Lw) as [[s1 [E [I1 [Ad1 Ad2]]]]|[E C]]; [|right; now rewrite E]. rewrite E. cbn [fbind].
        destruct (IH s1 I1) as [[s' [E' [I' Ad']]]|[E' C]]; [|right; auto]. left. exists s'. split; [exact E'|]. split; [exact I'|]. intros w' prog P.
        cbn [count_occ]. pose proof (Ad1 w'). destruct (Nat.eq_dec w w') as [->|N].
        * destruct (Ad2 prog P) as [Lt|Dn].
          -- destruct (Ad' w' prog P); [left; lia|now right].
          -- right. destruct (Ad' w' prog P); [lia|assumption].
        * destruct (Ad' w' prog P); [left; lia|now right].
      + rewrite idle_step by exact Lw. cbn [fbind]. destruct (IH s I) as [[s' [E' [I' Ad']]]|[E' C]]; [|right; auto]. left. exists s'. split; [exact E'|]. split; [exact I'|]. intros w' prog P.
        cbn [count_occ]. destruct (Nat.eq_dec w w') as [->|N]; [|now apply Ad']. apply nth_error_None in Lw. congruence.
  Qed.
  Lemma run_done order s : (forall w prog, nth_error progs w = Some prog -> 2 * length prog <= count_occ Nat.eq_dec order w) ->
    mrun mono t n src progs (mstart mono progs) order = FOk s -> mdone progs s.
  Proof.
    intros Hc E. destruct (run_ok order (mstart mono progs) start_inv) as [[s' [E' [I' Ad]]]|[E' C]]; [|congruence]. rewrite E in E'. injection E' as <-.
    intros w pc h prog Hw P. specialize (Hc w prog P). destruct (Ad w prog P) as [H|H]; unfold far in H at 1 || idtac.
    - assert (2 * length prog <= far s w) as H' by lia. unfold far in H'. rewrite Hw in H'. destruct h; lia.
    - unfold far in H. rewrite Hw in H. destruct h; lia.
  Qed.

  (** * At the end *)
  Variable grow_to : nat -> nat.
  Lemma given_factors s ks id : inv s -> given (ms_defs s) ks id -> factors (fst (mfinish t grow_to s)) id ks.
  Proof.
    intros I G. assert (Hd : forall ks qs, In (ks, qs) (ms_defs s) -> factor_list t ks /\ 2 <= length ks /\ Forall2 (symbol_seq t) ks qs).
    { intros k qs Ik. destruct (iv_defs s I k qs Ik) as [D1 [D2 D3]]. split; [now apply Good|]. split; [now apply request_len|exact D3]. }
    destruct (register_all_spec srcs nt L grow_to t (ms_defs s) (ms_tree s) S1 (iv_index s I) Hd) as [B1 [B2 [B3 B4]]]. cbn.
    destruct G as [G|[G [i [qs [Gi ->]]]]]; [|now apply (B4 i ks qs)]. apply (grows_factors t); [exact B2|]. pose proof (find_spec srcs nt L t ks S1) as F. now rewrite G in F.
  Qed.
  Lemma finish_step s : inv s -> step_to srcs nt L t (fst (mfinish t grow_to s)).
  Proof.
    intros I. assert (Hd : forall ks qs, In (ks, qs) (ms_defs s) -> factor_list t ks /\ 2 <= length ks /\ Forall2 (symbol_seq t) ks qs).
    { intros k qs Ik. destruct (iv_defs s I k qs Ik) as [D1 [D2 D3]]. split; [now apply Good|]. split; [now apply request_len|exact D3]. }
    destruct (register_all_spec srcs nt L grow_to t (ms_defs s) (ms_tree s) S1 (iv_index s I) Hd) as [B1 [B2 [B3 B4]]]. cbn [mfinish fst]. split; [exact B1|]. split; [exact B2|].
    intros i j l Hi Fi Fj. set (t' := register_all grow_to t (ms_defs s) (ms_tree s)) in *.
    assert (B : forall x, factors t' x l -> x < length (ft_syms t) + length (ms_defs s)) by (intros x [e [He _]]; rewrite <- B3, <- (proj2 B1); apply nth_error_Some; congruence).
    pose proof (B i Fi) as Bi. pose proof (B j Fj) as Bj. set (i' := i - length (ft_syms t)). assert (i = length (ft_syms t) + i') as Ei by (unfold i'; lia).
    destruct (nth_error (ms_defs s) i') as [[ki qi]|] eqn:Ni; [|apply nth_error_None in Ni; lia]. pose proof (B4 i' ki qi Ni) as Fi'. rewrite <- Ei in Fi'. rewrite (factors_fun t' i l ki Fi Fi') in *.
    destruct (iv_defs s I ki qi (nth_error_In _ _ Ni)) as [D1 [D2 D3]]. destruct (iv_index s I) as [_ Ix]. assert (Ti : t_find (key ki) (ms_tree s) = Some i) by (apply Ix; eauto).
    destruct (Nat.lt_ge_cases j (length (ft_syms t))) as [Lj|Lj].
    - exfalso. apply (factors_back srcs nt L t t') in Fj; try assumption. pose proof (find_spec srcs nt L t ki S1) as F. rewrite D2 in F. destruct Fj as [e [He E]]. apply (F e); [eapply nth_error_In; exact He|exact E].
    - set (j' := j - length (ft_syms t)). assert (j = length (ft_syms t) + j') as Ej by (unfold j'; lia). destruct (nth_error (ms_defs s) j') as [[kj qj]|] eqn:Nj; [|apply nth_error_None in Nj; lia].
      pose proof (B4 j' kj qj Nj) as Fj'. rewrite <- Ej in Fj'. rewrite (factors_fun t' j ki kj Fj Fj') in *. assert (t_find (key kj) (ms_tree s) = Some j) by (apply Ix; eauto). congruence.
  Qed.
  Lemma done_written s p a : inv s -> mdone progs s -> In p progs -> In a p -> written s a.
  Proof.
    intros I Dn Ip Ia. apply In_nth_error in Ip. destruct Ip as [w P]. apply In_nth_error in Ia. destruct Ia as [k Pa].
    destruct (nth_error (ms_work s) w) as [[pc h]|] eqn:Hw. 2:{ apply nth_error_None in Hw. rewrite (iv_len s I) in Hw. apply nth_error_None in Hw. congruence. }
    apply (iv_written s I w pc h p k a Hw P Pa). pose proof (Dn w pc h p Hw P). assert (k < length p) by (apply nth_error_Some; congruence). lia.
  Qed.
End Par.
