(** Proofs about tables of names: what they contain. *)
From Coq Require Import NArith ZArith Arith Bool Ascii String List Lia.
From Verif Require Import CoreModel AlgModel LocModel InfModel TextModel TextSpec TextProofs TextNameProofs.
Import ListNotations.
Local Open Scope list_scope.

Lemma conj_raw mode raw i : i < raw -> conj_op (mk_pc raw mode) (raw_operator mode i) = match mode with SelfAdjoint => i | Bunched => raw + i | Interleaved => 2 * i + 1 end.
Proof.
  intros I. unfold conj_op, raw_operator, pc_num. cbn [pc_mode pc_raw]. destruct mode; [reflexivity| |].
  - rewrite Nat.mod_small by lia. lia.
  - unfold xor1. now rewrite Nat.even_mul.
Qed.
Section Table.
  Variables moved self_moved : text -> text.
  Variable mode : conj_mode.
  Variables (raw : nat) (l : list text).
  Notation pc := (mk_pc raw mode).
  Lemma t_made : (exists t, name_table moved self_moved mode raw l = Some t) <-> length l = raw /\ (forall n, In n l -> good_name n) /\ NoDup l.
  Proof.
    unfold name_table. destruct (Nat.eqb_spec (length l) raw) as [E|E].
    - assert (H : (exists ix, enter mode 0 l [] = Some ix) <-> (forall n, In n l -> good_name n) /\ NoDup l).
      { rewrite <- enter_ok, Forall_forall. split.
        - intros [F [D _]]. split; auto. intros n I. now apply valid_spec, F.
        - intros [F D]. repeat split; auto. intros n I. now apply valid_spec, F. }
      destruct (enter mode 0 l []) as [ix|].
      + split; [intros _|intros _; destruct mode; eexists; reflexivity]. split; [exact E|]. apply H. eexists; reflexivity.
      + split; [intros [t T]; discriminate|]. intros [_ G]. apply H in G. destruct G as [? G]. discriminate.
    - split; [intros [t T]; discriminate|]. intros [G _]. contradiction.
  Qed.
  Variable t : names.
  Hypothesis T : name_table moved self_moved mode raw l = Some t.
  Lemma facts : length l = raw /\ (forall n, In n l -> good_name n) /\ NoDup l. Proof. apply t_made. now exists t. Qed.
  Lemma stars_absent ix : enter mode 0 l [] = Some ix -> forall m, In m (map star l) -> find_name ix m = None.
  Proof.
    intros E m I. destruct (find_name ix m) as [v|] eqn:F; [|reflexivity]. apply (enter_find mode l 0 [] ix E) in F. destruct F as [F|[i [F _]]]; [discriminate|].
    apply nth_error_In in F. apply (proj1 (proj2 facts)) in F. apply valid_spec in F. apply in_map_iff in I. destruct I as [n [<- _]]. now rewrite star_not_valid in F.
  Qed.
  Lemma index_spec m v : find_name (nm_index t) m = Some v <->
    exists i n, nth_error l i = Some n /\ ((m = n /\ v = raw_operator mode i) \/ (m = star n /\ v = conj_op pc (raw_operator mode i))).
  Proof.
    destruct facts as [E [G D]]. pose proof T as T'. unfold name_table in T'. destruct (Nat.eqb_spec (length l) raw); [|contradiction].
    destruct (enter mode 0 l []) as [ix|] eqn:Ex; [|discriminate].
    assert (H : exists f, (forall i, i < raw -> f i = conj_op pc (raw_operator mode i)) /\ forall m v, find_name (nm_index t) m = Some v <-> find_name ix m = Some v \/ exists i n, nth_error l i = Some n /\ m = star n /\ v = f i).
    { pose proof (stars_absent ix Ex) as A. pose proof (nodup_star l D) as Ds. destruct mode eqn:Em.
      - injection T' as <-. exists (fun i => i). split; [intros i I; now rewrite conj_raw by assumption|]. intros m' v'. cbn [nm_index]. rewrite self_adds, find_adds; [rewrite in_numbered; reflexivity|rewrite keys_numbered; exact Ds|intros x; rewrite keys_numbered; apply A].
      - rewrite bunched_numbered in T'. injection T' as <-. exists (fun i => length l + i). split; [intros i I; rewrite conj_raw by assumption; lia|]. intros m' v'. cbn [nm_index snd].
        rewrite find_adds; [rewrite in_numbered; reflexivity|rewrite keys_numbered; exact Ds|intros x; rewrite keys_numbered; apply A].
      - injection T' as <-. exists (fun i => 2 * i + 1). split; [intros i I; now rewrite conj_raw by assumption|]. intros m' v'. cbn [nm_index snd].
        destruct (interleaved_spec moved self_moved l (length l) (l ++ repeat [] (length l)) ix ltac:(lia)) as [_ [_ ->]].
        + rewrite app_length, repeat_length. lia.
        + intros i I. now rewrite app_nth1.
        + intros i I. lia.
        + assert (K : map fst (map (fun i => (star (nth i l []), 2 * i + 1)) (rev (seq 0 (length l)))) = rev (map star l)).
          { rewrite map_map. cbn [fst]. rewrite map_rev. f_equal. rewrite <- (map_map (fun i => nth i l []) star). f_equal. clear.
            induction l as [|a q IH]; [reflexivity|]. cbn [length seq map nth]. f_equal. rewrite <- seq_shift, map_map. exact IH. }
          rewrite find_adds; [|rewrite K; now apply NoDup_rev|intros x I; rewrite K in I; apply A; now apply in_rev].
          split; (intros [F|F]; [now left|right]).
          * apply in_map_iff in F. destruct F as [i [F I]]. injection F as <- <-. apply in_rev, in_seq in I. exists i, (nth i l []). split; [apply nth_error_nth'; lia|auto].
          * destruct F as [i [n [F [-> ->]]]]. apply in_map_iff. exists i. split; [now rewrite (nth_error_nth l i [] F)|]. apply in_rev. rewrite rev_involutive. apply in_seq.
            assert (i < length l) by (apply nth_error_Some; congruence). lia. }
    destruct H as [f [Hf H]]. rewrite H, (enter_find mode l 0 [] ix Ex). split.
    - intros [[F|[i [F ->]]]|[i [n [F [-> ->]]]]].
      + discriminate.
      + exists i, m. split; [exact F|]. left. split; [reflexivity|]. unfold stride, raw_operator. destruct mode; lia.
      + exists i, n. split; [exact F|]. right. split; [reflexivity|]. apply Hf. rewrite <- E. apply nth_error_Some. congruence.
    - intros [i [n [F [[-> ->]|[-> ->]]]]].
      + left. right. exists i. split; [exact F|]. unfold stride, raw_operator. destruct mode; lia.
      + right. exists i, n. repeat split; auto. symmetry. apply Hf. rewrite <- E. apply nth_error_Some. congruence.
  Qed.
  Lemma good_nonempty n : good_name n -> n <> []. Proof. intros [c [r [-> _]]]. discriminate. Qed.
  Lemma good_at i n : nth_error l i = Some n -> good_name n. Proof. intros H. apply (proj1 (proj2 facts)). now apply nth_error_In in H. Qed.
  Lemma t_find i n : nth_error l i = Some n -> find_operator t n = Some (raw_operator mode i) /\ find_operator t (star n) = Some (conj_op pc (raw_operator mode i)).
  Proof.
    intros H. split; unfold find_operator.
    - destruct n as [|c r] eqn:En; [now apply good_at, good_nonempty in H|]. rewrite <- En in *. apply index_spec. exists i, n. auto.
    - destruct (star n) as [|c r] eqn:En; [destruct n; discriminate|]. rewrite <- En. apply index_spec. exists i, n. auto.
  Qed.
  Lemma t_found m o : find_operator t m = Some o ->
    exists i n, nth_error l i = Some n /\ ((m = n /\ o = raw_operator mode i) \/ (m = star n /\ o = conj_op pc (raw_operator mode i))).
  Proof. unfold find_operator. destruct m as [|c r]; [discriminate|]. apply index_spec. Qed.
  (** the names in the table *)
  Lemma names_spec : length (nm_names t) = pc_num pc /\
    forall o, o < pc_num pc -> exists i n, nth_error l i = Some n /\
      ((o = raw_operator mode i /\ nth o (nm_names t) [] = if Nat.eqb o 0 then match mode with Interleaved => self_moved n | _ => n end else n) \/ (o = conj_op pc (raw_operator mode i) /\ nth o (nm_names t) [] = star n)).
  Proof.
    destruct facts as [E [G D]]. pose proof T as T'. unfold name_table in T'. destruct (Nat.eqb_spec (length l) raw); [|contradiction].
    destruct (enter mode 0 l []) as [ix|] eqn:Ex; [|discriminate]. pose proof (conj_raw mode raw) as CR. unfold pc_num. cbn [pc_mode pc_raw]. destruct mode eqn:Em.
    - injection T' as <-. cbn [nm_names]. split; [exact E|]. intros o O. exists o, (nth o l []). split; [apply nth_error_nth'; lia|]. left. cbn. split; [reflexivity|]. now destruct (Nat.eqb o 0).
    - rewrite bunched_numbered in T'. injection T' as <-. cbn [nm_names fst]. rewrite app_length, map_length. split; [lia|]. intros o O. destruct (Nat.lt_ge_cases o raw) as [H|H].
      + exists o, (nth o l []). split; [apply nth_error_nth'; lia|]. left. rewrite app_nth1 by lia. split; [reflexivity|]. now destruct (Nat.eqb o 0).
      + exists (o - raw), (nth (o - raw) l []). split; [apply nth_error_nth'; lia|]. right. split; [rewrite CR by lia; lia|].
        rewrite app_nth2 by lia. rewrite E. rewrite (nth_indep (map star l) [] (star [])) by (rewrite map_length; lia). apply map_nth.
    - injection T' as <-. cbn [nm_names].
      destruct (interleaved_spec moved self_moved l (length l) (l ++ repeat [] (length l)) ix ltac:(lia)) as [A [B _]].
      + rewrite app_length, repeat_length. lia.
      + intros i I. now rewrite app_nth1.
      + intros i I. lia.
      + cbn zeta in A, B. split; [rewrite A; lia|]. intros o O. destruct (Nat.Even_or_Odd o) as [[i ->]|[i ->]].
        * exists i, (nth i l []). split; [apply nth_error_nth'; lia|]. left. split; [reflexivity|]. rewrite (proj1 (B i ltac:(lia))).
          destruct (Nat.eqb_spec i 0) as [->|]; [reflexivity|]. destruct (Nat.eqb_spec (2 * i) 0); [lia|reflexivity].
        * exists i, (nth i l []). split; [apply nth_error_nth'; lia|]. right. split; [now rewrite CR by lia|]. apply B. lia.
  Qed.
  Lemma text_at o : o < pc_num pc -> operator_text t o = nth o (nm_names t) [].
  Proof. intros O. unfold operator_text. rewrite (proj1 names_spec). apply Nat.ltb_lt in O. now rewrite O. Qed.
  Lemma t_round o : o < pc_num pc -> mode <> Interleaved \/ o <> 0 \/ (forall n, self_moved n = n) -> find_operator t (operator_text t o) = Some o.
  Proof.
    intros O H. rewrite text_at by assumption. destruct (proj2 names_spec o O) as [i [n [F [[Eo ->]|[Eo ->]]]]]; rewrite Eo at 2 || rewrite Eo at 1.
    - assert ((if Nat.eqb o 0 then match mode with Interleaved => self_moved n | _ => n end else n) = n) as ->.
      { destruct (Nat.eqb_spec o 0); [|reflexivity]. destruct mode; auto. destruct H as [H|[H|H]]; [congruence|congruence|apply H]. }
      now apply t_find.
    - now apply t_find.
  Qed.
  Lemma piece o : o < pc_num pc -> mode <> Interleaved \/ (forall n, self_moved n = n) -> exists n, good_name n /\ (nth o (nm_names t) [] = n \/ nth o (nm_names t) [] = star n).
  Proof.
    intros O H. destruct (proj2 names_spec o O) as [i [n [F [[Eo ->]|[Eo ->]]]]]; exists n; split; try (now apply good_at in F); auto. left.
    destruct (Nat.eqb o 0); [|reflexivity]. destruct mode; auto. destruct H as [H|H]; [congruence|apply H].
  Qed.
  Lemma single_all : nm_single t = true -> forall n, In n l -> exists c, n = [c].
  Proof.
    pose proof T as T'. unfold name_table in T'. destruct (Nat.eqb_spec (length l) raw); [|discriminate]. destruct (enter mode 0 l []); [|discriminate].
    intros H n I. assert (S : forallb (fun n => Nat.eqb (length n) 1) l = true) by (destruct mode; injection T' as <-; exact H).
    rewrite forallb_forall in S. specialize (S n I). apply Nat.eqb_eq in S. destruct n as [|c [|? ?]]; try discriminate. now exists c.
  Qed.
End Table.
