(** Instances for the examples: CHSH and one qubit, over the rationals; and wrong rows. *)
From Coq Require Import NArith ZArith QArith Qcanon Arith Bool List Lia.
From Verif Require Import CoreModel CoreSpec CoreProofs FieldModel FieldProofs SymModel SymSpec SymProofs SymFinalProofs SymInstModel SymInstProofs SymWitnessProofs.
From Verif Require Import PolyModel PolySpec PolyProofs PolyOrderProofs PolyFinalProofs PolyWitnessProofs PolyTableProofs ChshProofs ChshWitnessProofs RawModel RawSpec RawProofs RawTableProofs FacModel.
From Verif Require Import PioWitnessProofs StgWitnessProofs RowModel RowSpec RowProofs.
Import ListNotations.
Local Open Scope list_scope.
Local Open Scope nat_scope.
Notation Q' := Qc_rfield.

Lemma canonical_good (R : rfield) t (lt : mono R -> mono R -> bool) p : PolySpec.canonical t lt p -> Forall (good_term t) p.
Proof. intros CP. apply Forall_forall. intros x I. destruct (cp_terms t lt p CP x I) as (_ & _ & N & H). split; [exact H|]. intro Z. congruence. Qed.

Lemma chsh_numbered : numbered chsh_table.
Proof. apply (clean_numbered chsh_sctx chsh_words chsh_table chsh_lawful). exists chsh_ops. split; [exact chsh_ops_ok|exact chsh_run]. Qed.
Lemma chsh_clean : clean_words chsh_sctx chsh_table.
Proof. exact (clean_of chsh_sctx chsh_words chsh_lawful chsh_table chsh_unsigned chsh_real chsh_reach chsh_plain chsh_flagged). Qed.
Definition chsh_list : list hseq := [hseq_make 4 [1;0] SPos; hseq_make 4 [0;2] SNeg; hseq_make 4 [0;1] SIm].
Lemma chsh_list_ok : Forall chsh_words chsh_list.
Proof. repeat (constructor; [apply chsh_word; [reflexivity|cbn; lia]|]). constructor. Qed.
Lemma chsh_known : exists rs, word_rows_full (R:=Q') chsh_sctx chsh_table chsh_list = ROk rs.
Proof. apply rows_all. intros q [<-|[<-|[<-|[]]]]; eexists; reflexivity. Qed.
Lemma chsh_worded : forall x, In x chsh_poly -> symbol_word chsh_table (m_id x) <> None.
Proof. intros x [<-|[<-|[<-|[<-|[]]]]]; vm_compute; discriminate. Qed.
Lemma chsh_rows : exists rs, poly_rows chsh_sctx true chsh_table chsh_poly = ROk rs.
Proof. apply (poly_rows_ok chsh_sctx chsh_words chsh_lawful Q' flat_E chsh_expectation); [exact chsh_reach|exact chsh_numbered|exact chsh_clean|exact (canonical_good _ _ _ _ chsh_canonical)|exact chsh_worded]. Qed.
(** a matrix of terms beside the words they were made from *)
Definition chsh_cells : list (mono Q') := [mq 1 false 1 0; mq 2 true 2 1; mq 3 false 0 1].
Definition chsh_cell_words : list hseq := [hseq_const false; hseq_make 4 [1;0] SPos; hseq_make 4 [0;2] SPos].
Lemma chsh_cells_ok : Forall2 (fun x q => chsh_words q /\ answers chsh_sctx chsh_table q (m_id x) (m_cj x)) chsh_cells chsh_cell_words.
Proof.
  constructor; [|constructor; [|constructor; [|constructor]]].
  - split; [change (hseq_const false) with (hseq_make 4 [] SPos); apply chsh_word; [reflexivity|cbn; lia]|]. exists (hseq_const false). split; reflexivity.
  - split; [apply chsh_word; [reflexivity|cbn; lia]|]. exists (hseq_make 4 [0;1] SPos). split; [vm_compute; reflexivity|]. split; [vm_compute; reflexivity|]. intro H. vm_compute in H. discriminate H.
  - split; [apply chsh_word; [reflexivity|cbn; lia]|]. exists (hseq_make 4 [0;2] SPos). split; [vm_compute; reflexivity|]. vm_compute. reflexivity.
Qed.
Lemma chsh_matrix : exists rs, matrix_rows chsh_table chsh_cells chsh_cell_words = ROk rs.
Proof. apply pair_rows_ok. repeat (constructor; [vm_compute; lia|]). constructor. Qed.
Definition chsh_raw : list (hseq * cx Q') := [(hseq_make 4 [1;0] SPos, cq 2 1); (hseq_make 4 [0;2] SPos, cq (-1) 0)].
Definition chsh_singles : list (list (mono Q')) := [[]; [mq 2 true 3 1]; [mq 3 false 2 0]].

Lemma chsh_singles_ok : Forall (fun p => Forall (good_term chsh_table) p /\ length p <= 1 /\ forall x, In x p -> symbol_word chsh_table (m_id x) <> None) chsh_singles.
Proof.
  constructor; [|constructor; [|constructor; [|constructor]]].
  - split; [constructor|]. split; [cbn; lia|]. intros x [].
  - split; [|split; [cbn; lia|intros x [<-|[]]; vm_compute; discriminate]]. constructor; [|constructor]. split; [intros [H|H]; vm_compute in H; discriminate H|intro H; vm_compute in H; discriminate H].
  - split; [|split; [cbn; lia|intros x [<-|[]]; vm_compute; discriminate]]. constructor; [|constructor]. split; intros _; reflexivity.
Qed.
Lemma chsh_list_known : Forall (fun q => lk_symbol (where_ chsh_sctx chsh_table q) <> None) chsh_list.
Proof. repeat (constructor; [vm_compute; discriminate|]). constructor. Qed.

(** i Z, entered as the product X Y: the row says Z *)
Lemma up_numbered : numbered up_table.
Proof.
  apply (clean_numbered up_ctx up_words up_table up_lawful). exists [ORegister up_xy]. split; [|vm_compute; reflexivity]. constructor; [|constructor]. apply up_word; [apply up_over; reflexivity|cbn; lia].
Qed.
Lemma imaginary_lost : exists c V (E : hseq -> cx Q') t q r, lawful c V /\ unsigned_conj c V /\ expectation c V Q' E /\ reachable c V t /\ numbered t /\ V q /\ seq_row_full c t q = ROk r /\ row_value E r <> E q.
Proof.
  assert (Vq : up_words up_xy) by (apply up_word; [apply up_over; reflexivity|cbn; lia]). destruct (seq_row_full (R:=Q') up_ctx up_table up_xy) as [r|e] eqn:F.
  - exists up_ctx, up_words, up_E, up_table, up_xy, r. split; [exact up_lawful|]. split; [exact up_unsigned|]. split; [exact up_expectation|]. split; [exact up_reach|]. split; [exact up_numbered|]. split; [exact Vq|]. split; [exact F|].
    pose proof (full_row up_ctx up_words up_lawful Q' up_E up_expectation up_unsigned up_table up_xy up_reach up_numbered Vq) as K. rewrite F in K. destruct K as [H _]. rewrite (holds_value up_E up_xy r H).
    assert (C : r_coef r = c1). { unfold seq_row_full in F. change (lk_symbol (where_ up_ctx up_table up_xy)) with (Some 2) in F. cbn beta iota in F. destruct (nth_error (t_syms up_table) 2) as [s|]; [|discriminate F]. change (hs_negated up_xy) with false in F. cbn beta iota in F. assert (X : forall (a b : row (R:=Q')), ROk a = ROk b -> a = b) by congruence. apply X in F. now rewrite <- F. }
    rewrite C. assert (E1 : up_E (pos up_xy) = c1) by (apply cx_ext; reflexivity). assert (E2 : up_E up_xy = ci) by (apply cx_ext; reflexivity). rewrite E1, E2. intro X. apply (f_equal cim) in X. revert X. vm_compute. discriminate.
  - exfalso. pose proof (full_row up_ctx up_words up_lawful Q' up_E up_expectation up_unsigned up_table up_xy up_reach up_numbered Vq) as K. rewrite F in K. destruct K as [_ K]. vm_compute in K. discriminate K.
Qed.

(** a symbol without a word, in second place *)
Definition made_ops : list op := chsh_ops ++ [OCreate 1 true true].
Definition made_table : table := table_after chsh_sctx made_ops.
Definition made_poly : list (mono Q') := [mq 2 true 2 1; mq 4 false 1 0].
Lemma made_ops_ok : Forall (op_ok chsh_sctx chsh_words) made_ops.
Proof. apply Forall_app. split; [exact chsh_ops_ok|]. constructor; [exact I|constructor]. Qed.
Lemma made_run : run_ops chsh_sctx table_start made_ops = Done made_table tt. Proof. vm_compute. reflexivity. Qed.
Lemma made_reach : reachable chsh_sctx chsh_words made_table. Proof. apply clean_reachable. exists made_ops. split; [exact made_ops_ok|exact made_run]. Qed.
Lemma made_numbered : numbered made_table.
Proof. apply (clean_numbered chsh_sctx chsh_words made_table chsh_lawful). exists made_ops. split; [exact made_ops_ok|exact made_run]. Qed.
Lemma made_clean : clean_words chsh_sctx made_table.
Proof.
  split.
  - intros id w E. do 4 (destruct id as [|id]; [vm_compute in E; injection E as <-; reflexivity|]). destruct id as [|[|id]]; vm_compute in E; discriminate E.
  - intros id s w N Q H A. do 3 (destruct id as [|id]; [vm_compute in N; injection N as <-; cbn in Q; injection Q as <-; vm_compute; reflexivity|]). destruct id as [|[|id]]; vm_compute in N; try discriminate N. injection N as <-. discriminate Q.
Qed.
Lemma made_canonical : PolySpec.canonical made_table id_less made_poly. Proof. apply canonical_by. vm_compute. reflexivity. Qed.
Lemma made_error symbols : poly_rows chsh_sctx symbols made_table made_poly = RErr (RNoWordAt 1). Proof. destruct symbols; vm_compute; reflexivity. Qed.
Lemma position_lost : exists c V (lt : mono Q' -> mono Q' -> bool) t p x y, lawful c V /\ reachable c V t /\ numbered t /\ clean_words c t /\ PolySpec.canonical t lt p /\ p = [x; y] /\ symbol_word t (m_id x) <> None /\ symbol_word t (m_id y) = None /\
  poly_rows c true t p = RErr (RNoWordAt 1).
Proof.
  exists chsh_sctx, chsh_words, id_less, made_table, made_poly, (mq 2 true 2 1), (mq 4 false 1 0). split; [exact chsh_lawful|]. split; [exact made_reach|]. split; [exact made_numbered|]. split; [exact made_clean|]. split; [exact made_canonical|]. split; [reflexivity|].
  split; [vm_compute; discriminate|]. split; [vm_compute; reflexivity|]. apply made_error.
Qed.

(** wrappers *)
Section Final.
  Context (c : sctx) (V : hseq -> Prop) (LW : lawful c V) (R : rfield) (E : hseq -> cx R) (EX : expectation c V R E) (UC : unsigned_conj c V).
  Lemma word_list_full t l : reachable c V t -> numbered t -> Forall V l ->
    ((exists rs, word_rows_full (R:=R) c t l = ROk rs) <-> Forall (fun q => exists id, lk_symbol (where_ c t q) = Some id) l) /\
    (forall e, word_rows_full (R:=R) c t l = RErr e -> e = RNoSymbol) /\
    forall rs, word_rows_full c t l = ROk rs -> Forall2 (fun q r => holds q r /\ (exists id, lk_symbol (where_ c t q) = Some id /\ tells t id (lk_conj (where_ c t q)) r) /\ (forall v, agrees E t v -> consistent E v r) /\
      (hs_sign q = SPos \/ hs_sign q = SNeg -> row_value E r = E q)) l rs.
  Proof.
    intros RT NB F. pose proof (proj1 (Forall_forall _ _) F) as FV. unfold word_rows_full. split; [|split].
    - rewrite rows_all, Forall_forall. split; intros H q I; specialize (H q I); pose proof (full_row c V LW R E EX UC t q RT NB (FV q I)) as K.
      + destruct H as [r H]. rewrite H in K. destruct K as (_ & (id & K & _) & _). now exists id.
      + destruct (seq_row_full c t q) as [r|e]; [now exists r|]. destruct K as [_ K]. destruct H as [id H]. congruence.
    - intros e H. apply rows_err in H. destruct H as (j & q & N & G & _). pose proof (full_row c V LW R E EX UC t q RT NB (FV q (nth_error_In _ _ N))) as K. rewrite G in K. tauto.
    - intros rs H. apply rows_iff in H. revert H. apply F2_mono. intros q r I H. pose proof (full_row c V LW R E EX UC t q RT NB (FV q I)) as K. now rewrite H in K.
  Qed.
  Lemma matrix_list t v (cells : list (mono R)) words : reachable c V t -> numbered t -> agrees E t v -> Forall2 (fun x q => V q /\ answers c t q (m_id x) (m_cj x)) cells words ->
    exists rs, matrix_rows t cells words = ROk rs /\ Forall2 (fun q r => holds q r) words rs /\ Forall2 (fun x r => r_coef r = m_f x /\ tells t (m_id x) (m_cj x) r /\ row_value E r = term_value v x) cells rs.
  Proof.
    intros RT NB AG F. destruct (pair_rows_ok R t cells words) as [rs H].
    { clear - F. induction F as [|x q l m [_ (w & W & _)] F IH]; constructor; [|exact IH]. apply nth_error_Some. unfold symbol_word in W. destruct (nth_error (t_syms t) (m_id x)); [discriminate|discriminate W]. }
    exists rs. split; [exact H|]. exact (pair_rows_spec c V LW R E EX UC t v cells words rs RT NB AG F H).
  Qed.
  Lemma singles t full l : reachable c V t -> numbered t -> clean_words c t -> Forall (fun p => Forall (good_term (R:=R) t) p /\ length p <= 1 /\ forall x, In x p -> symbol_word t (m_id x) <> None) l ->
    exists rs, single_rows full t l = ROk rs /\ Forall2 (fun p r => from_1 r /\ (r_info r = None <-> full = false) /\ forall v, agrees E t v -> row_value E r = value v p /\ consistent E v r) l rs.
  Proof.
    intros RT NB CW F. induction F as [|p l (G1 & G2 & G3) F IH]; [exists []; split; [reflexivity|constructor]|]. destruct IH as (rs & I1 & I2). destruct (single_row_spec c V LW R E EX t full p RT NB CW G1 G2 G3) as (r & S1 & S2).
    exists (r :: rs). split; [unfold single_rows in *; cbn [rows]; now rewrite S1, I1|]. constructor; assumption.
  Qed.
End Final.
(** Hermitian symbols: the conjugate has the same word *)
Lemma hermitian_rows (R : rfield) c t full id (f : cx R) s w : nth_error (t_syms t) id = Some s -> sy_herm s = true -> sy_seq s = Some w -> forall cj,
  (exists r, mono_row full t (mk_mono id cj f) = ROk r /\ holds w r /\ r_coef r = f) /\ exists r, poly_row c full t (mk_mono id cj f) = ROk r /\ holds w r /\ r_coef r = f.
Proof.
  intros N H Q cj. assert (S : stored s cj = Some w) by (unfold stored; rewrite H, Q; now destruct cj). unfold mono_row, poly_row. cbn [m_id m_cj m_f]. rewrite N, Q, S. split; (eexists; split; [reflexivity|split; [apply row_holds|reflexivity]]).
Qed.
Lemma chsh_hermitian : exists s w, nth_error (t_syms chsh_table) 3 = Some s /\ sy_herm s = true /\ sy_seq s = Some w.
Proof. eexists. eexists. split; [vm_compute; reflexivity|]. split; vm_compute; reflexivity. Qed.
