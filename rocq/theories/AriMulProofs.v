(** Products of monomial matrices with operators. *)
From Coq Require Import List NArith ZArith Arith Bool Lia Sorted Field.
From Verif Require Import CoreModel CoreSpec FieldModel FieldProofs SymModel SymSpec SymProofs SymFinalProofs PolyModel PolySpec PolyProofs PolyOpsProofs PolyTableProofs PolyFinalProofs MatInstModel MatInstSpec MatInstProofs FacModel FacSpec FacRunProofs
  FacThmProofs RawModel BasModel BasFinalProofs AriModel AriSpec AriProofs.
Import ListNotations.

Section Mul.
  Variables (c : sctx) (V : hseq -> Prop).
  Hypothesis LW : lawful c V.
  Hypothesis UC : unsigned_conj c V.
  Variable R : rfield.
  Add Field Cf : (cx_field R).
  Add Field Rf : (r_field R).
  Notation mono := (mono R).

  (** the values respect the flags of the symbols that have words *)
  Definition respects (t : table) (v : nat -> cx R) : Prop := forall id s w, nth_error (t_syms t) id = Some s -> sy_seq s = Some w ->
    (sy_herm s = true -> cim (v id) = r0 R) /\ (sy_anti s = true -> cre (v id) = r0 R).
  Lemma assignment_respects t v : assignment t v -> respects t v.
  Proof. intros A id s w N _. split; intro H; [exact (as_herm t v A id s N H)|exact (as_anti t v A id s N H)]. Qed.
  Lemma zero_value (E : hseq -> cx R) t v : reachable c V t -> expectation c V R E -> agrees E t v -> v 0 = c0.
  Proof. intros RT HE AG. rewrite (AG 0 _ (proj1 (table_shape c V LW t RT))). change (pos (hseq_const true)) with (hseq_const true). exact (ex_zero c V R E HE). Qed.
  Lemma agrees_before (E : hseq -> cx R) t t' v : reachable c V t -> later c V t t' -> agrees E t' v -> agrees E t v.
  Proof.
    intros RT LT AG id w W. apply AG. rewrite (words_kept c V LW t t' id RT LT); [exact W|]. unfold symbol_word in W. destruct (nth_error (t_syms t) id) eqn:N; [|discriminate].
    apply nth_error_Some. congruence.
  Qed.
  Lemma flagged_respects (E : hseq -> cx R) t v : reachable c V t -> expectation c V R E -> flagged c t -> agrees E t v -> respects t v.
  Proof.
    intros RT HE FL AG id s w N W. assert (SW : symbol_word t id = Some w) by (unfold symbol_word; now rewrite N). rewrite (AG id w SW). destruct id as [|id].
    - pose proof (proj1 (table_shape c V LW t RT)) as Z. rewrite SW in Z. injection Z as ->. change (pos (hseq_const true)) with (hseq_const true). rewrite (ex_zero c V R E HE). split; reflexivity.
    - exact (flags_mean c V LW R E t id s w RT HE FL N W).
  Qed.
  Lemma real_conj (z : cx R) : cim z = r0 R -> cconj z = z.
  Proof. intro H. apply cx_ext; cbn; [reflexivity|]. rewrite H. ring. Qed.
  Lemma imag_conj (z : cx R) : cre z = r0 R -> cconj z = copp z.
  Proof. intro H. apply cx_ext; cbn; [rewrite H; ring|reflexivity]. Qed.
  Lemma canonical_value t v (x : mono) : respects t v -> v 0 = c0 -> symbol_word t (m_id x) <> None -> term_value v (canonical_mono t x) = term_value v x.
  Proof.
    intros RS Z W. unfold canonical_mono. cbv zeta.
    set (y := if m_cj x then if herm t (m_id x) then mk_mono (m_id x) false (m_f x) else if anti t (m_id x) then mk_mono (m_id x) false (copp (m_f x)) else x else x).
    assert (Y : term_value v y = term_value v x).
    { subst y. destruct x as [i b f]. cbn [m_id m_cj m_f] in *. destruct b; [|reflexivity]. unfold symbol_word in W. destruct (nth_error (t_syms t) i) as [s|] eqn:N; [|now destruct W]. assert (SO : sym_of t i = s) by (unfold sym_of; rewrite ?N; now apply nth_error_nth with (d := blank_symbol) in N). unfold herm, anti. rewrite SO.
      destruct (sy_seq s) as [w|] eqn:S; [|now destruct W]. destruct (RS i s w N S) as [R1 R2]. destruct (sy_herm s) eqn:H1; [unfold term_value; cbn [m_id m_cj m_f]; now rewrite (real_conj _ (R1 eq_refl))|].
      destruct (sy_anti s) eqn:H2; [|reflexivity]. unfold term_value. cbn [m_id m_cj m_f]. rewrite (imag_conj _ (R2 eq_refl)). ring. }
    destruct (is_zero (m_f y)) eqn:E; [|exact Y]. rewrite <- Y. apply is_zero_true in E. unfold term_value. cbn [m_id m_cj m_f]. rewrite E. ring.
  Qed.
  Lemma canonical_plain t (x : mono) : reachable c V t -> in_table t x -> plain_entry t (canonical_mono t x).
  Proof.
    intros RT I. split; [now apply canonical_mono_in|]. unfold canonical_mono. cbv zeta. destruct x as [i b f]. cbn [m_id m_cj m_f].
    match goal with |- context [is_zero (m_f ?y)] => set (z := y); destruct (is_zero (m_f z)); [reflexivity|]; subst z end.
    destruct b; [|reflexivity]. destruct (herm t i) eqn:H; [reflexivity|]. destruct (anti t i) eqn:A; [reflexivity|]. cbn [m_id m_cj]. rewrite H, A. intros [?|?]; discriminate.
  Qed.
  (** ** from an operator matrix *)
  Lemma hs_eqb_spec a b : V a -> V b -> hs_eqb a (cx_conj c b) = true <-> a = cx_conj c b.
  Proof.
    intros A B. pose proof (lw_conj c V LW b B) as B'. unfold hs_eqb. split; [|intros ->; rewrite N.eqb_refl; destruct (hs_sign (cx_conj c b)); reflexivity].
    destruct (N.eqb_spec (hs_hash a) (hs_hash (cx_conj c b))) as [H|H]; [|discriminate]. intro S. pose proof (lw_hash c V LW a _ A B' H) as O.
    destruct a as [h1 o1 s1], (cx_conj c b) as [h2 o2 s2]. cbn in *. subst. f_equal. destruct s1, s2; try reflexivity; discriminate S.
  Qed.
  Lemma ops_hermitian_spec dim ops : Forall V ops -> length ops = dim * dim -> (ops_hermitian c dim ops = true <-> FacSpec.hermitian_matrix c dim ops).
  Proof.
    intros F L. unfold ops_hermitian.
    pose proof (find_first_spec hseq hs_eqb (cx_conj c) (hseq_const true) V hs_eqb_spec dim ops F L) as H.
    pose proof (no_failure_hermitian hseq hs_eqb (cx_conj c) (hseq_const true) V hs_eqb_spec dim ops F L (lw_invol c V LW)) as K.
    assert (Q : MatInstSpec.hermitian_matrix (cx_conj c) dim ops <-> FacSpec.hermitian_matrix c dim ops).
    { unfold MatInstSpec.hermitian_matrix, FacSpec.hermitian_matrix. split.
      - intros [_ X] row col q q' Hr Hc E E'. exact (X col row q' q Hc Hr E' E).
      - intro X. split; [exact L|]. intros r k x y Hr Hk E E'. exact (X k r y x Hk Hr E' E). }
    rewrite <- Q, <- K. destruct (find_first_index _ _ _ _ _) as [p|]; [|split; [intros _; exact H|reflexivity]].
    split; [discriminate|]. intro X. destruct (X p (proj1 H)).
  Qed.
  Lemma all_some_spec {A} (l : list (option A)) : (forall o, o < length l -> exists x, nth_error l o = Some (Some x)) -> exists r, all_some l = Some r /\ length r = length l /\
    forall o x, nth_error l o = Some (Some x) <-> nth_error r o = Some x.
  Proof.
    induction l as [|y l IH]; intro H; [exists []; split; [reflexivity|]; split; [reflexivity|]; intros [|o] x; split; discriminate|].
    destruct (H 0 ltac:(cbn; lia)) as [x0 E0]. cbn in E0. injection E0 as ->. destruct IH as (r & Er & Lr & Nr); [intros o L; apply (H (S o)); cbn; lia|].
    exists (x0 :: r). cbn [all_some]. rewrite Er. split; [reflexivity|]. split; [cbn; now rewrite Lr|]. intros [|o] x; cbn [nth_error]; [split; congruence|apply Nr].
  Qed.
  Variable only : bool.
  Notation used_ops := (AriSpec.used_ops c).
  Notation known_ops := (AriSpec.known_ops c only).
  Lemma used_V ops : Forall V ops -> Forall V (used_ops ops).
  Proof. intro F. unfold used_ops. destruct (cx_alias c); [|exact F]. apply Forall_map. eapply Forall_impl; [|exact F]. exact (lw_moment c V LW). Qed.
  Lemma used_length ops : length (used_ops ops) = length ops.
  Proof. unfold used_ops. destruct (cx_alias c); [apply map_length|reflexivity]. Qed.
  Lemma used_E (E : hseq -> cx R) ops o a : expectation c V R E -> Forall V ops -> nth_error ops o = Some a -> exists u, nth_error (used_ops ops) o = Some u /\ E u = E a.
  Proof.
    intros HE F N. unfold used_ops. destruct (cx_alias c) eqn:A; [|now exists a]. exists (cx_moment c a). rewrite nth_error_map, N. split; [reflexivity|].
    apply (ex_moment c V R E HE A). rewrite Forall_forall in F. apply F. eapply nth_error_In. exact N.
  Qed.
  Lemma null_expectation : expectation c V R (fun _ => c0).
  Proof. constructor; intros; try reflexivity; [symmetry; apply cconj_0|ring]. Qed.
  Lemma from_ops_spec dim ops (factor : cx R) t : reachable c V t -> Forall V ops -> length ops = dim * dim -> known_ops ops ->
    exists t' m, from_ops c only dim ops factor t = Done t' m /\ registered c V t t' (used_ops ops) /\ reachable c V t' /\
      (plain_self_conjugates c (used_ops ops) -> flagged c t -> flagged c t') /\
      mm_dim m = dim /\ mm_ops m = Some ops /\ mm_factor m = factor /\ mm_value m = false /\ (mm_herm m = true <-> FacSpec.hermitian_matrix c dim (used_ops ops)) /\
      length (mm_cells m) = dim * dim /\ Forall (plain_entry t') (mm_cells m) /\
      forall E v, expectation c V R E -> respects t' v -> agrees E t' v -> stands E v m.
  Proof.
    intros RT F L ON. unfold from_ops. fold (used_ops ops). cbv zeta. pose proof (used_V ops F) as FU. assert (LU : length (used_ops ops) = dim * dim) by now rewrite used_length.
    pose proof (ops_hermitian_spec dim (used_ops ops) FU LU) as HH.
    destruct (st_correct c V LW R dim (used_ops ops) factor (Logic.conj LU FU) (ops_hermitian c dim (used_ops ops)) (proj1 HH) only t RT ON) as (t' & out & Er & Rg & Fl & Val).
    rewrite Er. assert (RT' : reachable c V t') by exact (reachable_later c V t t' RT (proj1 Rg)).
    assert (SF : forall E, expectation c V R E -> (ops_hermitian c dim (used_ops ops) = true -> real_symbols E t') -> symbolic_of E t' factor (used_ops ops) out) by (intros E HE; exact (Val E HE UC)).
    destruct (SF (fun _ => c0) null_expectation) as [Lo Ho]; [intros _ id s w _ _ _; apply cconj_0|].
    assert (IW : forall o e, nth_error out o = Some (Some e) -> symbol_word t' (m_id e) <> None).
    { intros o e Eo. destruct (nth_error (used_ops ops) o) as [u|] eqn:Eu.
      - destruct (Ho o u Eu) as (e' & Ee & (z & Sz & _)). rewrite Eo in Ee. injection Ee as <-. unfold symbol_value in Sz. intro X. rewrite X in Sz. discriminate Sz.
      - apply nth_error_None in Eu. assert (o < length out) by (apply nth_error_Some; congruence). lia. }
    destruct (all_some_spec out) as (cells & Ec & Lc & Nc).
    { intros o Lt. rewrite Lo in Lt. destruct (nth_error (used_ops ops) o) as [u|] eqn:Eu; [|apply nth_error_None in Eu; lia]. destruct (Ho o u Eu) as (e & Ee & _). now exists e. }
    rewrite Ec. do 2 eexists. split; [reflexivity|]. split; [exact Rg|]. split; [exact RT'|]. split; [exact Fl|]. cbn [mm_dim mm_ops mm_factor mm_value mm_herm mm_cells].
    split; [reflexivity|]. split; [reflexivity|]. split; [reflexivity|]. split; [reflexivity|]. split; [exact HH|]. split; [rewrite map_length; lia|].
    assert (IT : forall o e, nth_error cells o = Some e -> in_table t' e).
    { intros o e Ee. apply Nc in Ee. apply IW in Ee. unfold symbol_word in Ee. unfold in_table. apply nth_error_Some. intro X. rewrite X in Ee. now apply Ee. }
    split.
    - apply Forall_map, Forall_forall. intros e I. apply In_nth_error in I. destruct I as [o I]. apply canonical_plain; [exact RT'|exact (IT o e I)].
    - intros E v HE RS AG ops' o a Eops N. cbn [mm_ops] in Eops. injection Eops as <-. cbn [entry mm_cells mm_factor]. rewrite nth_error_map.
      destruct (used_E E ops o a HE F N) as (u & Nu & Eu).
      assert (RL : real_symbols E t').
      { intros id s w Ns Hs Ws. rewrite <- (AG id w) by (unfold symbol_word; now rewrite Ns). apply real_conj. exact (proj1 (RS id s w Ns Ws) Hs). }
      destruct (SF E HE (fun _ => RL)) as [_ Hv]. destruct (Hv o u Nu) as (e & Ee & (z & Sz & Mz)). rewrite (proj1 (Nc o e) Ee). cbn [option_map]. f_equal.
      rewrite (canonical_value t' v e RS (zero_value E t' v RT' HE AG) (IW o e Ee)). rewrite <- Eu, <- Mz. unfold term_value. f_equal.
      unfold symbol_value in Sz. destruct (symbol_word t' (m_id e)) as [w|] eqn:W; [|discriminate Sz]. cbn in Sz. injection Sz as <-. now rewrite (AG _ w W).
  Qed.
  (** ** one term *)
  Variable mul : hseq -> hseq -> hseq.
  Lemma times_length pre q ops : length (times mul pre q ops) = length ops. Proof. apply map_length. Qed.
  Lemma zero_spec dim t : reachable c V t -> well_formed t (fun _ _ => false) (SM (zero_matrix (R := R) dim)) /\ forall E v, expectation c V R E -> agrees E t v -> stands E v (zero_matrix dim).
  Proof.
    intro RT. split.
    - split; [cbn; apply repeat_length|]. cbn [zero_matrix mm_cells]. apply Forall_forall. intros x I. apply repeat_spec in I. subst x. split; [|reflexivity].
      unfold in_table. cbn. pose proof (proj1 (table_shape c V LW t RT)) as W. unfold symbol_word in W. destruct (t_syms t); [discriminate W|cbn; lia].
    - intros E v HE AG ops o a Eo N. cbn in Eo. injection Eo as <-. pose proof (nth_error_In _ _ N) as I. apply repeat_spec in I. subst a. cbn [entry zero_matrix mm_cells mm_factor].
      assert (o < dim * dim) by (rewrite <- (repeat_length (hseq_const true) (dim * dim)); apply nth_error_Some; congruence). rewrite nth_error_repeat by assumption. cbn [option_map]. f_equal.
      unfold term_value. cbn. rewrite (ex_zero c V R E HE). ring.
  Qed.
  Lemma multiply_spec pre q (w : cx R) (m : monomat R) ops t : reachable c V t -> mm_ops m = Some ops -> length ops = mm_dim m * mm_dim m -> products_ok V mul pre q ops -> known_ops (times mul pre q ops) ->
    exists t' m', mm_multiply c mul only pre q w m t = Done t' m' /\ later c V t t' /\ mm_dim m' = mm_dim m /\ well_formed t' (fun _ _ => false) (SM m') /\
      (plain_self_conjugates c (used_ops (times mul pre q ops)) -> flagged c t -> flagged c t') /\
      mm_ops m' = Some (times mul pre q ops) /\ 
      forall E v, expectation c V R E -> assignment t' v -> agrees E t' v -> stands E v m' /\
        forall o a, nth_error ops o = Some a -> entry v (SM m') o = Some (cmul (cmul (mm_factor m) w) (E (if pre then mul q a else mul a q))).
  Proof.
    intros RT EO L [PV PZ] ON. unfold mm_multiply. destruct (hs_zero q) eqn:HZ.
    - exists t, (zero_matrix (mm_dim m)). split; [reflexivity|]. split; [apply later_refl|]. split; [reflexivity|]. destruct (zero_spec (mm_dim m) t RT) as [W S]. split; [exact W|]. split; [auto|].
      assert (AR : times mul pre q ops = repeat (hseq_const true) (mm_dim m * mm_dim m)).
      { assert (X : forall l, (forall a, In a l -> a = hseq_const true) -> l = repeat (hseq_const true) (length l)).
        { induction l as [|y l IH]; intro H; [reflexivity|]. cbn. rewrite (H y (or_introl eq_refl)) at 1. f_equal. apply IH. intros a I. apply H. now right. }
        rewrite (X _ (PZ eq_refl)). now rewrite times_length, L. }
      split; [cbn; now rewrite AR|]. intros E v HE A AG. split; [exact (S E v HE AG)|]. intros o a N.
      assert (N2 : nth_error (times mul pre q ops) o = Some (if pre then mul q a else mul a q)) by (unfold times; now rewrite nth_error_map, N).
      rewrite (PZ eq_refl _ (nth_error_In _ _ N2)). rewrite AR in N2. rewrite (S E v HE AG _ o _ eq_refl N2). f_equal. rewrite (PZ eq_refl (if pre then mul q a else mul a q)); [|unfold times; apply in_map_iff; exists a; split; [reflexivity|exact (nth_error_In _ _ N)]]. cbn [mm_factor zero_matrix].
      rewrite (ex_zero c V R E HE). ring.
    - rewrite EO. destruct (from_ops_spec (mm_dim m) (times mul pre q ops) (cmul (mm_factor m) w) t RT PV ltac:(now rewrite times_length) ON) as (t' & m' & E1 & Rg & RT' & Fl & D & O & Fa & _ & _ & Ln & Pl & St).
      exists t', m'. split; [exact E1|]. split; [exact (proj1 Rg)|]. split; [exact D|]. split; [split; [cbn; now rewrite Ln, D|exact Pl]|]. split; [exact Fl|]. split; [exact O|].
      intros E v HE A AG. pose proof (St E v HE (assignment_respects t' v A) AG) as S. split; [exact S|]. intros o a N. rewrite <- Fa. apply (S _ o _ O). unfold times. now rewrite nth_error_map, N.
  Qed.
  (** ... and the Hermitian flag *)
  Lemma multiply_flag pre q (w : cx R) (m : monomat R) ops t t' m' : reachable c V t -> mm_ops m = Some ops -> length ops = mm_dim m * mm_dim m -> products_ok V mul pre q ops -> known_ops (times mul pre q ops) ->
    mm_multiply c mul only pre q w m t = Done t' m' -> mm_herm m' = true -> cim (cmul (mm_factor m) w) = r0 R ->
    forall E v, expectation c V R E -> assignment t' v -> agrees E t' v -> hermitian_values v (SM m').
  Proof.
    intros RT EO L [PV PZ] ON EM HH RE E v HE A AG. unfold mm_multiply in EM. destruct (hs_zero q) eqn:HZ.
    - injection EM as <- <-. intros row col x y Hr Hc Ex Ey. cbn [smx_dim zero_matrix mm_dim entry mm_cells] in *. rewrite nth_error_repeat in Ex, Ey by nia. cbn in Ex, Ey. injection Ex as <-. injection Ey as <-.
      assert (Z : term_value v (mk_mono 0 false (@c0 R)) = c0) by (unfold term_value; cbn [m_id m_cj m_f]; ring). rewrite Z. symmetry. apply cconj_0.
    - rewrite EO in EM. destruct (from_ops_spec (mm_dim m) (times mul pre q ops) (cmul (mm_factor m) w) t RT PV ltac:(now rewrite times_length) ON) as (t1 & m1 & E1 & Rg & RT' & Fl & D & O & Fa & _ & HM & Ln & Pl & St).
      rewrite EM in E1. injection E1 as <- <-. pose proof (St E v HE (assignment_respects t' v A) AG) as S. apply HM in HH.
      intros row col x y Hr Hc Ex Ey. cbn [smx_dim] in *. rewrite D in *. set (pr := times mul pre q ops) in *.
      assert (LP : length pr = mm_dim m * mm_dim m) by (subst pr; now rewrite times_length).
      assert (NN : forall i j, i < mm_dim m -> j < mm_dim m -> exists a u, nth_error pr (i * mm_dim m + j) = Some a /\ nth_error (used_ops pr) (i * mm_dim m + j) = Some u /\ E u = E a /\ V u).
      { intros i j Hi Hj. destruct (nth_error pr (i * mm_dim m + j)) as [a|] eqn:N; [|apply nth_error_None in N; nia]. destruct (used_E E pr _ a HE PV N) as (u & Nu & Eu). exists a, u. split; [reflexivity|]. split; [exact Nu|]. split; [exact Eu|].
        pose proof (used_V pr PV) as FU. rewrite Forall_forall in FU. apply FU. eapply nth_error_In. exact Nu. }
      destruct (NN col row Hc Hr) as (a & u & Na & Nu & Ea & Vu). destruct (NN row col Hr Hc) as (b & u' & Nb & Nu' & Eb & _).
      rewrite (S pr _ a O Na) in Ex. injection Ex as <-. rewrite (S pr _ b O Nb) in Ey. injection Ey as <-. rewrite <- Ea, <- Eb, (HH row col u u' Hr Hc Nu Nu'). rewrite (ex_conj c V R E HE u Vu), Fa, cconj_mul.
      now rewrite (real_conj _ RE).
  Qed.
End Mul.
