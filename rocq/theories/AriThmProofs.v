(** Multiplication by symbols and polynomials of symbols. *)
From Coq Require Import List NArith ZArith Arith Bool Lia Field.
From Verif Require Import CoreModel CoreSpec FieldModel FieldProofs SymModel SymSpec SymProofs SymFinalProofs PolyModel PolySpec PolyProofs PolyTableProofs PolyFinalProofs FacModel FacSpec RawModel RawSpec RawTableProofs AriModel AriSpec AriProofs AriMulProofs AriMul2Proofs AriValProofs.
Import ListNotations.

Section Thm.
  Variables (c : sctx) (V : hseq -> Prop).
  Hypothesis LW : lawful c V.
  Hypothesis UC : unsigned_conj c V.
  Variable R : rfield.
  Variable only : bool.
  Variable mul : hseq -> hseq -> hseq.
  Lemma times_symbol pre (x : mono R) m ops t u : reachable c V t -> mm_value m = false -> mm_ops m = Some ops -> length ops = mm_dim m * mm_dim m ->
    m_id x <> 0 -> ~ (m_id x = 1 /\ m_f x = c1) -> symbol_word t (m_id x) = Some u ->
    let w := if m_cj x || herm t (m_id x) then u else cx_conj c u in
    products_ok V mul pre w ops -> known_ops c only (times mul pre w ops) ->
    exists t' m', multiply_mono c mul only pre x (SM m) t = Done t' (SM m') /\ later c V t t' /\ mm_dim m' = mm_dim m /\
      forall E v, expectation c V R E -> assignment t' v -> agrees E t' v -> forall o a, nth_error ops o = Some a -> entry v (SM m') o = Some (cmul (cmul (mm_factor m) (m_f x)) (E (if pre then mul w a else mul a w))).
  Proof.
    intros RT NV OPS L N0 N1 SW w PO KO. pose proof SW as SW'. unfold symbol_word in SW'. destruct (nth_error (t_syms t) (m_id x)) as [s|] eqn:N; [|discriminate SW'].
    assert (H : herm t (m_id x) = sy_herm s) by (unfold herm, sym_of; f_equal; exact (nth_error_nth _ _ _ N)).
    assert (W : (if m_cj x || sy_herm s then sy_seq s else sy_conj s) = Some w).
    { subst w. rewrite H. destruct (m_cj x || sy_herm s) eqn:B; [exact SW'|]. apply orb_false_elim in B. destruct B as [_ B]. pose proof (reachable_keeps c V LW t RT) as F. rewrite Forall_forall in F.
      destruct (F s (nth_error_In _ _ N) u SW') as [[_ K]|[_ K]]; [rewrite K in B; discriminate B|exact K]. }
    destruct (multiply_spec c V LW UC R only mul pre w (m_f x) m ops t RT OPS L PO KO) as (t' & m' & E & LT & D & _ & _ & _ & VAL). exists t', m'. split.
    - rewrite (mono_does c R only mul pre x m ops t s w NV OPS N0 N1 N W), E. reflexivity.
    - split; [exact LT|]. split; [exact D|]. intros E' v HE A AG. exact (proj2 (VAL E' v HE A AG)).
  Qed.
  Lemma raw_length t (p : list (mono R)) : forall r, raw_of_poly t p = Some r -> length r = length p.
  Proof.
    induction p as [|x p IH]; intros r E; cbn [raw_of_poly] in E; [injection E as <-; reflexivity|]. destruct (raw_term t x); [|discriminate E]. destruct (raw_of_poly t p) as [r'|]; [|discriminate E]. injection E as <-. cbn. f_equal. now apply IH.
  Qed.
  Variables (srt : table -> list (mono R) -> list (mono R)) (lt : table -> mono R -> mono R -> bool).
  Lemma times_polynomial pre (p : list (mono R)) m ops t r : reachable c V t -> flagged c t -> mm_value m = false -> mm_ops m = Some ops -> length ops = mm_dim m * mm_dim m -> 2 <= length p ->
    raw_of_poly t p = Some r -> terms_ok c V R only mul pre r ops -> (forall t', later c V t t' -> term_order t' (lt t') /\ sorts t' (lt t') (srt t')) ->
    exists t' q, multiply_poly c mul only srt lt pre p (SM m) t = Done t' (SP q) /\ later c V t t' /\ pm_dim q = mm_dim m /\ (2 < length p -> well_formed t' (lt t') (SP q)) /\
      forall E v, expectation c V R E -> assignment t' v -> agrees E t' v -> forall o a, nth_error ops o = Some a -> entry v (SP q) o = Some (cmul (mm_factor m) (product_value E mul pre r a)).
  Proof.
    intros RT FL NV OPS L LP ER TO HS. pose proof (raw_length t p r ER) as LR. destruct (multiply_raw_spec c V LW UC R only mul srt lt pre r m ops t RT FL OPS L TO) as (t' & q & E & LT & _ & D & _ & WF & VAL); [lia|exact HS|].
    exists t', q. split; [rewrite (poly_does c R only mul srt lt pre p m t r LP NV ER); exact E|]. split; [exact LT|]. split; [exact D|]. split; [rewrite LR in WF; exact WF|exact VAL].
  Qed.
End Thm.
