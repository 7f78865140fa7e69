(** Invariant of the shared queue. *)
From Coq Require Import List Arith Bool Lia.
From Verif Require Import QueueModel QueueSpec.
Import ListNotations.

Section Proofs.
  Context {V : Type}.
  Notation thread := (qthread V).
  Notation shared := (qshared V).
  Definition hreg (t : thread) : nat :=
    match qt_pc t with TAbort | TTail | WTail | WAbort | WSleep | WFlag | OPop | OSwap | ORelease => 1 | _ => 0 end.
  Definition treg (t : thread) : nat := match qt_pc t with PDatum _ _ | PNext _ _ | PTail _ _ | PUnlock => 1 | _ => 0 end.
  Definition news (t : thread) : list nat :=
    match qt_pc t with PLock _ n | PDatum _ n | PNext _ n | PTail _ n => [n] | _ => [] end.
  Definition b2n (b : bool) : nat := if b then 1 else 0.
  (** from one node to another: the nodes between, with their elements *)
  Fixpoint path (dt : nat -> option V) (nx : nat -> option nat) (h : nat) (l : list (nat * V)) (t : nat) : Prop :=
    match l with
    | [] => h = t
    | (x, v) :: r => h = x /\ dt h = Some v /\ exists n, nx h = Some n /\ path dt nx n r t
    end.
  Definition ids (s : shared) (l : list (nat * V)) : list nat := map fst l ++ [q_tail s].
  Definition chain (s : shared) (l : list (nat * V)) : Prop :=
    NoDup (ids s l) /\ (forall x, In x (ids s l) -> x < q_fresh s) /\
    match q_mid s with
    | None => path (q_datum s) (q_next s) (q_head s) l (q_tail s)
    | Some n => exists v r, l = (q_head s, v) :: r /\ q_datum s (q_head s) = Some v /\ path (q_datum s) (q_next s) n r (q_tail s)
    end /\ map snd (q_pushed s) = map snd (q_popped s) ++ map snd l.
  Definition free (s : shared) (l : list (nat * V)) (n : nat) : Prop :=
    n < q_fresh s /\ ~ In n (ids s l) /\ q_datum s n = None /\ q_next s n = None.
  Definition fact (s : shared) (l : list (nat * V)) (t : thread) : Prop :=
    (forall n, In n (news t) -> free s l n) /\
    match qt_pc t with
    | PDatum _ _ | PUnlock => q_datum s (q_tail s) = None /\ q_next s (q_tail s) = None
    | PNext v _ => q_datum s (q_tail s) = Some v /\ q_next s (q_tail s) = None
    | PTail v n => q_datum s (q_tail s) = Some v /\ q_next s (q_tail s) = Some n
    | TAbort | TTail | WTail | WAbort | WSleep | ORelease => q_mid s = None
    | WFlag => q_mid s = None /\ (q_head s <> q_tail s \/ q_abort s = true)
    | OPop => q_mid s = None /\ q_head s <> q_tail s
    | OSwap => q_mid s <> None
    | _ => True
    end.
  Record inv (s : shared) (ts : list thread) : Prop := {
    i_chain : exists l, chain s l /\ Forall (fact s l) ts;
    i_h : list_sum (map hreg ts) = b2n (q_hlock s);
    i_t : list_sum (map treg ts) = b2n (q_tlock s);
    i_new : NoDup (flat_map news ts);
    i_fresh : forall m, q_fresh s <= m -> q_datum s m = None /\ q_next s m = None;
    i_tfree : q_tlock s = false -> q_datum s (q_tail s) = None /\ q_next s (q_tail s) = None;
    i_hfree : q_hlock s = false -> q_mid s = None;
    i_ok : q_broken s = false }.

  (** * Paths *)
  Lemma path_ext dt nx dt' nx' : forall l h t, (forall x, In x (map fst l) -> dt' x = dt x /\ nx' x = nx x) -> path dt nx h l t -> path dt' nx' h l t.
  Proof.
    induction l as [|[x v] r IH]; intros h t H P; [exact P|]. destruct P as (-> & Hd & n & Hn & P). destruct (H x (or_introl eq_refl)) as (E1 & E2).
    split; [reflexivity|]. split; [congruence|]. exists n. split; [congruence|]. apply IH; [|exact P]. intros y Hy. apply H. now right.
  Qed.
  Lemma path_snoc dt nx v n : forall l h t, path dt nx h l t -> dt t = Some v -> nx t = Some n -> path dt nx h (l ++ [(t, v)]) n.
  Proof.
    induction l as [|[x w] r IH]; intros h t P Hd Hn.
    - cbn in P. subst h. cbn. split; [reflexivity|]. split; [exact Hd|]. now exists n.
    - destruct P as (-> & Hx & m & Hm & P). cbn. split; [reflexivity|]. split; [exact Hx|]. exists m. split; [exact Hm|]. now apply IH.
  Qed.
  Lemma path_head dt nx h l t : path dt nx h l t -> In h (map fst l ++ [t]).
  Proof. destruct l as [|[x v] r]; cbn; [intros ->; now left|intros (-> & _); now left]. Qed.
  Lemma chain_head s l : chain s l -> In (q_head s) (ids s l).
  Proof.
    intros (_ & _ & H & _). unfold ids. destruct (q_mid s) as [n|]; [destruct H as (v & r & -> & _); now left|now apply path_head in H].
  Qed.
  Lemma tail_out s l : chain s l -> ~ In (q_tail s) (map fst l).
  Proof. intros (H & _) Hin. unfold ids in H. apply NoDup_remove_2 in H. rewrite app_nil_r in H. contradiction. Qed.
  Lemma upd_other {A} (f : nat -> A) n x m : m <> n -> upd f n x m = f m.
  Proof. intros H. unfold upd. now destruct (Nat.eqb_spec m n). Qed.
  Lemma upd_same {A} (f : nat -> A) n x : upd f n x n = x.
  Proof. unfold upd. now rewrite Nat.eqb_refl. Qed.

  (** * The other threads *)
  Lemma fact_keep s l s' l' t : fact s l t ->
    (forall n, In n (news t) -> free s l n -> free s' l' n) ->
    (treg t = 1 -> q_datum s' (q_tail s') = q_datum s (q_tail s) /\ q_next s' (q_tail s') = q_next s (q_tail s)) ->
    (hreg t = 1 -> q_mid s' = q_mid s) -> (hreg t = 1 -> q_head s <> q_tail s -> q_head s' <> q_tail s') -> (q_abort s = true -> q_abort s' = true) ->
    fact s' l' t.
  Proof.
    intros (Hn & H) Kn Kt Km Kh Ka. split; [intros n Hin; apply Kn; [exact Hin|now apply Hn]|].
    unfold treg, hreg in *. destruct (qt_pc t); try exact I;
      try (destruct (Kt eq_refl) as (-> & ->); exact H); try (rewrite (Km eq_refl); exact H).
    - destruct H as (H1 & H2). rewrite (Km eq_refl). split; [exact H1|]. destruct H2 as [H2|H2]; [left; now apply Kh|right; now apply Ka].
    - destruct H as (H1 & H2). rewrite (Km eq_refl). split; [exact H1|now apply Kh].
  Qed.
  Lemma zero_sum (f : thread -> nat) l : list_sum (map f l) = 0 -> Forall (fun t => f t = 0) l.
  Proof. induction l as [|t l IH]; cbn; intros H; [constructor|]. constructor; [lia|]. apply IH. unfold list_sum. lia. Qed.
  Lemma sum_mid (f : thread -> nat) a t b : list_sum (map f (a ++ t :: b)) = f t + list_sum (map f a) + list_sum (map f b).
  Proof. rewrite map_app, list_sum_app. cbn [map]. unfold list_sum. cbn [fold_right]. lia. Qed.
  Lemma others_zero (f : thread -> nat) a t b n : list_sum (map f (a ++ t :: b)) = n -> f t = n -> Forall (fun t => f t = 0) a /\ Forall (fun t => f t = 0) b.
  Proof. rewrite sum_mid. intros H E. split; apply zero_sum; lia. Qed.
  Lemma all_mid (P : thread -> Prop) a t b : Forall P (a ++ t :: b) <-> P t /\ Forall P a /\ Forall P b.
  Proof. rewrite Forall_app, Forall_cons_iff. tauto. Qed.

  (** one thread takes a step and the others keep their facts *)
  Lemma step_inv s a t b s' t' (l l' : list (nat * V)) :
    inv s (a ++ t :: b) -> chain s l -> Forall (fact s l) (a ++ t :: b) -> chain s' l' -> fact s' l' t' ->
    (forall u, (hreg t = 1 -> hreg u = 0) -> (treg t = 1 -> treg u = 0) ->
       (forall n, In n (news u) -> ~ In n (news t)) -> fact s l u -> fact s' l' u) ->
    hreg t' + b2n (q_hlock s) = hreg t + b2n (q_hlock s') -> treg t' + b2n (q_tlock s) = treg t + b2n (q_tlock s') ->
    (news t' = news t \/ news t' = [] \/ (news t = [] /\ news t' = [q_fresh s])) ->
    (forall m, q_fresh s' <= m -> q_datum s' m = None /\ q_next s' m = None) ->
    (q_tlock s' = false -> q_datum s' (q_tail s') = None /\ q_next s' (q_tail s') = None) ->
    (q_hlock s' = false -> q_mid s' = None) -> q_broken s' = false -> inv s' (a ++ t' :: b).
  Proof.
    intros [_ Hh Ht Hn _ _ _ _] Hc Hf Hc' Hf' Hk Eh Et En Hfr Htf Hhf Hok.
    apply all_mid in Hf. destruct Hf as (Hft & Hfa & Hfb).
    assert (Hz : hreg t = 1 -> Forall (fun u => hreg u = 0) a /\ Forall (fun u => hreg u = 0) b).
    { intros E. rewrite sum_mid, E in Hh. destruct (q_hlock s); cbn in Hh; [|lia]. split; apply zero_sum; lia. }
    assert (Hzt : treg t = 1 -> Forall (fun u => treg u = 0) a /\ Forall (fun u => treg u = 0) b).
    { intros E. rewrite sum_mid, E in Ht. destruct (q_tlock s); cbn in Ht; [|lia]. split; apply zero_sum; lia. }
    rewrite flat_map_app in Hn. cbn [flat_map] in Hn.
    assert (Hdis : forall u n, In u (a ++ b) -> In n (news u) -> ~ In n (news t)).
    { intros u n Hu Hnu Hnt. assert (In n (flat_map news a ++ flat_map news b)) as Hin.
      { rewrite <- flat_map_app. apply in_flat_map. now exists u. }
      unfold news in Hnt. destruct (qt_pc t) eqn:E; cbn in Hnt; try contradiction; destruct Hnt as [->|[]];
        unfold news in Hn at 2; rewrite E in Hn; cbn [app] in Hn; apply NoDup_remove_2 in Hn; contradiction. }
    assert (Hof : forall u, In u (a ++ b) -> fact s' l' u).
    { intros u Hu. apply (Hk u).
      - intros E. destruct (Hz E) as (Ha & Hb). rewrite Forall_forall in Ha, Hb. apply in_app_iff in Hu. destruct Hu; auto.
      - intros E. destruct (Hzt E) as (Ha & Hb). rewrite Forall_forall in Ha, Hb. apply in_app_iff in Hu. destruct Hu; auto.
      - intros n Hnu. exact (Hdis u n Hu Hnu).
      - rewrite Forall_forall in Hfa, Hfb. apply in_app_iff in Hu. destruct Hu; auto. }
    constructor; try assumption.
    - exists l'. split; [exact Hc'|]. apply all_mid. split; [exact Hf'|]. split; apply Forall_forall; intros u Hu; apply Hof, in_app_iff; auto.
    - rewrite sum_mid in *. lia.
    - rewrite sum_mid in *. lia.
    - rewrite flat_map_app. cbn [flat_map]. destruct En as [->|[->|(E0 & ->)]]; [exact Hn| |].
      + cbn [app]. revert Hn. generalize (flat_map news a), (flat_map news b). unfold news. destruct (qt_pc t); cbn [app]; auto; intros; now apply NoDup_remove_1 in Hn.
      + rewrite E0 in Hn. cbn [app] in Hn |- *. apply (NoDup_Add (a := q_fresh s) (l := flat_map news a ++ flat_map news b)); [apply Add_app|].
        split; [exact Hn|]. intros Hin. rewrite <- flat_map_app in Hin. apply in_flat_map in Hin. destruct Hin as (u & Hu & Hnu).
        assert (Hfu : fact s l u) by (rewrite Forall_forall in Hfa, Hfb; apply in_app_iff in Hu; destruct Hu; auto).
        destruct Hfu as (Hfu & _). destruct (Hfu _ Hnu) as (Hlt & _). lia.
  Qed.
End Proofs.
