(** The statements about the monomial matrix factory, put together. *)
From Coq Require Import List NArith ZArith Arith Bool Lia.
From Verif Require Import CoreModel CoreSpec FieldModel FieldProofs SymModel SymSpec SymProofs PolyModel ParModel ParProofs MatModel MatProofs MatWitnessProofs FacModel FacSpec FacProofs FacRunProofs FacMapProofs FacParProofs FacDoneProofs.
Import ListNotations.

Lemma parallel_progress c R dim m hermitian p N t l s : 0 < N -> exec (start (fprograms (R := R) c dim m hermitian p N no_throw) (ffresh dim N t)) l s ->
  length l <= list_sum (map (@length _) (fprograms c dim m hermitian p N no_throw)) /\ (finished s \/ exists w s', step s w s').
Proof.
  intros NP X. split; [pose proof (exec_bounded _ _ _ X) as B; unfold remaining in B; cbn [start c_progs] in B; lia|]. now apply (progress c R dim m p hermitian N NP t l s).
Qed.
Lemma list_ext {A} : forall (l l' : list A), (forall i, nth_error l i = nth_error l' i) -> l = l'.
Proof. induction l as [|a l IH]; intros [|b l'] H; [reflexivity|specialize (H 0); discriminate|specialize (H 0); discriminate|]. f_equal; [specialize (H 0); now injection H|apply IH; intro i; exact (H (S i))]. Qed.
Lemma parallel_result c V R dim m hermitian p N t : lawful c V -> elements_ok V dim m -> (hermitian = true -> hermitian_matrix c dim m) -> 0 < N -> reachable c V t ->
  exists t', registered c V t t' m /\ (plain_self_conjugates c m -> flagged c t -> flagged c t') /\
    forall l s, exec (start (fprograms (R := R) c dim m hermitian p N no_throw) (ffresh dim N t)) l s -> finished s ->
      f_table (c_mem s) = t' /\ f_bad (c_mem s) = false /\
      exists out, f_ret (c_mem s) = Some out /\ (hermitian = false -> out = map (direct p t') m) /\
        forall E, expectation c V R E -> unsigned_conj c V -> (hermitian = true -> real_symbols E t') -> symbolic_of E t' p m out.
Proof.
  intros LW EO HM NP RT. destruct (final_table c V LW dim m EO hermitian N NP t RT HM) as (t1 & ids & Em & Rg & R1 & F1). exists t1. split; [exact Rg|].
  destruct (root_good c V LW dim m hermitian EO HM N NP) as [FR CV]. split; [intros PS Ft; now apply (merge_flags c V LW m (proj2 EO) (map snd (at_level c dim m hermitian N 0 0)) t t1 ids)|].
  intros l s X Fin. destruct (result c V LW R dim m p EO hermitian N NP t HM t1 ids Em R1 F1 l s X Fin) as (A & B & out & O & L & C). split; [exact A|]. split; [exact B|].
  exists out. split; [exact O|]. split.
  - intros Hh. apply list_ext. intro o. rewrite nth_error_map. pose proof (proj1 EO) as Lm. destruct (lt_dec o (dim * dim)) as [Lo|Lo].
    + destruct (C o Lo) as (e & Q & [D|[D _]]); [|congruence]. rewrite Q. unfold entry_of in D. destruct (nth_error m o) as [q|]; [cbn; now rewrite D|discriminate].
    + rewrite (proj2 (nth_error_None out o)) by lia. now rewrite (proj2 (nth_error_None m o)) by lia.
  - intros E EX UC RS. now apply (allowed_symbolic c V LW R dim m p EO hermitian HM).
Qed.
Lemma throwing_hangs c R dim m hermitian p N throws t w w' l s : w < N -> throws w = true -> w' < N -> throws w' = false ->
  exec (start (fprograms (R := R) c dim m hermitian p N throws) (ffresh dim N t)) l s -> ~ finished s.
Proof.
  intros Hw Tw Hw' Tw' X. apply (missing_signal (FReady 1) _ _ _ X).
  - exists (map (finstr c dim m hermitian p) (fworker dim hermitian N throws w')), (finstr c dim m hermitian p (FWait (FReady 1))). split; [|split; [|now left]].
    + cbn [start c_progs]. unfold fprograms, fthreads. cbn [map]. right. rewrite map_map. apply in_map_iff. exists w'. split; [reflexivity|apply in_seq; lia].
    + apply in_map. unfold fworker. rewrite Tw'. right. apply in_or_app. right. right. now left.
  - intros q i Hq Hi He. cbn [start c_progs] in Hq. unfold fprograms in Hq. apply in_map_iff in Hq as (q0 & <- & Hq). apply in_map_iff in Hi as (x & <- & Hx). assert (Xr : x = FSignal (FReady 1)).
    { destruct x; cbn in He; try contradiction; [apply in_map_iff in He as (? & E & _); discriminate|destruct He as [E|[]]; discriminate|destruct He as [->|[]]; reflexivity]. }
    subst x. destruct Hq as [<-|Hq].
    + unfold fmain in Hx. assert (Ex : existsb throws (seq 0 N) = true) by (apply existsb_exists; exists w; split; [apply in_seq; lia|exact Tw]). rewrite Ex in Hx.
      cbn in Hx. destruct Hx as [E|[E|Hx]]; [discriminate|discriminate|]. apply in_map_iff in Hx as (? & E & _). discriminate.
    + apply in_map_iff in Hq as (v & <- & Hv). unfold fworker in Hx. destruct (throws v).
      * destruct (Nat.eqb v 0); cbn in Hx; repeat (destruct Hx as [E|Hx]; [discriminate|]); destruct Hx.
      * destruct Hx as [E|Hx]; [discriminate|]. apply in_app_or in Hx as [Hx|Hx]; [apply in_map_iff in Hx as (? & E & _); discriminate|].
        apply in_app_or in Hx as [Hx|Hx]; [destruct Hx as [E|[E|[]]]; discriminate|]. apply in_app_or in Hx as [Hx|Hx]; [|destruct Hx as [E|[E|[]]]; discriminate].
        unfold generate in Hx. apply in_flat_map in Hx as (col & _ & Hx). apply in_flat_map in Hx as (row & _ & Hx). cbn zeta in Hx. destruct hermitian; [|destruct Hx as [E|[]]; discriminate].
        destruct Hx as [E|Hx]; [discriminate|]. destruct (Nat.eqb _ _); [destruct Hx|destruct Hx as [E|[]]; discriminate].
  - intros [].
Qed.
Lemma marked_real c V t t' m R (E : hseq -> cx R) : lawful c V -> reachable c V t -> registered c V t t' m -> expectation c V R E -> flagged c t' -> real_symbols E t'.
Proof.
  intros LW RT [LT _] EX FL. apply (flagged_real c V LW R E t'); [|exact EX|exact FL]. now apply (reachable_later c V t t').
Qed.
