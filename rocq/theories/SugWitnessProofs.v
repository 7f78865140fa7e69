(** Suggestions as separate statements, and a concrete one. *)
From Coq Require Import List Arith Bool Permutation Lia.
From Verif Require Import CoreModel AlgModel InfModel InfSpec InfWitnessProofs TreeModel FTabModel FTabSpec FTabProofs FTabWitnessProofs SugModel SugSpec SugProofs.
Import ListNotations.

Section All.
  Variables (outcomes : list nat) (srcs : list (list nat)) (nt : network) (L : nat).
  Hypothesis MK : make_network outcomes srcs = Some nt.
  Variable t : ftab.
  Hypothesis St : sound_table srcs nt L t.
  Variables (included : list nat) (gens : list word).
  Hypothesis Sg : suggestible nt L t included gens.
  Lemma w_ends : exists chosen, settles nt L (fun fuel scratch => suggest (inflate nt L) fuel scratch t included gens) chosen.
  Proof. destruct (suggest_spec outcomes srcs nt L MK t St included gens Sg) as [ch [A _]]. now exists ch. Qed.
  Lemma w_useful fuel scratch chosen : length scratch = total_sources nt L -> suggest (inflate nt L) fuel scratch t included gens = FOk chosen ->
    NoDup chosen /\ length chosen <= max_extensions /\ (forall x, In x chosen -> candidate t included x) /\
    exists ss, Forall2 (fun x s => exists g, In g gens /\ reaches nt L t g x s) chosen ss /\ NoDup ss /\ forall s, In s ss -> In s included /\ composite t s.
  Proof.
    intros Ls E. destruct (suggest_spec outcomes srcs nt L MK t St included gens Sg) as [ch [A [B [C [D [F _]]]]]].
    rewrite (settles_ok nt L _ ch fuel scratch chosen A Ls E). auto.
  Qed.
  Lemma w_complete fuel scratch chosen cs : length scratch = total_sources nt L -> suggest (inflate nt L) fuel scratch t included gens = FOk chosen ->
    (forall x, candidate t included x -> In x cs) -> length cs <= max_extensions ->
    forall s g x, In s included -> composite t s -> only_one t s -> In g gens -> candidate t [s] x -> reaches nt L t g x s ->
    exists g' y, In g' gens /\ In y chosen /\ reaches nt L t g' y s.
  Proof.
    intros Ls E. destruct (suggest_spec outcomes srcs nt L MK t St included gens Sg) as [ch [A [_ [_ [_ [_ H]]]]]].
    rewrite (settles_ok nt L _ ch fuel scratch chosen A Ls E). exact (H cs).
  Qed.
End All.

Lemma word_moment w r : simplified two_ctx w -> canonical_moment two_ctx 9 [0; 0] w = Ret (Some r) -> moment_of two_net 2 w r.
Proof.
  intros N E. destruct (moment_exists [2; 2] [[0; 1]] two_net 2 two_made w N) as [r' [M _]].
  destruct (moment_det two_net 2 w r' 9 [0; 0] M two_scratch) as [E'|E']; fold two_ctx in E'; congruence.
Qed.
Lemma words_factors g k r l : simplified_b two_ctx g = true -> canonical_moment two_ctx 9 [0; 0] g = Ret (Some r) -> symbol_seq tab1 k (Some r) -> nth_error (map fe_syms (ft_entries tab1)) k = Some l ->
  word_factors two_net 2 tab1 g l.
Proof. intros N E S F. exists r, k. split; [apply word_moment; [now apply simplified_by|exact E]|]. split; [exact S|now apply tab1_factors]. Qed.
Definition gens1 : list word := [[]; [0]].
Definition included1 : list nat := [1; 2; 5].
Lemma gens1_factors : word_factors two_net 2 tab1 [] [1] /\ word_factors two_net 2 tab1 [0] [2].
Proof.
  split.
  - apply (words_factors [] 1 []); vm_compute; reflexivity.
  - apply (words_factors [0] 2 [0]); vm_compute; reflexivity.
Qed.
Lemma suggestible1 : suggestible two_net 2 tab1 included1 gens1.
Proof.
  constructor.
  - intros s [<-|[<-|[<-|[]]]].
    + exists [1]. split; [apply tab1_factors; vm_compute; reflexivity|cbn; lia].
    + exists [2]. split; [apply tab1_factors; vm_compute; reflexivity|cbn; lia].
    + exists [2; 2]. split; [apply tab1_factors; vm_compute; reflexivity|intros _; cbn; lia].
  - intros g [<-|[<-|[]]]; [exists [1]|exists [2]]; apply gens1_factors.
Qed.
Lemma suggest1 : suggest two_ctx 9 [0; 0] tab1 included1 gens1 = FOk [2].
Proof. vm_compute. reflexivity. Qed.
Lemma only1 : only_one tab1 5.
Proof.
  intros s' l [e [E <-]] [e' [E' X]]. assert (fe_syms e = [2; 2]) as Y by (vm_compute in E; injection E as <-; reflexivity). rewrite Y in X.
  assert (H : nth_error (map fe_syms (ft_entries tab1)) s' = Some [2; 2]) by (now rewrite nth_error_map, E', <- X).
  rewrite (proj1 tab1_shape) in H. destruct s' as [|[|[|[|[|[|s']]]]]]; try discriminate; [reflexivity|]. cbn in H. destruct s'; discriminate.
Qed.
Lemma reaches1 : composite tab1 5 /\ only_one tab1 5 /\ candidate tab1 [5] 2 /\ reaches two_net 2 tab1 [0] 2 5.
Proof.
  assert (F : factors tab1 5 [2; 2]) by (apply tab1_factors; vm_compute; reflexivity).
  split; [exists [2; 2]; split; [exact F|cbn; lia]|]. split; [exact only1|]. split.
  - exists 5, [2; 2]. split; [now left|]. split; [exact F|]. split; [cbn; lia|now left].
  - exists [2], [2; 2]. split; [apply gens1_factors|]. split; [exact F|]. cbn. apply Permutation_refl.
Qed.
Lemma candidates1 : forall x, candidate tab1 included1 x -> In x [2].
Proof.
  intros x [s [l [I [[e [E <-]] [G J]]]]]. assert (H : nth_error (map fe_syms (ft_entries tab1)) s = Some (fe_syms e)) by (now rewrite nth_error_map, E).
  rewrite (proj1 tab1_shape) in H. destruct I as [<-|[<-|[<-|[]]]]; cbn in H; injection H as H; rewrite <- H in G, J; cbn in G, J; try lia. destruct J as [<-|[<-|[]]]; now left.
Qed.
