(** C78: what suggested extensions are good for. *)
From Coq Require Import List Arith Bool Permutation.
From Verif Require Import CoreModel AlgModel InfModel InfSpec InfWitnessProofs TreeModel FTabModel FTabSpec FTabWitnessProofs SugModel SugSpec SugWitnessProofs.
Import ListNotations.

(** The search ends with one result. *)
Theorem C78_ends : forall outcomes srcs nt L, make_network outcomes srcs = Some nt -> forall t, sound_table srcs nt L t -> forall included gens, suggestible nt L t included gens ->
  exists chosen, settles nt L (fun fuel scratch => suggest (inflate nt L) fuel scratch t included gens) chosen.
Proof. exact w_ends. Qed.
Print Assumptions C78_ends.

(** The result lists factors of products that are in the matrix, none twice and not more than the limit; each makes a product of its own, one that is in the matrix, an entry of the extended matrix. *)
Theorem C78_useful : forall outcomes srcs nt L, make_network outcomes srcs = Some nt -> forall t, sound_table srcs nt L t -> forall included gens, suggestible nt L t included gens ->
  forall fuel scratch chosen, length scratch = total_sources nt L -> suggest (inflate nt L) fuel scratch t included gens = FOk chosen ->
  NoDup chosen /\ length chosen <= max_extensions /\ (forall x, In x chosen -> candidate t included x) /\
  exists ss, Forall2 (fun x s => exists g, In g gens /\ reaches nt L t g x s) chosen ss /\ NoDup ss /\ forall s, In s ss -> In s included /\ composite t s.
Proof. exact w_useful. Qed.
Print Assumptions C78_useful.

(** If the factors of such products are not more than the limit, then every product that one of them can make an entry of the extended matrix is made one by the result. *)
Theorem C78_complete : forall outcomes srcs nt L, make_network outcomes srcs = Some nt -> forall t, sound_table srcs nt L t -> forall included gens, suggestible nt L t included gens ->
  forall fuel scratch chosen cs, length scratch = total_sources nt L -> suggest (inflate nt L) fuel scratch t included gens = FOk chosen ->
  (forall x, candidate t included x -> In x cs) -> length cs <= max_extensions ->
  forall s g x, In s included -> composite t s -> only_one t s -> In g gens -> candidate t [s] x -> reaches nt L t g x s ->
  exists g' y, In g' gens /\ In y chosen /\ reaches nt L t g' y s.
Proof. exact w_complete. Qed.
Print Assumptions C78_complete.

Example C78_matrix : make_network [2; 2] [[0; 1]] = Some two_net /\ sound_table [[0; 1]] two_net 2 tab1 /\ suggestible two_net 2 tab1 included1 gens1.
Proof. exact (conj two_made (conj tab1_sound suggestible1)). Qed.
Example C78_suggestion : length [0; 0] = total_sources two_net 2 /\ suggest (inflate two_net 2) 9 [0; 0] tab1 included1 gens1 = FOk [2] /\ (forall x, candidate tab1 included1 x -> In x [2]) /\ In 5 included1 /\
  In [0] gens1 /\ composite tab1 5 /\ only_one tab1 5 /\ candidate tab1 [5] 2 /\ reaches two_net 2 tab1 [0] 2 5.
Proof. exact (conj two_scratch (conj suggest1 (conj candidates1 (conj (or_intror (or_intror (or_introl eq_refl))) (conj (or_intror (or_introl eq_refl)) reaches1))))). Qed.
