(** Extended moment matrices of inflation scenarios: C60 and C61. *)
From Coq Require Import List NArith ZArith Arith Bool Permutation.
From Verif Require Import CoreModel FieldModel AlgModel InfModel InfSpec InfWitnessProofs TreeModel FTabModel FTabSpec FTabWitnessProofs ExtMatModel ExtMatSpec ExtMatProofs ExtMatProgProofs ExtMatWitnessProofs.
Import ListNotations.

(** C60: with at most one extension scalar, or enough room in the table, the extended matrix is made: the old matrix, its rows and columns
    times the scalars, and the products of scalars; every product has the only symbol with its factors or one known before. *)
Theorem C60_extended : forall outcomes srcs nt L, make_network outcomes srcs = Some nt -> forall grow_to (A : Type) (mono : nat -> A) t src words cols exts,
  sound_table srcs nt L t -> generators nt L t words cols -> (forall s, In s exts -> s < length (ft_syms t)) ->
  length exts <= 1 \/ length (ft_entries t) + (length cols + length exts) * length exts <= ft_cap t ->
  exists t' m, settles nt L (fun fuel scratch => extend_single mono (inflate nt L) fuel scratch grow_to t (length words) src words exts) (t', m) /\
    sound_table srcs nt L t' /\ grows t t' /\ fresh t t' /\ extended mono t' src cols exts m.
Proof. exact single_safe. Qed.
Print Assumptions C60_extended.
Example C60_extended_holds : make_network [2; 2] [[0; 1]] = Some two_net /\ sound_table [[0; 1]] two_net 2 tab1 /\ generators two_net 2 tab1 [[]] [1] /\
  (forall s, In s [3] -> s < length (ft_syms tab1)) /\ length [3] <= 1.
Proof. exact (conj two_made (conj tab1_sound (conj two_gens1 (conj safe_one (le_n 1))))). Qed.

(** C60: in every case the outcome is the extended matrix, or, with two or more scalars and too little room, undefined behaviour. *)
Theorem C60_outcome : forall outcomes srcs nt L, make_network outcomes srcs = Some nt -> forall grow_to (A : Type) (mono : nat -> A) t src words cols exts,
  sound_table srcs nt L t -> generators nt L t words cols -> (forall s, In s exts -> s < length (ft_syms t)) ->
  (2 <= length exts /\ ft_cap t < length (ft_entries t) + (length cols + length exts) * length exts /\
   (exists k, forall fuel scratch, k <= fuel -> length scratch = total_sources nt L ->
     extend_single mono (inflate nt L) fuel scratch grow_to t (length words) src words exts = FUndef) /\
   (forall fuel scratch, length scratch = total_sources nt L ->
     extend_single mono (inflate nt L) fuel scratch grow_to t (length words) src words exts = FUndef \/
     extend_single mono (inflate nt L) fuel scratch grow_to t (length words) src words exts = FFuel)) \/
  exists t' m, settles nt L (fun fuel scratch => extend_single mono (inflate nt L) fuel scratch grow_to t (length words) src words exts) (t', m) /\
    sound_table srcs nt L t' /\ grows t t' /\ fresh t t' /\ extended mono t' src cols exts m.
Proof. exact single_ok. Qed.
Print Assumptions C60_outcome.
Example C60_outcome_holds : generators two_net 2 tab1 [[]; [0]] [1; 2] /\ length (ft_syms tab1) = 6 /\
  shown 4 (extend_single same (inflate two_net 2) 9 [0; 0] doubling tab1 2 src2 [[]; [0]] [2; 3]) = Some [[1; 2; 2; 3]; [2; 2; 5; 6]; [2; 5; 5; 6]; [3; 6; 6; 7]].
Proof. exact single_case. Qed.

(** C60: a scalar without a symbol is refused before anything changes. *)
Theorem C60_unknown : forall nt L grow_to (A : Type) (mono : nat -> A) t src words exts fuel scratch,
  (exists s, In s exts /\ length (ft_syms t) <= s) -> extend_single mono (inflate nt L) fuel scratch grow_to t (length words) src words exts = FThrow.
Proof. exact single_unknown. Qed.
Print Assumptions C60_unknown.

(** Finding 65: the corner uses a reference into the table after the table may have moved. *)
Theorem C60_dangling_refuted : exists outcomes srcs nt L (t : ftab) (src : nat -> nat -> nat) words cols exts,
  make_network outcomes srcs = Some nt /\ sound_table srcs nt L t /\ generators nt L t words cols /\ (forall s, In s exts -> s < length (ft_syms t)) /\
  exists fuel scratch, length scratch = total_sources nt L /\ extend_single (fun k => k) (inflate nt L) fuel scratch doubling t (length words) src words exts = FUndef.
Proof. exact w_realloc. Qed.
Print Assumptions C60_dangling_refuted.

(** C61: whatever the schedule, either every thread can be run to its end and the result is the extended matrix, in which every new symbol is
    the only one with its factors, or the program is terminated; and that only if a new list of factors begins another. *)
Theorem C61_parallel : forall outcomes srcs nt L, make_network outcomes srcs = Some nt -> forall t cols exts workers,
  sound_table srcs nt L t -> (forall k, In k cols -> k < length (ft_syms t)) -> (forall k, In k exts -> k < length (ft_syms t)) ->
  forall (A : Type) (mono : nat -> A) src grow_to, 0 < workers ->
  exists progs, programs t cols exts workers = FOk progs /\ forall order,
    (mrun mono t (length cols) src progs (mstart mono progs) order = FTerminate /\ clash t progs) \/
    exists s, mrun mono t (length cols) src progs (mstart mono progs) order = FOk s /\
      ((forall w prog, nth_error progs w = Some prog -> 2 * length prog <= count_occ Nat.eq_dec order w) -> mdone progs s) /\
      (mdone progs s -> let t' := fst (mfinish t grow_to s) in
        sound_table srcs nt L t' /\ grows t t' /\ fresh t t' /\ extended mono t' src cols exts (snd (mfinish t grow_to s))).
Proof. exact parallel_ok. Qed.
Print Assumptions C61_parallel.
Example C61_parallel_holds : (forall k, In k [1] -> k < length (ft_syms tab1)) /\ (forall k, In k [2; 5] -> k < length (ft_syms tab1)) /\
  exists s, mrun same tab1 1 src2 progs2 (mstart same progs2) order_a = FOk s /\ mdone progs2 s.
Proof. exact (conj (proj1 range2) (conj (proj2 range2) order_a_ok)). Qed.

(** C61: if no symbol involved is a product, the program is never terminated. *)
Theorem C61_no_products : forall outcomes srcs nt L, make_network outcomes srcs = Some nt -> forall t cols exts workers,
  sound_table srcs nt L t -> (forall k, In k cols -> k < length (ft_syms t)) -> (forall k, In k exts -> k < length (ft_syms t)) ->
  (forall k, In k cols \/ In k exts -> exists j, j <> 0 /\ factors t k [j]) -> exists progs, programs t cols exts workers = FOk progs /\ ~ clash t progs.
Proof. exact parallel_single. Qed.
Print Assumptions C61_no_products.
Example C61_no_products_holds : (forall k, In k [1; 2] \/ In k [2; 3] -> exists j, j <> 0 /\ factors tab1 k [j]) /\
  (forall k, In k [1; 2] -> k < length (ft_syms tab1)) /\ (forall k, In k [2; 3] -> k < length (ft_syms tab1)).
Proof. exact single23. Qed.

(** Finding 66: on the same input one schedule makes the matrix and another terminates the program. *)
Theorem C61_terminate_refuted : exists outcomes srcs nt L (t : ftab) (src : nat -> nat -> nat) cols exts workers progs order order',
  make_network outcomes srcs = Some nt /\ sound_table srcs nt L t /\ (forall k, In k cols -> k < length (ft_syms t)) /\ (forall k, In k exts -> k < length (ft_syms t)) /\
  programs t cols exts workers = FOk progs /\ Permutation order order' /\
  (exists s, mrun (fun k => k) t (length cols) src progs (mstart (fun k => k) progs) order = FOk s /\ mdone progs s) /\
  mrun (fun k => k) t (length cols) src progs (mstart (fun k => k) progs) order' = FTerminate.
Proof. exact w_terminate. Qed.
Print Assumptions C61_terminate_refuted.

(** Finding 67: with several threads a scalar without a symbol is not refused. *)
Theorem C61_unknown_refuted : exists outcomes srcs nt L t cols exts workers, make_network outcomes srcs = Some nt /\ sound_table srcs nt L t /\ (forall k, In k cols -> k < length (ft_syms t)) /\ 0 < workers /\
  programs t cols exts workers = FUndef.
Proof. exact w_range. Qed.
Print Assumptions C61_unknown_refuted.
