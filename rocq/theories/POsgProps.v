(** C18: the Pauli dictionaries. *)
From Coq Require Import List NArith Arith Bool Sorted.
From Verif Require Import CoreModel SiteModel SiteSpec POsgModel POsgSpec POsgAllProofs POsgRingProofs POsgFillProofs POsgTopProofs POsgWitnessProofs.
Import ListNotations.

(** Without a neighbour restriction: each canonical word of at most [level] letters, once; chains and lattices. *)
Theorem C18_all_words : forall wide c level, exists l, pauli_osg wide c level 0 = DOk l /\ lists_once (pc_qubits c) (fun w => length w <= level) l.
Proof. exact all_words_listed. Qed.
Print Assumptions C18_all_words.
Example C18_all_words_case : exists l, pauli_osg wide_cpp (chain_ctx 3 false false) 2 0 = DOk l /\ length l = 37 /\ In [1; 8] (map hs_ops l).
Proof. eexists. split; [vm_compute; reflexivity|]. split; [vm_compute; reflexivity|]. vm_compute. tauto. Qed.

(** Open chains, neighbours up to distance [d]: each word whose consecutive letters are at most [d] apart, once. *)
Theorem C18_open_chain : forall wide c level d, is_lattice c = false -> pc_wrap c = false -> 0 < d ->
  exists l, pauli_osg wide c level d = DOk l /\ lists_once (pc_qubits c) (fun w => length w <= level /\ near d w) l.
Proof. exact open_chain_listed. Qed.
Print Assumptions C18_open_chain.
Example C18_open_chain_case : is_lattice (chain_ctx 4 false false) = false /\ pc_wrap (chain_ctx 4 false false) = false /\ 0 < 2 /\
  exists l, pauli_osg wide_cpp (chain_ctx 4 false false) 2 2 = DOk l /\ length l = 58 /\ In [0; 7] (map hs_ops l) /\ ~ In [0; 10] (map hs_ops l).
Proof.
  split; [reflexivity|]. split; [reflexivity|]. split; [repeat constructor|].
  destruct (lacks [0; 10] (pauli_osg wide_cpp (chain_ctx 4 false false) 2 2) eq_refl) as (l & E & N). exists l. split; [exact E|]. vm_compute in E. injection E as <-.
  split; [vm_compute; reflexivity|]. split; [vm_compute; tauto|exact N].
Qed.

(** Rings: exactly the words that are so after some rotation ... *)
Theorem C18_ring : forall wide c level d, is_lattice c = false -> pc_wrap c = true -> 0 < d ->
  exists l, pauli_osg wide c level d = DOk l /\ lists_words (pc_qubits c) (fun w => length w <= level /\ ring_near (pc_qubits c) d w) l.
Proof. exact ring_words_listed. Qed.
Print Assumptions C18_ring.
(** ... each once, if the longest windows do not close the ring.  Partial: fails without this condition. *)
Theorem C18_ring_once_partial : forall wide c level d, is_lattice c = false -> pc_wrap c = true -> 0 < d -> level <= 1 \/ Nat.min level (pc_qubits c) * d < pc_qubits c ->
  exists l, pauli_osg wide c level d = DOk l /\ lists_once (pc_qubits c) (fun w => length w <= level /\ ring_near (pc_qubits c) d w) l.
Proof. exact ring_listed_once. Qed.
Print Assumptions C18_ring_once_partial.
Example C18_ring_case : is_lattice (chain_ctx 5 true true) = false /\ pc_wrap (chain_ctx 5 true true) = true /\ 0 < 2 /\ Nat.min 2 (pc_qubits (chain_ctx 5 true true)) * 2 < pc_qubits (chain_ctx 5 true true) /\
  exists l, pauli_osg wide_cpp (chain_ctx 5 true true) 2 2 = DOk l /\ In [0; 9] (map hs_ops l).
Proof. repeat split; try (repeat constructor). apply contains. vm_compute. reflexivity. Qed.
(** Three qubits and three letters, two qubits and two letters, four qubits at distance two: words are listed repeatedly. *)
Theorem C18_ring_once_refuted : (exists l, pauli_osg wide_cpp (chain_ctx 3 true false) 3 1 = DOk l /\ ~ NoDup (map hs_ops l)) /\
  (exists l, pauli_osg wide_cpp (chain_ctx 2 true false) 2 1 = DOk l /\ ~ NoDup (map hs_ops l)) /\
  (exists l, pauli_osg wide_cpp (chain_ctx 4 true false) 2 2 = DOk l /\ ~ NoDup (map hs_ops l)).
Proof. exact ring_repeats. Qed.
Print Assumptions C18_ring_once_refuted.

(** Lattices and tori of any size up to two letters: single qubits and neighbouring pairs, each word once. *)
Theorem C18_lattice_pairs : forall wide ch rw wrap sym level, 0 < ch -> level <= 2 ->
  exists l, pauli_osg wide (lattice_ctx ch rw wrap sym) level 1 = DOk l /\
            lists_once (ch * rw) (fun w => length w <= level /\ (length w <= 1 \/ neighbouring_pair wrap ch rw w)) l.
Proof. exact lattice_pairs_listed. Qed.
Print Assumptions C18_lattice_pairs.
Example C18_lattice_pairs_case : 0 < 3 /\ 2 <= 2 /\
  (exists l, pauli_osg wide_cpp (lattice_ctx 3 2 true false) 2 1 = DOk l /\ In [0; 6] (map hs_ops l)) /\
  (exists l, pauli_osg wide_cpp (lattice_ctx 3 2 false false) 2 1 = DOk l /\ ~ In [0; 6] (map hs_ops l)).
Proof. split; [repeat constructor|]. split; [repeat constructor|]. split; [apply contains|apply lacks]; vm_compute; reflexivity. Qed.

(** Open lattices up to four letters.  Partial: the list has every word on rows, columns and corners of three and squares of four, except the
    corners at the bottom right; some words are listed twice. *)
Theorem C18_open_lattice_partial : forall wide ch rw sym level, 0 < ch -> level <= 4 ->
  exists l, pauli_osg wide (lattice_ctx ch rw false sym) level 1 = DOk l /\
    lists_words (ch * rw) (fun w => length w <= level /\ (length w <= 1 \/ neighbouring_pair false ch rw w \/ in_some_triple false ch rw w \/ on_copy false ch rw square w)) l.
Proof. exact open_lattice_listed. Qed.
Print Assumptions C18_open_lattice_partial.
Example C18_open_lattice_case : 0 < 3 /\ 4 <= 4 /\ exists l, pauli_osg wide_cpp (lattice_ctx 3 2 false false) 4 1 = DOk l /\ In [0; 3; 9; 12] (map hs_ops l).
Proof. split; [repeat constructor|]. split; [repeat constructor|]. apply contains. vm_compute. reflexivity. Qed.
(** Tori with as many rows as columns and translation symmetry, up to 16 by 16 (8 by 8: if shifts by 64 bits are benign). *)
Theorem C18_square_torus_partial : forall wide ch level, 3 <= ch -> ch <= 16 -> ch <> 8 \/ benign wide -> level <= 4 ->
  exists l, pauli_osg wide (lattice_ctx ch ch true true) level 1 = DOk l /\
    lists_words (ch * ch) (fun w => length w <= level /\ (length w <= 1 \/ neighbouring_pair true ch ch w \/ in_some_triple true ch ch w \/ on_copy true ch ch square w)) l.
Proof. exact square_torus_listed. Qed.
Print Assumptions C18_square_torus_partial.
Example C18_square_torus_case : 3 <= 3 /\ 3 <= 16 /\ 3 <> 8 /\ 3 <= 4 /\ exists l, pauli_osg wide_cpp (lattice_ctx 3 3 true true) 3 1 = DOk l /\ In [0; 6; 15] (map hs_ops l).
Proof. repeat split; try (repeat constructor); try discriminate. apply contains. vm_compute. reflexivity. Qed.

(** The corner at the bottom right is missing, the one at the top right is listed twice. *)
Theorem C18_corner_missing_refuted : exists ch rw l w, pauli_osg wide_cpp (lattice_ctx ch rw false false) 3 1 = DOk l /\ pauli_word (ch * rw) w /\ in_triple false ch rw w /\ ~ In w (map hs_ops l).
Proof. exact corner_missing. Qed.
Print Assumptions C18_corner_missing_refuted.
Theorem C18_corner_twice_refuted : exists ch rw l, pauli_osg wide_cpp (lattice_ctx ch rw false false) 3 1 = DOk l /\ ~ NoDup (map hs_ops l).
Proof. exact corner_repeated. Qed.
Print Assumptions C18_corner_twice_refuted.
(** A torus with more rows than columns: corners in the last rows are missing. *)
Theorem C18_oblong_torus_refuted : exists ch rw l w, pauli_osg wide_cpp (lattice_ctx ch rw true true) 3 1 = DOk l /\ pauli_word (ch * rw) w /\ on_copy true ch rw top_left w /\ ~ In w (map hs_ops l).
Proof. exact torus_missing. Qed.
Print Assumptions C18_oblong_torus_refuted.
(** The torus of eight by eight: undefined behaviour. *)
Theorem C18_eight_by_eight_refuted : pauli_osg wide_cpp (lattice_ctx 8 8 true true) 3 1 = DUndef.
Proof. exact eight_undefined. Qed.
Print Assumptions C18_eight_by_eight_refuted.

(** Lattice dictionaries that are refused: longer distances, more than four letters, tori without translation symmetry. *)
Theorem C18_lattice_limits : forall wide ch rw wrap sym level d, 0 < ch -> 1 < d \/ (d = 1 /\ 5 <= Nat.min level (ch * rw)) ->
  pauli_osg wide (lattice_ctx ch rw wrap sym) level d = DThrow.
Proof. exact lattice_limits. Qed.
Print Assumptions C18_lattice_limits.
Example C18_lattice_limits_case : 0 < 3 /\ 5 <= Nat.min 5 (3 * 2).
Proof. split; repeat constructor. Qed.
Theorem C18_torus_needs_symmetry : forall wide ch rw level, 2 <= ch -> 2 <= rw -> 3 <= level -> pauli_osg wide (lattice_ctx ch rw true false) level 1 = DThrow.
Proof. exact torus_needs_symmetry. Qed.
Print Assumptions C18_torus_needs_symmetry.
Example C18_torus_needs_symmetry_case : 2 <= 2 /\ 2 <= 3 /\ 3 <= 3.
Proof. repeat split; repeat constructor. Qed.

(** Fills of all copies of a set of qubits: open chains and lattices, ... *)
Theorem C18_open_fill : forall wide c sites check, pc_wrap c = false -> pc_qubits c = nw_col c * nw_row c -> 0 < nw_col c -> StronglySorted lt sites -> sites <> [] ->
  exists l, symmetrical_fill wide c sites check = DOk l /\ lists_once (pc_qubits c) (on_copy false (nw_col c) (nw_row c) (coords (nw_col c) sites)) l.
Proof. exact open_fill. Qed.
Print Assumptions C18_open_fill.
Example C18_open_fill_case : pc_wrap (lattice_ctx 3 2 false false) = false /\ pc_qubits (lattice_ctx 3 2 false false) = nw_col (lattice_ctx 3 2 false false) * nw_row (lattice_ctx 3 2 false false) /\
  0 < nw_col (lattice_ctx 3 2 false false) /\ StronglySorted lt [0; 4] /\ [0; 4] <> [] /\ exists l, symmetrical_fill wide_cpp (lattice_ctx 3 2 false false) [0; 4] true = DOk l /\ In [3; 15] (map hs_ops l).
Proof.
  split; [reflexivity|]. split; [reflexivity|]. split; [repeat constructor|]. split; [repeat constructor|]. split; [discriminate|]. apply contains. vm_compute. reflexivity.
Qed.
(** ... rings, none twice if asked to check for aliases ... *)
Theorem C18_ring_fill : forall wide n sites check, n <= 256 -> n <= 32 \/ benign wide -> StronglySorted lt sites -> sites <> [] -> (forall q, In q sites -> q < n) -> length sites <= 16 ->
  exists l, symmetrical_fill wide (chain_ctx n true true) sites check = DOk l /\ lists_words n (on_copy true n 1 (coords n sites)) l /\
            (check = true -> NoDup (map hs_ops l)).
Proof. exact ring_fill. Qed.
Print Assumptions C18_ring_fill.
Example C18_ring_fill_case : StronglySorted lt [0; 2] /\ (forall q, In q [0; 2] -> q < 4) /\
  (exists l, symmetrical_fill wide_cpp (chain_ctx 4 true true) [0; 2] true = DOk l /\ length l = 18) /\
  (exists l, symmetrical_fill wide_cpp (chain_ctx 4 true true) [0; 2] false = DOk l /\ length l = 36).
Proof.
  split; [repeat constructor|]. split; [intros q [<-|[<-|[]]]; repeat constructor|]. split; eexists; (split; [vm_compute; reflexivity|reflexivity]).
Qed.
(** ... and tori with as many rows as columns. *)
Theorem C18_torus_fill : forall wide ch sites check, 1 < ch -> ch <= 16 -> ch <> 8 \/ benign wide -> StronglySorted lt sites -> sites <> [] -> (forall q, In q sites -> q < ch * ch) -> length sites <= 16 ->
  exists l, symmetrical_fill wide (lattice_ctx ch ch true true) sites check = DOk l /\ lists_words (ch * ch) (on_copy true ch ch (coords ch sites)) l /\
            (check = true -> NoDup (map hs_ops l)).
Proof. exact torus_fill. Qed.
Print Assumptions C18_torus_fill.
Example C18_torus_fill_case : StronglySorted lt [0; 1; 2] /\ (forall q, In q [0; 1; 2] -> q < 3 * 3) /\
  exists l, symmetrical_fill wide_cpp (lattice_ctx 3 3 true true) [0; 1; 2] true = DOk l /\ length l = 81.
Proof.
  split; [repeat constructor|]. split; [intros q [<-|[<-|[<-|[]]]]; repeat constructor|]. eexists; (split; [vm_compute; reflexivity|reflexivity]).
Qed.
(** On an oblong torus the check does not prevent repetitions; on rings of more than 32 qubits the fill is undefined behaviour. *)
Theorem C18_oblong_fill_refuted : exists ch rw l, symmetrical_fill wide_cpp (lattice_ctx ch rw true true) [0; 1] true = DOk l /\ ~ NoDup (map hs_ops l).
Proof. exact checked_repeats. Qed.
Print Assumptions C18_oblong_fill_refuted.
Theorem C18_long_ring_refuted : symmetrical_fill wide_cpp (chain_ctx 33 true true) [0; 1] true = DUndef.
Proof. exact long_ring_undefined. Qed.
Print Assumptions C18_long_ring_refuted.
