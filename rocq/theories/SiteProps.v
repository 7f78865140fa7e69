(** C32-C34: packed qubit words and translation-canonical Pauli words. *)
From Coq Require Import List NArith ZArith Arith Bool Sorted.
From Verif Require Import CoreModel SiteModel SiteSpec SiteWordProofs SiteFinalProofs SiteThmProofs SiteOpenProofs SiteWitnessProofs.
Import ListNotations.

(** A hasher for any lattice with columns of at most 32 sites is constructed with the constants it needs. *)
Theorem C32_construct : forall wide col row, 0 < col * row -> col <= 32 \/ benign wide ->
  exists h, make_hasher wide (slides_for (col * row)) col row = SOk h /\ hasher_ok h /\ h_col h = col /\ h_row h = row.
Proof. exact construct_ok. Qed.
Print Assumptions C32_construct.
Example C32_construct_case : 0 < 6 * 12 /\ 6 <= 32 /\ make_hasher wide_cpp (slides_for (6 * 12)) 6 12 = SOk h6C.
Proof. repeat split; try (vm_compute; reflexivity); repeat constructor. Qed.

(** Constructing the hasher of a chain of 33 qubits is undefined behaviour in C++. *)
Theorem C32_construct_refuted : exists n, n <= 256 /\ 0 < n /\ make_wrapping wide_cpp false n 1 = Some SUndef.
Proof. exact construct_refuted. Qed.
Print Assumptions C32_construct_refuted.

(** Packing puts each letter of the word at its qubit, and nothing elsewhere. *)
Theorem C32_hash : forall h w, hasher_ok h -> pauli_word (h_qubits h) w ->
  exists d, site_hash h w = SOk d /\ packed h d /\ forall q, site d q = letter w q.
Proof. exact site_hash_correct. Qed.
Print Assumptions C32_hash.
Example C32_hash_case : hasher_ok h58 /\ pauli_word (h_qubits h58) [22; 60; 95] /\ site_hash h58 [22; 60; 95] = SOk [13835059154793824256; 0]%N.
Proof. split; [exact h58_ok|]. split; [apply pauli_wordb_ok; vm_compute; reflexivity|vm_compute; reflexivity]. Qed.

(** Unpacking gives the unique canonical word with the packed letters. *)
Theorem C32_unhash : forall h d, packed h d ->
  exists w, unhash d = SOk w /\ pauli_word (h_qubits h) w /\ forall q, letter w q = site d q.
Proof. exact unhash_correct. Qed.
Print Assumptions C32_unhash.

(** Round trips. *)
Theorem C32_roundtrip : forall h w, hasher_ok h -> pauli_word (h_qubits h) w -> sbind (site_hash h w) unhash = SOk w.
Proof. exact unhash_hash. Qed.
Print Assumptions C32_roundtrip.
Theorem C32_roundtrip_back : forall h d, hasher_ok h -> packed h d -> sbind (unhash d) (site_hash h) = SOk d.
Proof. exact hash_unhash. Qed.
Print Assumptions C32_roundtrip_back.
Example C32_roundtrip_case : exists d, site_hash h58 [22; 60; 95] = SOk d /\ packed h58 d /\ sbind (unhash d) (site_hash h58) = SOk d.
Proof. exact (witness_roundtrip). Qed.

(** Packing is injective, and hashes compare as the words read from the last qubit. *)
Theorem C32_order : forall h w w', hasher_ok h -> pauli_word (h_qubits h) w -> pauli_word (h_qubits h) w' ->
  exists d d', site_hash h w = SOk d /\ site_hash h w' = SOk d' /\
  (less d d' = true <-> exists q, q < h_qubits h /\ (letter w q < letter w' q)%N /\ forall t, q < t -> letter w t = letter w' t) /\
  (d = d' <-> w = w').
Proof. exact less_words. Qed.
Print Assumptions C32_order.
Example C32_order_case : hasher_ok h58 /\ pauli_word (h_qubits h58) [22; 60; 95] /\ pauli_word (h_qubits h58) [22; 61; 95].
Proof. split; [exact h58_ok|]. split; apply pauli_wordb_ok; vm_compute; reflexivity. Qed.

(** The packed cyclic shift moves every site by the offset. *)
Theorem C32_cyclic : forall wide h, hasher_ok h -> forall d k, packed h d -> k <= h_qubits h \/ h_slides h <> 1 ->
  exists e, cyclic_shift wide h d k = SOk e /\ packed h e /\ forall q, q < h_qubits h -> site e ((q + k) mod h_qubits h) = site d q.
Proof. exact cyclic_sites. Qed.
Print Assumptions C32_cyclic.
Example C32_cyclic_case : hasher_ok h6C /\ (exists d, site_hash h6C [22; 60; 215] = SOk d /\ packed h6C d) /\ h_slides h6C <> 1.
Proof. exact witness_cyclic. Qed.

(** With one slide, a shift by more than the number of qubits is undefined behaviour. *)
Theorem C32_cyclic_refuted : exists h d k, hasher_ok h /\ packed h d /\ h_slides h = 1 /\ cyclic_shift wide_cpp h d k = SUndef.
Proof. exact cyclic_refuted. Qed.
Print Assumptions C32_cyclic_refuted.

(** On lattices, the row and column shifts are the translations of the torus. *)
Theorem C32_row : forall wide h, hasher_ok h -> rows_ok wide h -> forall d k, packed h d ->
  k <= h_col h \/ h_slides h <= 2 \/ h_col h = h_row h ->
  exists e, row_cyclic_shift wide h d k = SOk e /\ packed h e /\
    forall row col, row < h_col h -> col < h_row h -> site e (col * h_col h + (row + k) mod h_col h) = site d (col * h_col h + row).
Proof. exact row_shift_sites. Qed.
Print Assumptions C32_row.
Theorem C32_col : forall wide h, hasher_ok h -> forall d k, packed h d ->
  exists e, col_shift wide h d k = SOk e /\ packed h e /\
    forall row col, row < h_col h -> col < h_row h -> site e ((col + k) mod h_row h * h_col h + row) = site d (col * h_col h + row).
Proof. exact col_shift_sites. Qed.
Print Assumptions C32_col.
Example C32_row_case : hasher_ok h6C /\ rows_ok wide_cpp h6C /\ (exists d, site_hash h6C [22; 60; 215] = SOk d /\ packed h6C d) /\ 5 <= h_col h6C.
Proof. exact witness_row. Qed.

(** Two slides and a column height dividing 32: shift by 64, undefined behaviour. *)
Theorem C32_row_refuted : exists h w, hasher_ok h /\ h_slides h = 2 /\ pauli_word (h_qubits h) w /\ wrap_canonical wide_cpp h w = SUndef.
Proof. exact row_refuted. Qed.
Print Assumptions C32_row_refuted.

(** A column taken out of a hash holds the column's sites. *)
Theorem C32_column : forall wide h d c, hasher_ok h -> h_col h <= 32 -> (h_slides h = 2 -> 32 mod h_col h <> 0 \/ benign wide) ->
  packed h d -> c < h_row h ->
  exists x, extract_column wide h d c = SOk x /\ (x < 4 ^ N.of_nat (h_col h))%N /\
            forall row, row < h_col h -> ((x / 4 ^ N.of_nat row) mod 4)%N = site d (c * h_col h + row).
Proof. exact extract_ok. Qed.
Print Assumptions C32_column.
Example C32_column_case : hasher_ok h6C /\ h_col h6C <= 32 /\ h_slides h6C <> 2 /\ 10 < h_row h6C /\
  (exists d, site_hash h6C [22; 60; 215] = SOk d /\ packed h6C d).
Proof. exact witness_column. Qed.

(** The first alias of a chain hash is its least period. *)
Theorem C32_alias : forall wide h d, hasher_ok h -> packed h d ->
  exists k, first_chain_alias wide h d = SOk k /\ 0 < k <= h_qubits h /\
    (forall q, q < h_qubits h -> site d ((q + k) mod h_qubits h) = site d q) /\
    forall j, 0 < j < k -> exists q, q < h_qubits h /\ site d ((q + j) mod h_qubits h) <> site d q.
Proof. exact alias_ok. Qed.
Print Assumptions C32_alias.
Example C32_alias_case : sbind (site_hash h43 [0; 9; 18; 27]) (first_chain_alias wide_cpp h43) = SOk 3.
Proof. vm_compute. reflexivity. Qed.

(** The representative of a word on a closed chain is a translate of it, ... *)
Theorem C33_chain_translate : forall wide h, hasher_ok h -> h_row h = 1 -> forall w, pauli_word (h_qubits h) w ->
  exists w0 k, wrap_canonical wide h w = SOk w0 /\ chain_moved (h_qubits h) k w w0.
Proof. exact chain_canonical_translate. Qed.
Print Assumptions C33_chain_translate.
(** ... two words have the same representative exactly when they are translates of each other, ... *)
Theorem C33_chain_decides : forall wide h, hasher_ok h -> h_row h = 1 -> forall w w', pauli_word (h_qubits h) w -> pauli_word (h_qubits h) w' ->
  (wrap_canonical wide h w = wrap_canonical wide h w' <-> chain_equivalent (h_qubits h) w w').
Proof. exact chain_canonical_decides. Qed.
Print Assumptions C33_chain_decides.
(** ... a word is found canonical exactly when it is its own representative, ... *)
Theorem C33_chain_is_canonical : forall wide h, hasher_ok h -> h_row h = 1 -> forall w, pauli_word (h_qubits h) w ->
  exists r, wrap_is_canonical wide h w = SOk r /\ (r = true <-> wrap_canonical wide h w = SOk w).
Proof. exact chain_canonical_is. Qed.
Print Assumptions C33_chain_is_canonical.
(** ... and the representative is the least translate that touches the first qubit. *)
Theorem C33_chain_minimal : forall wide h, hasher_ok h -> h_row h = 1 -> forall w, pauli_word (h_qubits h) w -> w <> [] ->
  exists w0, wrap_canonical wide h w = SOk w0 /\ letter w0 0 <> 0%N /\
  forall k w', chain_moved (h_qubits h) k w w' -> letter w' 0 <> 0%N -> w' <> w0 ->
    exists q, q < h_qubits h /\ (letter w0 q < letter w' q)%N /\ forall t, q < t -> letter w0 t = letter w' t.
Proof. exact chain_canonical_minimal. Qed.
Print Assumptions C33_chain_minimal.
Example C33_chain_case : hasher_ok h3 /\ h_row h3 = 1 /\ pauli_word (h_qubits h3) [3; 8] /\ pauli_word (h_qubits h3) [2; 6] /\
  wrap_canonical wide_cpp h3 [3; 8] = SOk [0; 5] /\ wrap_canonical wide_cpp h3 [2; 6] = SOk [0; 5].
Proof. split; [exact h3_ok|]. split; [reflexivity|]. split; [apply pauli_wordb_ok; vm_compute; reflexivity|]. split; [apply pauli_wordb_ok; vm_compute; reflexivity|]. split; vm_compute; reflexivity. Qed.

(** The same on tori. *)
Theorem C33_lattice_translate : forall wide h, hasher_ok h -> h_row h <> 1 -> rows_ok wide h -> forall w, pauli_word (h_qubits h) w ->
  exists w0 r c, wrap_canonical wide h w = SOk w0 /\ lattice_moved (h_col h) (h_row h) r c w w0.
Proof. exact lat_canonical_translate. Qed.
Print Assumptions C33_lattice_translate.
Theorem C33_lattice_decides : forall wide h, hasher_ok h -> h_row h <> 1 -> rows_ok wide h -> forall w w',
  pauli_word (h_qubits h) w -> pauli_word (h_qubits h) w' ->
  (wrap_canonical wide h w = wrap_canonical wide h w' <-> lattice_equivalent (h_col h) (h_row h) w w').
Proof. exact lat_canonical_decides. Qed.
Print Assumptions C33_lattice_decides.
Theorem C33_lattice_is_canonical : forall wide h, hasher_ok h -> h_row h <> 1 -> rows_ok wide h -> forall w, pauli_word (h_qubits h) w ->
  exists r, wrap_is_canonical wide h w = SOk r /\ (r = true <-> wrap_canonical wide h w = SOk w).
Proof. exact lat_canonical_is. Qed.
Print Assumptions C33_lattice_is_canonical.
Theorem C33_lattice_minimal : forall wide h, hasher_ok h -> h_row h <> 1 -> rows_ok wide h -> forall w, pauli_word (h_qubits h) w -> w <> [] ->
  exists w0, wrap_canonical wide h w = SOk w0 /\ letter w0 0 <> 0%N /\
  forall r c w', lattice_moved (h_col h) (h_row h) r c w w' -> letter w' 0 <> 0%N -> w' <> w0 ->
    exists q, q < h_qubits h /\ (letter w0 q < letter w' q)%N /\ forall t, q < t -> letter w0 t = letter w' t.
Proof. exact lat_canonical_minimal. Qed.
Print Assumptions C33_lattice_minimal.
Example C33_lattice_case : hasher_ok h6C /\ h_row h6C <> 1 /\ rows_ok wide_cpp h6C /\ pauli_word (h_qubits h6C) [22; 60; 215] /\
  wrap_canonical wide_cpp h6C [22; 60; 215] = SOk [2; 43; 81].
Proof. exact witness_lattice. Qed.

(** Three slides and more rows than columns: two translates with different representatives. *)
Theorem C33_lattice_refuted : exists h w w' w0 w0', hasher_ok h /\ 2 < h_slides h /\ pauli_word (h_qubits h) w /\
  lattice_moved (h_col h) (h_row h) 1 0 w w' /\ wrap_canonical wide_cpp h w = SOk w0 /\ wrap_canonical wide_cpp h w' = SOk w0' /\ w0 <> w0'.
Proof. exact tall_refuted. Qed.
Print Assumptions C33_lattice_refuted.

(** Moving a word by an offset that is not negative, or on a number of qubits that divides 2^64. *)
Theorem C33_chain_offset : forall wide h w off, hasher_ok h -> pauli_word (h_qubits h) w -> (- 2 ^ 63 <= off < 2 ^ 63)%Z ->
  (0 <= off)%Z \/ (2 ^ 64 mod Z.of_nat (h_qubits h) = 0)%Z ->
  exists w', wrap_chain_offset wide h w off = SOk w' /\ chain_moved (h_qubits h) (Z.to_nat (off mod Z.of_nat (h_qubits h))) w w'.
Proof. exact chain_offset_ok. Qed.
Print Assumptions C33_chain_offset.
Example C33_chain_offset_case : wrap_chain_offset wide_cpp h3 [3; 8] 2 = SOk [0; 5].
Proof. vm_compute. reflexivity. Qed.
Theorem C33_lattice_offset : forall wide h w r c, hasher_ok h -> rows_ok wide h -> pauli_word (h_qubits h) w ->
  (- 2 ^ 63 <= r < 2 ^ 63)%Z -> (- 2 ^ 63 <= c < 2 ^ 63)%Z ->
  (0 <= r /\ 0 <= c)%Z \/ (2 ^ 64 mod Z.of_nat (h_qubits h) = 0)%Z ->
  (h_slides h <= 2 \/ h_col h = h_row h \/ (0 <= r <= Z.of_nat (h_col h))%Z) ->
  exists w', wrap_lattice_offset wide h w r c = SOk w' /\
    lattice_moved (h_col h) (h_row h) (Z.to_nat (r mod Z.of_nat (h_col h))) (Z.to_nat (c mod Z.of_nat (h_row h))) w w'.
Proof. exact lattice_offset_ok. Qed.
Print Assumptions C33_lattice_offset.
Example C33_lattice_offset_case : wrap_lattice_offset wide_cpp h6C [22; 60; 215] 2 3 = SOk [41; 82; 120] /\ (0 <= 2 <= Z.of_nat (h_col h6C))%Z.
Proof. split; [vm_compute; reflexivity|]. split; vm_compute; discriminate. Qed.

(** Negative offsets on three qubits: a move by -1 does nothing. *)
Theorem C33_offset_refuted : exists h w w', hasher_ok h /\ pauli_word (h_qubits h) w /\ wrap_chain_offset wide_cpp h w (-1) = SOk w' /\
  ~ chain_moved (h_qubits h) (Z.to_nat ((-1) mod Z.of_nat (h_qubits h))) w w'.
Proof. exact negative_refuted. Qed.
Print Assumptions C33_offset_refuted.

(** The canonical operator sequence carries the hash of its operators if there are at most 16 of them, ... *)
Theorem C33_sequence_hash : forall r w s, length w <= 16 -> presorted r w s = mk_hseq (hash r w) w s.
Proof. exact presorted_ok. Qed.
Print Assumptions C33_sequence_hash.
Example C33_sequence_hash_case : length [22; 60; 215] <= 16 /\ hs_hash (presorted 217 [22; 60; 215] SPos) = 1096501%N.
Proof. split; [repeat constructor|vm_compute; reflexivity]. Qed.
(** ... but not otherwise: longer words all get the same hash. *)
Theorem C33_sequence_hash_refuted : exists r w w' s, pauli_word 17 w /\ pauli_word 17 w' /\ w <> w' /\
  hs_hash (presorted r w s) = hs_hash (presorted r w' s) /\ hs_hash (presorted r w s) <> hash r w.
Proof. exact presorted_refuted. Qed.
Print Assumptions C33_sequence_hash_refuted.

(** Open chains: the representative is the one translate that touches the first qubit. *)
Theorem C34_chain_canonical : forall w w0, StronglySorted (fun a b => a / 3 < b / 3) w -> w <> [] ->
  w0 = chain_canonical w <-> (exists k, open_chain_moved k w w0) /\ (exists o, In o w0 /\ o / 3 = 0).
Proof. exact chain_touches. Qed.
Print Assumptions C34_chain_canonical.
Theorem C34_chain_decides : forall w w', StronglySorted (fun a b => a / 3 < b / 3) w -> StronglySorted (fun a b => a / 3 < b / 3) w' ->
  chain_canonical w = chain_canonical w' <-> exists k, open_chain_moved k w w'.
Proof. exact open_chain_decides. Qed.
Print Assumptions C34_chain_decides.
Theorem C34_chain_is_canonical : forall w, chain_is_canonical w = true <-> chain_canonical w = w.
Proof. exact open_chain_is. Qed.
Print Assumptions C34_chain_is_canonical.
Example C34_chain_case : StronglySorted (fun a b => a / 3 < b / 3) [22; 60; 215] /\ chain_canonical [22; 60; 215] = [1; 39; 194].
Proof. split; [apply sortedb_ok; vm_compute; reflexivity|vm_compute; reflexivity]. Qed.
(** The supremum is one more than the last qubit touched. *)
Theorem C34_chain_supremum : forall w, StronglySorted (fun a b => a / 3 < b / 3) w ->
  (forall o, In o w -> o / 3 < chain_supremum w) /\ (w <> [] -> exists o, In o w /\ S (o / 3) = chain_supremum w) /\ (w = [] -> chain_supremum w = 0).
Proof. exact open_chain_sup. Qed.
Print Assumptions C34_chain_supremum.
Theorem C34_chain_supremum_polynomial : forall p, (forall w, In w p -> StronglySorted (fun a b => a / 3 < b / 3) w) ->
  (forall w o, In w p -> In o w -> o / 3 < chain_supremum_poly p) /\
  (chain_supremum_poly p = 0 \/ exists w o, In w p /\ In o w /\ S (o / 3) = chain_supremum_poly p).
Proof. exact chain_sup_poly. Qed.
Print Assumptions C34_chain_supremum_polynomial.
Example C34_chain_supremum_case : chain_supremum_poly [[22; 60; 95]; []; [0; 215]] = 72 /\ chain_supremum [22; 60; 95] = 32 /\
  forall w, In w [[22; 60; 95]; []; [0; 215]] -> StronglySorted (fun a b => a / 3 < b / 3) w.
Proof. exact witness_supremum. Qed.
(** Offsets move the word, as long as no operator falls off the first end. *)
Theorem C34_chain_offset : forall w k, (forall o, In o w -> (0 <= Z.of_nat (o / 3) + k)%Z) ->
  exists w', do_chain_offset w k = map Z.of_nat w' /\ open_chain_moved k w w'.
Proof. exact chain_offset_moved. Qed.
Print Assumptions C34_chain_offset.
Example C34_chain_offset_case : do_chain_offset [22; 60; 215] (-7) = [1; 39; 194]%Z.
Proof. vm_compute. reflexivity. Qed.

(** Open lattices: the representative is the one translate that touches the first row and the first column. *)
Theorem C34_lattice_canonical : forall ch w w0, 0 < ch -> StronglySorted (fun a b => a / 3 < b / 3) w -> w <> [] ->
  w0 = lattice_canonical ch w <->
  (exists r c, open_moved ch r c w w0) /\ (exists o, In o w0 /\ (o / 3) mod ch = 0) /\ (exists o, In o w0 /\ o / 3 / ch = 0).
Proof. exact lattice_touches. Qed.
Print Assumptions C34_lattice_canonical.
Theorem C34_lattice_decides : forall ch w w', 0 < ch -> StronglySorted (fun a b => a / 3 < b / 3) w -> StronglySorted (fun a b => a / 3 < b / 3) w' ->
  lattice_canonical ch w = lattice_canonical ch w' <-> exists r c, open_moved ch r c w w'.
Proof. exact lattice_decides. Qed.
Print Assumptions C34_lattice_decides.
Theorem C34_lattice_is_canonical : forall ch w, 0 < ch -> StronglySorted (fun a b => a / 3 < b / 3) w ->
  lattice_is_canonical ch w = true <-> lattice_canonical ch w = w.
Proof. exact lattice_is. Qed.
Print Assumptions C34_lattice_is_canonical.
Theorem C34_lattice_supremum : forall ch w, 0 < ch -> StronglySorted (fun a b => a / 3 < b / 3) w ->
  let s := lattice_supremum ch w in
  (forall o, In o w -> (o / 3) mod ch < fst s /\ o / 3 / ch < snd s) /\
  (w <> [] -> (exists o, In o w /\ S ((o / 3) mod ch) = fst s) /\ (exists o, In o w /\ S (o / 3 / ch) = snd s)) /\ (w = [] -> s = (0, 0)).
Proof. exact lattice_sup. Qed.
Print Assumptions C34_lattice_supremum.
Theorem C34_lattice_offset : forall ch w r c, 0 < ch ->
  (forall o, In o w -> (0 <= Z.of_nat ((o / 3) mod ch) + r < Z.of_nat ch)%Z /\ (0 <= Z.of_nat (o / 3 / ch) + c)%Z) ->
  exists w', lattice_offset ch w r c = map Z.of_nat w' /\ open_moved ch r c w w'.
Proof. exact lattice_offset_moved. Qed.
Print Assumptions C34_lattice_offset.
Example C34_lattice_case : StronglySorted (fun a b => a / 3 < b / 3) [22; 60; 215] /\ lattice_minimum 6 [22; 60; 215] = (1, 1) /\
  lattice_canonical 6 [22; 60; 215] = [1; 39; 194] /\ lattice_supremum 6 [22; 60; 215] = (6, 12) /\ lattice_offset 6 [22; 60] 1 2 = [61; 99]%Z.
Proof. split; [apply sortedb_ok; vm_compute; reflexivity|]. repeat split; vm_compute; reflexivity. Qed.
