(** C19, C20, C21: generation of operator matrices.
    [exec (start ps m) l s]: the threads [ps], started on memory [m], can reach state [s] with the interleaving [l].
    [programs f cj sm rows cols nonh can_alias N throws]: main thread and [N] workers generating the matrix of [f] over [rows] and
    [cols]; [nonh] selects the generic mode instead of the Hermitian one (which computes only one half and mirrors it). *)
From Coq Require Import List NArith Arith Bool.
From Verif Require Import CoreModel CoreSpec AlgModel AlgSpec AlgWitnessProofs PauliModel PauliSpec LocModel LocSpec ParModel ParProofs MatModel MatSpec MatProofs MatRunProofs
  MatInstModel MatInstSpec MatInstProofs MatStarProofs MatWitnessProofs MatFinalProofs SymInstProofs.
Import ListNotations.

(* ------------------------------------------------------------------------------------------------ C19 *)
(** Generic mode: whatever the functor, the number of threads and the schedule, the matrices returned are those of the
    single-threaded code. *)
Theorem C19_parallel_equals_sequential : forall (A : Type) (f : A -> A -> A) (cj sm : A -> A) rows cols can_alias N l s,
  length rows = length cols -> 0 < N ->
  exec (start (programs f cj sm rows cols true can_alias N nothing_throws) (fresh cols)) l s -> finished s ->
  m_ret (c_mem s) = Some (map Some (st_generate f rows cols)) /\
  m_ret_al (c_mem s) = if can_alias then Some (map Some (st_aliased sm (st_generate f rows cols))) else None.
Proof. intros A f cj sm rows cols can_alias N l s Hl HN. apply (parallel_result f cj sm rows cols true can_alias N l s Hl HN); discriminate. Qed.
Print Assumptions C19_parallel_equals_sequential.

(** Hermitian mode: the same, if the functor really makes a Hermitian matrix (and simplification to moments respects conjugation). *)
Theorem C19_parallel_hermitian : forall (A : Type) (f : A -> A -> A) (cj sm : A -> A) rows cols nonh can_alias N l s,
  length rows = length cols -> 0 < N -> (nonh = false -> hermitian_by f cj rows cols) ->
  (nonh = false -> can_alias = true -> forall x, In x (st_generate f rows cols) -> sm (cj x) = cj (sm x)) ->
  exec (start (programs f cj sm rows cols nonh can_alias N nothing_throws) (fresh cols)) l s -> finished s ->
  m_ret (c_mem s) = Some (map Some (st_generate f rows cols)) /\
  m_ret_al (c_mem s) = if can_alias then Some (map Some (st_aliased sm (st_generate f rows cols))) else None.
Proof. exact (@parallel_result). Qed.
Print Assumptions C19_parallel_hermitian.

(** Moment matrices, in either mode, of every context whose words have an involution ... *)
Theorem C19_moment_matrix : forall mul cj D L, star_words mul cj D L ->
  forall sm lev d nonh N l s, Forall (D lev) d -> lev + lev <= L -> 0 < N ->
  exec (start (programs (moment_functor mul) (rconj cj) sm (row_gen cj d) (col_gen d) nonh false N nothing_throws) (fresh (col_gen d))) l s -> finished s ->
  m_ret (c_mem s) = Some (map Some (moment_matrix mul cj d)).
Proof. exact moment_parallel. Qed.
Print Assumptions C19_moment_matrix.

Theorem C19_moment_matrix_aliased : forall mul cj D L, star_words mul cj D L ->
  forall sm lev d nonh N l s, Forall (D lev) d -> lev + lev <= L -> 0 < N ->
  (forall x, In x (moment_matrix mul cj d) -> sm (rconj cj x) = rconj cj (sm x)) ->
  exec (start (programs (moment_functor mul) (rconj cj) sm (row_gen cj d) (col_gen d) nonh true N nothing_throws) (fresh (col_gen d))) l s -> finished s ->
  m_ret (c_mem s) = Some (map Some (moment_matrix mul cj d)) /\ m_ret_al (c_mem s) = Some (map Some (map sm (moment_matrix mul cj d))).
Proof. exact moment_parallel_aliased. Qed.
Print Assumptions C19_moment_matrix_aliased.

(** ... which are: *)
Theorem C19_locality_words : forall sc L, loc_safe sc L -> star_words (loc_multiply sc) (loc_conjugate sc) (loc_wf sc) L.
Proof. exact loc_star. Qed.
Print Assumptions C19_locality_words.

Theorem C19_pauli_words : forall n L, pauli_safe n L -> star_words (pauli_mul n) pauli_conj (fun l q => pauli_wf n l q /\ hs_hash q <> 0%N) L.
Proof. exact pauli_star. Qed.
Print Assumptions C19_pauli_words.

(** (complete rules; canonical words; phases only where conjugation keeps them; enough fuel) *)
Theorem C19_algebraic_words : forall L M c ctx fc, decidable_context L M c ctx -> is_complete fc (ac_rules ctx) true = Ret true ->
  exists n, forall fuel, n <= fuel ->
  star_words (multiply fuel ctx) (conjugate fuel ctx) (fun l q => (canonical L ctx q /\ phase_safe c ctx q) /\ length (hs_ops q) <= l) L.
Proof. exact alg_star. Qed.
Print Assumptions C19_algebraic_words.

(** Localizing matrices: the mode is chosen by should_be_hermitian, and the result is that of the single-threaded code provided
    that a word judged Hermitian is Hermitian ... *)
Theorem C19_localizing_matrix : forall mul cj D L, star_words mul cj D L ->
  forall sm lev k w d should unexpected N l s, Forall (D lev) d -> D k w -> lev + k + lev <= L -> 0 < N ->
  (should = true -> cj w = Ret w) ->
  exec (start (programs (localizing_functor mul w) (rconj cj) sm (row_gen cj d) (col_gen d) (could_be_non_hermitian should unexpected) false N nothing_throws) (fresh (col_gen d))) l s -> finished s ->
  m_ret (c_mem s) = Some (map Some (localizing_matrix mul cj w d)).
Proof. exact localizing_parallel. Qed.
Print Assumptions C19_localizing_matrix.

(** ... which is so in locality and in Pauli contexts ... *)
Theorem C19_localizing_word_locality : forall sc L w, loc_safe sc L -> loc_wf sc L w ->
  localizing_should_be_hermitian (loc_conjugate sc) w = Ret true -> loc_conjugate sc w = Ret w.
Proof. exact loc_word_hermitian. Qed.
Print Assumptions C19_localizing_word_locality.

Theorem C19_localizing_word_pauli : forall w, pauli_localizing_should_be_hermitian w = true -> pauli_conj w = Ret w.
Proof. intros w H. apply pauli_real_conj. unfold pauli_localizing_should_be_hermitian in H. now destruct (hs_imaginary w). Qed.
Print Assumptions C19_localizing_word_pauli.

(** ... but not in algebraic contexts, even with complete rules: only hashes are compared.  With Y X -> -X Y and the word X Y, whose
    conjugate is -X Y, the parallel code mirrors the wrong sign. *)
Theorem C19_localizing_refuted : exists L M c ctx fc fuel w d l s,
  decidable_context L M c ctx /\ is_complete fc (ac_rules ctx) true = Ret true /\
  (canonical L ctx w /\ phase_safe c ctx w) /\ Forall (fun q => canonical L ctx q /\ phase_safe c ctx q) d /\
  localizing_should_be_hermitian (conjugate fuel ctx) w = Ret true /\
  exec (start (programs (localizing_functor (multiply fuel ctx) w) (rconj (conjugate fuel ctx)) (fun x => x) (row_gen (conjugate fuel ctx) d) (col_gen d)
         (could_be_non_hermitian true false) false 1 nothing_throws) (fresh (col_gen d))) l s /\ finished s /\
  m_ret (c_mem s) <> Some (map Some (localizing_matrix (multiply fuel ctx) (conjugate fuel ctx) w d)).
Proof. exact localizing_refuted. Qed.
Print Assumptions C19_localizing_refuted.

(** Commutator and anticommutator matrices of Pauli contexts. *)
Theorem C19_commutator_matrix : forall n L sm lev k w d unexpected N l s, pauli_safe n L ->
  Forall (fun q => pauli_wf n lev q /\ hs_hash q <> 0%N) d -> pauli_wf n k w -> hs_hash w <> 0%N -> lev + lev <= L -> 0 < N ->
  exec (start (programs (commutator_functor n w) (rconj pauli_conj) sm (row_gen pauli_conj d) (col_gen d)
         (could_be_non_hermitian (commutator_should_be_hermitian w) unexpected) false N nothing_throws) (fresh (col_gen d))) l s -> finished s ->
  m_ret (c_mem s) = Some (map Some (st_generate (commutator_functor n w) (row_gen pauli_conj d) (col_gen d))).
Proof. exact commutator_parallel. Qed.
Print Assumptions C19_commutator_matrix.

Theorem C19_anticommutator_matrix : forall n L sm lev k w d unexpected N l s, pauli_safe n L ->
  Forall (fun q => pauli_wf n lev q /\ hs_hash q <> 0%N) d -> pauli_wf n k w -> hs_hash w <> 0%N -> lev + lev <= L -> 0 < N ->
  exec (start (programs (anticommutator_functor n w) (rconj pauli_conj) sm (row_gen pauli_conj d) (col_gen d)
         (could_be_non_hermitian (anticommutator_should_be_hermitian w) unexpected) false N nothing_throws) (fresh (col_gen d))) l s -> finished s ->
  m_ret (c_mem s) = Some (map Some (st_generate (anticommutator_functor n w) (row_gen pauli_conj d) (col_gen d))).
Proof. exact anticommutator_parallel. Qed.
Print Assumptions C19_anticommutator_matrix.

(** Different threads never touch the same cell without synchronisation: there are no data races, also when workers throw. *)
Theorem C19_no_data_race : forall (A : Type) (f : A -> A -> A) (cj sm : A -> A) rows cols nonh can_alias N throws,
  race_free cj sm (length cols * length cols) (threads f rows cols nonh can_alias N throws).
Proof. exact (@no_races). Qed.
Print Assumptions C19_no_data_race.

(** one qubit, words I, X, Z; two workers; a schedule in which they interleave *)
Example C19_nonvacuous : let d := [hseq_const false; pauli_sequence 1 [0] SPos; pauli_sequence 1 [2] SPos] in
  pauli_safe 1 2 /\ Forall (fun q => pauli_wf 1 1 q /\ hs_hash q <> 0%N) d /\
  exists l s, exec (start (programs (moment_functor (pauli_mul 1)) (rconj pauli_conj) (fun x => x) (row_gen pauli_conj d) (col_gen d) false false 2 nothing_throws) (fresh (col_gen d))) l s /\
    finished s /\ (exists l1 l2 l3, l = l1 ++ [1; 2; 1] ++ l2 ++ [2; 1; 2] ++ l3) /\
    m_ret (c_mem s) = Some (map (fun q => Some (Ret q)) [hseq_const false; pauli_sequence 1 [0] SPos; pauli_sequence 1 [2] SPos;
      pauli_sequence 1 [0] SPos; hseq_const false; pauli_sequence 1 [1] SIm; pauli_sequence 1 [2] SPos; pauli_sequence 1 [1] SNegIm; hseq_const false]).
Proof. exact pauli_run. Qed.

(* ------------------------------------------------------------------------------------------------ C20 *)
(** No run gets stuck: unless everything has finished, some thread can move -- when nothing throws, and, in contexts without aliases,
    whichever workers throw and wherever. *)
Theorem C20_never_stuck : forall (A : Type) (f : A -> A -> A) (cj sm : A -> A) rows cols nonh can_alias N throws l s,
  can_alias = false \/ throws = nothing_throws ->
  exec (start (programs f cj sm rows cols nonh can_alias N throws) (fresh cols)) l s ->
  finished s \/ exists t s', step s t s'.
Proof. exact (@never_stuck). Qed.
Print Assumptions C20_never_stuck.

(** and no run goes on for ever *)
Theorem C20_runs_bounded : forall (A : Type) (f : A -> A -> A) (cj sm : A -> A) rows cols nonh can_alias N throws l s,
  exec (start (programs f cj sm rows cols nonh can_alias N throws) (fresh cols)) l s ->
  length l <= list_sum (map (@length _) (threads f rows cols nonh can_alias N throws)).
Proof. exact (@run_bounded). Qed.
Print Assumptions C20_runs_bounded.

(** A worker's exception is never lost: no matrix is returned. *)
Theorem C20_exception_no_matrix : forall (A : Type) (f : A -> A -> A) (cj sm : A -> A) rows cols nonh can_alias N throws l s w k,
  w < N -> throws w = Some k ->
  exec (start (programs f cj sm rows cols nonh can_alias N throws) (fresh cols)) l s ->
  m_ret (c_mem s) = None /\ m_ret_al (c_mem s) = None.
Proof. exact (@exception_no_matrix). Qed.
Print Assumptions C20_exception_no_matrix.

(** In contexts with aliases an exception in some but not all workers hangs the program: the others wait for a flag that is never
    raised, and the factory's destructor waits for them.  No run finishes, and every run gets stuck (runs being bounded). *)
Theorem C20_exception_with_aliases_refuted : forall (A : Type) (f : A -> A -> A) (cj sm : A -> A) rows cols nonh N throws w k v l s,
  w < N -> throws w = Some k -> v < N -> throws v = None ->
  exec (start (programs f cj sm rows cols nonh true N throws) (fresh cols)) l s -> ~ finished s.
Proof. exact (@alias_deadlock). Qed.
Print Assumptions C20_exception_with_aliases_refuted.

Example C20_nonvacuous : let thr := (fun w => if Nat.eqb w 0 then Some 1 else None) in let d := [1; 2; 3] in
  (exists l s, exec (start (programs Nat.mul (fun x => x) (fun x => x) d d false true 2 thr) (fresh d)) l s /\ stuck s /\ ~ finished s) /\
  (exists l s, exec (start (programs Nat.mul (fun x => x) (fun x => x) d d false false 2 thr) (fresh d)) l s /\ finished s) /\
  (exists l s, exec (start (programs Nat.mul (fun x => x) (fun x => x) d d true true 2 nothing_throws) (fresh d)) l s /\ finished s /\
    m_ret (c_mem s) = Some (map Some [1; 2; 3; 2; 4; 6; 3; 6; 9])).
Proof. exact nat_runs. Qed.

(* ------------------------------------------------------------------------------------------------ C21 *)
(** The entry in row [r], column [c] is the product of the conjugate of word [r] with word [c]. *)
Theorem C21_entries : forall mul cj d r c a b, nth_error d r = Some a -> nth_error d c = Some b ->
  nth_error (moment_matrix mul cj d) (c * length d + r) = Some (bind (cj a) (fun x => mul x b)) /\ length (moment_matrix mul cj d) = length d * length d.
Proof. exact moment_entry. Qed.
Print Assumptions C21_entries.

Theorem C21_localizing_entries : forall mul cj w d r c a b, nth_error d r = Some a -> nth_error d c = Some b ->
  nth_error (localizing_matrix mul cj w d) (c * length d + r) = Some (bind (cj a) (fun x => bind (mul w b) (fun y => mul x y))) /\
  length (localizing_matrix mul cj w d) = length d * length d.
Proof. exact localizing_entry. Qed.
Print Assumptions C21_localizing_entries.

(** In a locality scenario it stands for (word r)* (word c) in every algebra of measurement operators. *)
Theorem C21_entries_mean : forall sc L (A : star_algebra) (v : nat -> A) d r c a b q, loc_safe sc (L + L) -> Forall (loc_wf sc L) d -> loc_model sc A v ->
  (forall x, valid_oper sc x -> aeq A (v (op_number sc x)) (astar A (v (op_number sc x)))) ->
  nth_error d r = Some a -> nth_error d c = Some b ->
  nth_error (moment_matrix (loc_multiply sc) (loc_conjugate sc) d) (c * length d + r) = Some (Ret q) ->
  aeq A (den A v q) (amul A (astar A (den A v a)) (den A v b)).
Proof. exact loc_entry_means. Qed.
Print Assumptions C21_entries_mean.

(** The first row of a moment matrix repeats the dictionary. *)
Theorem C21_first_row_locality : forall sc L d, loc_safe sc (L + L) -> Forall (loc_wf sc L) d -> nth_error d 0 = Some (hseq_const false) ->
  forall c b, nth_error d c = Some b -> nth_error (moment_matrix (loc_multiply sc) (loc_conjugate sc) d) (c * length d) = Some (Ret b).
Proof. exact loc_first_row. Qed.
Print Assumptions C21_first_row_locality.

Theorem C21_first_row_pauli : forall n L d, pauli_safe n (L + L) -> Forall (fun q => pauli_wf n L q /\ hs_hash q <> 0%N) d -> nth_error d 0 = Some (hseq_const false) ->
  forall c b, nth_error d c = Some b -> nth_error (moment_matrix (pauli_mul n) pauli_conj d) (c * length d) = Some (Ret b).
Proof. exact pauli_first_row. Qed.
Print Assumptions C21_first_row_pauli.

(** Every entry is a word (nothing throws), and the matrix equals its conjugate transpose. *)
Theorem C21_entries_return : forall mul cj D L, star_words mul cj D L -> forall lev d r c x, Forall (D lev) d -> lev + lev <= L -> r < length d -> c < length d ->
  nth_error (moment_matrix mul cj d) (c * length d + r) = Some x -> exists q, x = Ret q.
Proof. exact moment_entries_return. Qed.
Print Assumptions C21_entries_return.

Theorem C21_moment_hermitian : forall mul cj D L, star_words mul cj D L -> forall lev d, Forall (D lev) d -> lev + lev <= L ->
  hermitian_matrix (rconj cj) (length d) (moment_matrix mul cj d).
Proof. exact moment_is_hermitian. Qed.
Print Assumptions C21_moment_hermitian.

Theorem C21_localizing_hermitian : forall mul cj D L, star_words mul cj D L -> forall lev k w d, Forall (D lev) d -> D k w -> lev + k + lev <= L -> cj w = Ret w ->
  hermitian_matrix (rconj cj) (length d) (localizing_matrix mul cj w d).
Proof. exact localizing_is_hermitian. Qed.
Print Assumptions C21_localizing_hermitian.

(** The Hermiticity check finds the first failing place if there is one, and otherwise the matrix is Hermitian. *)
Theorem C21_check : forall (cj : hseq -> res hseq) (V : hseq -> Prop) r L n m,
  hash_safe r L -> (forall q, V q -> q = hseq_const true \/ (hs_hash q = hash (N.of_nat r) (hs_ops q) /\ over r (hs_ops q) /\ length (hs_ops q) <= L)) ->
  (forall q, V q -> exists c, cj q = Ret c /\ V c /\ cj c = Ret q) ->
  length m = n * n -> Forall (fun x => exists q, x = Ret q /\ V q) m ->
  match find_first_index cell_eqb (rconj cj) NoFuel n m with
  | Some p => hermitian_failure (rconj cj) n m p /\ forall q, earlier q p -> ~ hermitian_failure (rconj cj) n m q
  | None => hermitian_matrix (rconj cj) n m
  end.
Proof. exact check_spec. Qed.
Print Assumptions C21_check.

Theorem C21_check_accepts : forall (cj : hseq -> res hseq) (V : hseq -> Prop) r L n m,
  hash_safe r L -> (forall q, V q -> q = hseq_const true \/ (hs_hash q = hash (N.of_nat r) (hs_ops q) /\ over r (hs_ops q) /\ length (hs_ops q) <= L)) ->
  (forall q, V q -> exists c, cj q = Ret c /\ V c /\ cj c = Ret q) ->
  length m = n * n -> Forall (fun x => exists q, x = Ret q /\ V q) m ->
  hermitian_matrix (rconj cj) n m -> find_first_index cell_eqb (rconj cj) NoFuel n m = None.
Proof. exact check_none. Qed.
Print Assumptions C21_check_accepts.

Example C21_nonvacuous : let d := [hseq_const false; pauli_sequence 1 [0] SPos; pauli_sequence 1 [2] SPos] in
  moment_matrix (pauli_mul 1) pauli_conj d = map Ret [hseq_const false; pauli_sequence 1 [0] SPos; pauli_sequence 1 [2] SPos;
      pauli_sequence 1 [0] SPos; hseq_const false; pauli_sequence 1 [1] SIm; pauli_sequence 1 [2] SPos; pauli_sequence 1 [1] SNegIm; hseq_const false] /\
  find_first_index cell_eqb (rconj pauli_conj) NoFuel 3 (moment_matrix (pauli_mul 1) pauli_conj d) = None /\
  find_first_index cell_eqb (rconj pauli_conj) NoFuel 3 (localizing_matrix (pauli_mul 1) pauli_conj (pauli_sequence 1 [1] SIm) d) = Some (0, 0) /\
  find_first_index cell_eqb (rconj pauli_conj) NoFuel 2 (map Ret [hseq_const false; pauli_sequence 1 [1] SIm; pauli_sequence 1 [1] SIm; hseq_const false]) = Some (1, 0).
Proof. repeat split; vm_compute; reflexivity. Qed.
