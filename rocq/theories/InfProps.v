(** Inflation scenarios: operators, words, moments, factors and dictionaries.

    A network is given by the numbers of outcomes of its observables ([outcomes]; 0: a number, not a measurement) and the observables
    each source influences ([srcs]); [L] is the inflation level.  Labels, explanations and expectations are those of InfSpec. *)
From Coq Require Import List NArith ZArith Arith Bool Permutation Sorted.
From Verif Require Import CoreModel CoreSpec AlgModel FieldModel FieldProofs EnumSpec InfModel InfSpec InfFinalProofs InfWitnessProofs.
Import ListNotations.

(** * C52: operators of an inflated network *)
Theorem C52_network : forall outcomes srcs, well_formed outcomes srcs <-> exists nt, make_network outcomes srcs = Some nt.
Proof. exact f_network. Qed.
Print Assumptions C52_network.
Example C52_network_case : well_formed ex_outcomes ex_srcs /\ make_network [2; 2] [[0]; [1; 2]] = None.
Proof. split; [apply f_network; exists ex_net; exact ex_made|vm_compute; reflexivity]. Qed.

(** The operator numbers are, in order, the labels: each label has exactly one number. *)
Theorem C52_operators : forall outcomes srcs nt L, make_network outcomes srcs = Some nt ->
  length (ic_ops (inflate nt L)) = total_operators nt L /\
  (forall op, op < length (ic_ops (inflate nt L)) -> exists_label outcomes srcs L (label_of (inflate nt L) op)) /\
  (forall l, exists_label outcomes srcs L l -> exists op, op < length (ic_ops (inflate nt L)) /\ label_of (inflate nt L) op = l) /\
  (forall x y, x < length (ic_ops (inflate nt L)) -> y < length (ic_ops (inflate nt L)) ->
     (x < y <-> before (label_of (inflate nt L) x) (label_of (inflate nt L) y))).
Proof. exact f_operators. Qed.
Print Assumptions C52_operators.
Example C52_operators_case : make_network ex_outcomes ex_srcs = Some ex_net /\ length (ic_ops (inflate ex_net 2)) = 13 /\
  label_of (inflate ex_net 2) 7 = mk_label 1 [0; 1] 1 /\ label_of (inflate ex_net 2) 12 = mk_label 3 [] 0.
Proof. vm_compute. repeat split. Qed.

Theorem C52_operator_number : forall outcomes srcs nt L, make_network outcomes srcs = Some nt ->
  (forall op, op < length (ic_ops (inflate nt L)) ->
     operator_number (inflate nt L) (oi_obs (info (inflate nt L) op)) (oi_copy (info (inflate nt L) op)) (oi_outcome (info (inflate nt L) op)) = op) /\
  (forall l, exists_label outcomes srcs L l ->
     operator_number (inflate nt L) (lb_obs l) (flatten_index L (lb_copies l)) (lb_outcome l) < length (ic_ops (inflate nt L)) /\
     label_of (inflate nt L) (operator_number (inflate nt L) (lb_obs l) (flatten_index L (lb_copies l)) (lb_outcome l)) = l).
Proof. exact f_operator_number. Qed.
Print Assumptions C52_operator_number.
Example C52_operator_number_case : make_network ex_outcomes ex_srcs = Some ex_net /\ operator_number (inflate ex_net 2) 1 (flatten_index 2 [0; 1]) 1 = 7.
Proof. vm_compute. split; reflexivity. Qed.

(** Global numbers of the copies of observables *)
Theorem C52_copy_index : forall outcomes srcs nt L, make_network outcomes srcs = Some nt ->
  (forall o v, o < length outcomes -> v < L ^ length (sources srcs o) ->
     copy_index (inflate nt L) o v < length (ic_index (inflate nt L)) /\ index_copy (inflate nt L) (copy_index (inflate nt L) o v) = (o, v)) /\
  (forall g, g < length (ic_index (inflate nt L)) ->
     fst (index_copy (inflate nt L) g) < length outcomes /\
     snd (index_copy (inflate nt L) g) < L ^ length (sources srcs (fst (index_copy (inflate nt L) g))) /\
     copy_index (inflate nt L) (fst (index_copy (inflate nt L) g)) (snd (index_copy (inflate nt L) g)) = g).
Proof. exact f_copy_index. Qed.
Print Assumptions C52_copy_index.
Example C52_copy_index_case : make_network ex_outcomes ex_srcs = Some ex_net /\ copy_index (inflate ex_net 2) 2 1 = 7 /\ index_copy (inflate ex_net 2) 7 = (2, 1).
Proof. vm_compute. repeat split. Qed.

(** Global numbers of the copies of sources; the sources from [length srcs] on are the private ones of the observables without sources *)
Theorem C52_source_copies : forall outcomes srcs nt L, make_network outcomes srcs = Some nt ->
  (forall s i, s < length srcs -> i < L -> source_copy nt L (global_source nt L s i) = (s, i) /\ global_source nt L s i < total_sources nt L) /\
  (forall j, j < nt_implicit nt -> 0 < L -> (Z.of_nat (length srcs + j) < 2 ^ 64)%Z ->
     source_copy nt L (global_source nt L (length srcs + j) 0) = (length srcs + j, 0) /\ global_source nt L (length srcs + j) 0 < total_sources nt L) /\
  nt_implicit nt = length (filter (fun o => match sources srcs o with [] => true | _ => false end) (seq 0 (length outcomes))).
Proof. exact f_sources. Qed.
Print Assumptions C52_source_copies.
Example C52_source_copies_case : make_network ex_outcomes ex_srcs = Some ex_net /\ source_copy ex_net 2 3 = (1, 1) /\ source_copy ex_net 2 4 = (2, 0) /\ nt_implicit ex_net = 1.
Proof. vm_compute. repeat split. Qed.

(** Copies of observables are reported independent exactly if they have no hidden cause in common. *)
Theorem C52_independent : forall outcomes srcs nt L, make_network outcomes srcs = Some nt ->
  forall x y, x < length (ic_ops (inflate nt L)) -> y < length (ic_ops (inflate nt L)) ->
  (independent (copy_of (inflate nt L) x) (copy_of (inflate nt L) y) = true <-> ~ share srcs (label_of (inflate nt L) x) (label_of (inflate nt L) y)).
Proof. exact f_independent. Qed.
Print Assumptions C52_independent.
Example C52_independent_case : make_network ex_outcomes ex_srcs = Some ex_net /\
  independent (copy_of (inflate ex_net 2) 0) (copy_of (inflate ex_net 2) 4) = true /\ independent (copy_of (inflate ex_net 2) 0) (copy_of (inflate ex_net 2) 7) = false.
Proof. vm_compute. repeat split. Qed.

(** Joint outcomes are numbered in mixed radix, the last observable counting least; numbering and its inverse agree. *)
Theorem C52_outcomes : forall outcomes srcs nt L, make_network outcomes srcs = Some nt ->
  (forall xs, Forall (outcome_exists outcomes srcs L) xs ->
     flatten_outcomes (inflate nt L) xs = Some (joint_number outcomes xs) /\ joint_number outcomes xs < joint_count outcomes (map fst xs) /\
     unflatten_outcomes (inflate nt L) (map fst xs) (joint_number outcomes xs) = Some (Some xs)) /\
  (forall xs, ~ Forall (outcome_exists outcomes srcs L) xs -> flatten_outcomes (inflate nt L) xs = None) /\
  (forall ps k, (forall x, In x ps -> fst x < length outcomes /\ snd x < L ^ length (sources srcs (fst x))) -> k < joint_count outcomes ps ->
     exists xs, Forall (outcome_exists outcomes srcs L) xs /\ map fst xs = ps /\ joint_number outcomes xs = k).
Proof. exact f_outcomes. Qed.
Print Assumptions C52_outcomes.
Example C52_outcomes_case : make_network ex_outcomes ex_srcs = Some ex_net /\
  flatten_outcomes (inflate ex_net 2) [(0, 1, 1); (1, 3, 2); (3, 0, 1)] = Some 11 /\
  unflatten_outcomes (inflate ex_net 2) [(0, 1); (1, 3); (3, 0)] 11 = Some (Some [(0, 1, 1); (1, 3, 2); (3, 0, 1)]).
Proof. vm_compute. repeat split. Qed.
(** The inverse does not reject the first observable number after the last one, nor observables without outcomes: it reads outside
    the table, or divides by zero. *)
Theorem C52_outcomes_bound_refuted : exists outcomes srcs nt L ps k,
  make_network outcomes srcs = Some nt /\ (exists x, In x ps /\ length outcomes <= fst x) /\ unflatten_outcomes (inflate nt L) ps k = Some None.
Proof. exact outcomes_bound_refuted. Qed.
Print Assumptions C52_outcomes_bound_refuted.
Theorem C52_outcomes_number_refuted : exists outcomes srcs nt L ps k,
  make_network outcomes srcs = Some nt /\ (forall x, In x ps -> fst x < length outcomes /\ snd x < L ^ length (sources srcs (fst x))) /\
  unflatten_outcomes (inflate nt L) ps k = Some None.
Proof. exact outcomes_number_refuted. Qed.
Print Assumptions C52_outcomes_number_refuted.

(** * C53: words *)
(** Simplification keeps the value of a word in every explanation, for all values of the hidden variables. *)
Theorem C53_value : forall outcomes srcs nt L, make_network outcomes srcs = Some nt ->
  forall (R : rfield) (M : explanation R) lam w, word_exists (inflate nt L) w ->
  word_value outcomes srcs R M lam (map (label_of (inflate nt L)) w) =
  match simplify (inflate nt L) w with None => r0 R | Some w' => word_value outcomes srcs R M lam (map (label_of (inflate nt L)) w') end.
Proof. exact f_value. Qed.
Print Assumptions C53_value.
Example C53_value_case : make_network ex_outcomes ex_srcs = Some ex_net /\ word_exists (inflate ex_net 2) [12; 11; 3; 11; 3] /\
  simplify (inflate ex_net 2) [12; 11; 3; 11; 3] = Some [3; 11; 11; 12] /\ simplify (inflate ex_net 2) [12; 3; 2] = None.
Proof. split; [exact ex_made|]. split; [apply below_exists; vm_compute; reflexivity|vm_compute; split; reflexivity]. Qed.

(** Two words are simplified alike exactly if they have the same value in all explanations. *)
Theorem C53_unique : forall outcomes srcs nt L, make_network outcomes srcs = Some nt ->
  forall u v, word_exists (inflate nt L) u -> word_exists (inflate nt L) v ->
  (simplify (inflate nt L) u = simplify (inflate nt L) v <->
   forall (M : explanation Qc_rfield) lam,
     word_value outcomes srcs Qc_rfield M lam (map (label_of (inflate nt L)) u) = word_value outcomes srcs Qc_rfield M lam (map (label_of (inflate nt L)) v)).
Proof. exact f_unique. Qed.
Print Assumptions C53_unique.
Example C53_unique_case : make_network ex_outcomes ex_srcs = Some ex_net /\ word_exists (inflate ex_net 2) [5; 0; 5] /\ word_exists (inflate ex_net 2) [0; 5] /\
  simplify (inflate ex_net 2) [5; 0; 5] = simplify (inflate ex_net 2) [0; 5] /\ simplify (inflate ex_net 2) [10; 10] <> simplify (inflate ex_net 2) [10].
Proof.
  split; [exact ex_made|]. split; [apply below_exists; vm_compute; reflexivity|]. split; [apply below_exists; vm_compute; reflexivity|].
  split; [vm_compute; reflexivity|vm_compute; discriminate].
Qed.

Theorem C53_canonical : forall outcomes srcs nt L, make_network outcomes srcs = Some nt ->
  forall w, word_exists (inflate nt L) w ->
  (forall w', simplify (inflate nt L) w = Some w' -> simplified (inflate nt L) w') /\
  (if_canonical (inflate nt L) w = Some w <-> simplify (inflate nt L) w = Some w) /\
  (if_canonical (inflate nt L) w = Some w \/ if_canonical (inflate nt L) w = None).
Proof. exact f_canonical. Qed.
Print Assumptions C53_canonical.
Example C53_canonical_case : make_network ex_outcomes ex_srcs = Some ex_net /\ word_exists (inflate ex_net 2) [3; 11; 11] /\
  if_canonical (inflate ex_net 2) [3; 11; 11] = Some [3; 11; 11] /\ if_canonical (inflate ex_net 2) [3; 3; 11] = None.
Proof. split; [exact ex_made|]. split; [apply below_exists; vm_compute; reflexivity|vm_compute; split; reflexivity]. Qed.

Theorem C53_multiply : forall outcomes srcs nt L, make_network outcomes srcs = Some nt ->
  forall (R : rfield) (M : explanation R) lam u v, word_exists (inflate nt L) u -> word_exists (inflate nt L) v ->
  match inf_multiply (inflate nt L) u v with None => r0 R | Some w => word_value outcomes srcs R M lam (map (label_of (inflate nt L)) w) end =
    rmul R (word_value outcomes srcs R M lam (map (label_of (inflate nt L)) u)) (word_value outcomes srcs R M lam (map (label_of (inflate nt L)) v)) /\
  match inf_conjugate (inflate nt L) u with None => r0 R | Some w => word_value outcomes srcs R M lam (map (label_of (inflate nt L)) w) end =
    word_value outcomes srcs R M lam (map (label_of (inflate nt L)) u) /\
  inf_multiply (inflate nt L) u v = inf_multiply (inflate nt L) v u.
Proof. exact f_multiply. Qed.
Print Assumptions C53_multiply.
Example C53_multiply_case : make_network ex_outcomes ex_srcs = Some ex_net /\ word_exists (inflate ex_net 2) [3; 11] /\ word_exists (inflate ex_net 2) [0; 3] /\
  inf_multiply (inflate ex_net 2) [3; 11] [0; 3] = Some [0; 3; 11].
Proof.
  split; [exact ex_made|]. split; [apply below_exists; vm_compute; reflexivity|]. split; [apply below_exists; vm_compute; reflexivity|vm_compute; reflexivity].
Qed.

(** * C54: moments *)
(** The canonical moment of a word is found (whatever was left in the scratch vector), is the word up to a relabelling of the copies
    of the sources, is not later than the word, and is recognized as canonical; words are recognized exactly if they are their own
    canonical moments. *)
Theorem C54_moment : forall outcomes srcs nt L, make_network outcomes srcs = Some nt ->
  forall w, simplified (inflate nt L) w ->
  exists r k, (forall fuel scratch, k <= fuel -> length scratch = total_sources nt L -> canonical_moment (inflate nt L) fuel scratch w = Ret (Some r)) /\
    simplified (inflate nt L) r /\ alike srcs (inflate nt L) L r w /\ (r = w \/ lex_less r w) /\
    (can_be_simplified (inflate nt L) w = true <-> r <> w) /\ can_be_simplified (inflate nt L) r = false.
Proof. exact f_moment. Qed.
Print Assumptions C54_moment.
Example C54_moment_case : make_network ex_outcomes ex_srcs = Some ex_net /\ simplified (inflate ex_net 2) [1; 6; 12] /\
  canonical_moment (inflate ex_net 2) 3 [7; 7; 7; 7; 7] [1; 6; 12] = Ret (Some [0; 4; 12]) /\ can_be_simplified (inflate ex_net 2) [1; 6; 12] = true.
Proof. split; [exact ex_made|]. split; [apply simplified_by; vm_compute; reflexivity|vm_compute; split; reflexivity]. Qed.

Theorem C54_idempotent : forall outcomes srcs nt L, make_network outcomes srcs = Some nt ->
  forall w r fuel scratch, simplified (inflate nt L) w -> length scratch = total_sources nt L ->
  canonical_moment (inflate nt L) fuel scratch w = Ret (Some r) ->
  exists k, forall fuel' scratch', k <= fuel' -> length scratch' = total_sources nt L -> canonical_moment (inflate nt L) fuel' scratch' r = Ret (Some r).
Proof. exact f_moment_twice. Qed.
Print Assumptions C54_idempotent.
Example C54_idempotent_case : make_network ex_outcomes ex_srcs = Some ex_net /\ simplified (inflate ex_net 2) [1; 6; 12] /\ length [7; 7; 7; 7; 7] = total_sources ex_net 2 /\
  canonical_moment (inflate ex_net 2) 3 [7; 7; 7; 7; 7] [1; 6; 12] = Ret (Some [0; 4; 12]).
Proof. split; [exact ex_made|]. split; [apply simplified_by; vm_compute; reflexivity|vm_compute; split; reflexivity]. Qed.

(** The expectation value is that of the word, in every explanation. *)
Theorem C54_expectation : forall outcomes srcs nt L, make_network outcomes srcs = Some nt ->
  forall (R : rfield) (M : explanation R) w, simplified (inflate nt L) w ->
  exists r k, (forall fuel scratch, k <= fuel -> length scratch = total_sources nt L -> canonical_moment (inflate nt L) fuel scratch w = Ret (Some r)) /\
    expectation outcomes srcs L R M (map (label_of (inflate nt L)) r) = expectation outcomes srcs L R M (map (label_of (inflate nt L)) w).
Proof. exact f_moment_value. Qed.
Print Assumptions C54_expectation.
Example C54_expectation_case : make_network ex_outcomes ex_srcs = Some ex_net /\ simplified (inflate ex_net 2) [1; 6; 12] /\ normalized Qc_rfield ex_coins.
Proof. split; [exact ex_made|]. split; [apply simplified_by; vm_compute; reflexivity|exact ex_coins_normal]. Qed.

(** Words that differ by a relabelling do not always have the same canonical moment... *)
Theorem C54_unique_refuted : exists outcomes srcs nt L u w,
  make_network outcomes srcs = Some nt /\ simplified (inflate nt L) u /\ simplified (inflate nt L) w /\ alike srcs (inflate nt L) L u w /\
  forall fuel scratch, length scratch = total_sources nt L ->
    canonical_moment (inflate nt L) (S fuel) scratch u = Ret (Some u) /\ canonical_moment (inflate nt L) (S fuel) scratch w = Ret (Some w) /\ u <> w.
Proof. exact moment_refuted. Qed.
Print Assumptions C54_unique_refuted.
(** ... but they do if no observable occurs twice. *)
Theorem C54_unique_partial : forall outcomes srcs nt L, make_network outcomes srcs = Some nt ->
  forall u w, simplified (inflate nt L) u -> simplified (inflate nt L) w -> observables_distinct (inflate nt L) w -> alike srcs (inflate nt L) L u w ->
  forall fuel scratch, length scratch = total_sources nt L ->
  canonical_moment (inflate nt L) (S fuel) scratch u = canonical_moment (inflate nt L) (S fuel) scratch w.
Proof. exact f_moment_unique. Qed.
Print Assumptions C54_unique_partial.
Example C54_unique_partial_case : make_network ex_outcomes ex_srcs = Some ex_net /\ simplified (inflate ex_net 2) [1; 6; 12] /\ simplified (inflate ex_net 2) [0; 4; 12] /\
  observables_distinct (inflate ex_net 2) [0; 4; 12] /\ alike ex_srcs (inflate ex_net 2) 2 [1; 6; 12] [0; 4; 12].
Proof.
  split; [exact ex_made|]. split; [apply simplified_by; vm_compute; reflexivity|]. split; [apply simplified_by; vm_compute; reflexivity|].
  split; [vm_compute; repeat constructor; cbn; intuition discriminate|]. exists swap2. split; [intros s _; apply swap2_permutes|vm_compute; apply Permutation_refl].
Qed.

(** * C55: factors *)
(** The factors of a word are its parts without hidden causes in common; each is connected through hidden causes. *)
Theorem C55_factors : forall outcomes srcs nt L, make_network outcomes srcs = Some nt ->
  forall w, simplified (inflate nt L) w -> w <> [] ->
  exists fs, factorize (inflate nt L) w = map Some fs /\ Permutation (concat fs) w /\
    (forall f, In f fs -> f <> [] /\ simplified (inflate nt L) f /\ connected srcs (map (label_of (inflate nt L)) f)) /\
    ForallOrdPairs (fun f g => forall x y, In x f -> In y g -> ~ share srcs (label_of (inflate nt L) x) (label_of (inflate nt L) y)) fs.
Proof. exact f_factors. Qed.
Print Assumptions C55_factors.
Example C55_factors_case : make_network ex_outcomes ex_srcs = Some ex_net /\ simplified (inflate ex_net 2) [0; 1; 2; 10; 12] /\
  factorize (inflate ex_net 2) [0; 1; 2; 10; 12] = map Some [[0; 2; 10]; [1]; [12]].
Proof. split; [exact ex_made|]. split; [apply simplified_by; vm_compute; reflexivity|vm_compute; reflexivity]. Qed.

(** The expectation value of a word is the product of those of its factors, in every explanation. *)
Theorem C55_expectation : forall outcomes srcs nt L, make_network outcomes srcs = Some nt ->
  forall (R : rfield) (M : explanation R) w fs, normalized R M -> simplified (inflate nt L) w -> factorize (inflate nt L) w = map Some fs ->
  expectation outcomes srcs L R M (map (label_of (inflate nt L)) w) =
  fold_right (fun f acc => rmul R (expectation outcomes srcs L R M (map (label_of (inflate nt L)) f)) acc) (r1 R) fs.
Proof. exact f_factors_value. Qed.
Print Assumptions C55_expectation.
Example C55_expectation_case : make_network ex_outcomes ex_srcs = Some ex_net /\ normalized Qc_rfield ex_coins /\ simplified (inflate ex_net 2) [0; 1; 2; 10; 12] /\
  factorize (inflate ex_net 2) [0; 1; 2; 10; 12] = map Some [[0; 2; 10]; [1]; [12]].
Proof. split; [exact ex_made|]. split; [exact ex_coins_normal|]. split; [apply simplified_by; vm_compute; reflexivity|vm_compute; reflexivity]. Qed.

(** * C56: the dictionary *)
(** The words of a level, in shortlex order: exactly the simplified words up to that length, so every product up to that length is
    listed (unless it is zero). *)
Theorem C56_dictionary : forall outcomes srcs nt L, make_network outcomes srcs = Some nt ->
  forall level, exists l k, (forall fuel, k <= fuel -> inf_osg (inflate nt L) fuel level = Ret l) /\
    lists_in_order shortlex_lt (fun w => simplified (inflate nt L) w /\ length w <= level) l /\
    (forall w w', word_exists (inflate nt L) w -> length w <= level -> simplify (inflate nt L) w = Some w' -> In w' l).
Proof. exact f_dictionary. Qed.
Print Assumptions C56_dictionary.
Example C56_dictionary_case : make_network [2; 2] [[0; 1]] = Some two_net /\
  inf_osg (inflate two_net 2) 10 2 = Ret [[]; [0]; [1]; [2]; [3]; [0; 1]; [0; 2]; [0; 3]; [1; 2]; [1; 3]; [2; 3]].
Proof. vm_compute. split; reflexivity. Qed.
