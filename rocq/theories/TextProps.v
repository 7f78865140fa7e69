(** C77: texts of operators and words tell them apart. *)
From Coq Require Import NArith Arith Bool Ascii String List.
From Verif Require Import CoreModel AlgModel LocModel InfModel InfSpec InfWitnessProofs TextModel TextSpec TextProofs TextNameProofs TextTableProofs TextWordProofs TextSceneProofs TextWitnessProofs.
Import ListNotations.
Local Open Scope list_scope.

(** Parties, measurements and observables are named by letters: every nonempty text of letters is the name of exactly one number, and the names come in order. *)
Theorem C77_letters : forall upper id, alpha upper id <> [] /\ Forall (cased upper) (alpha upper id).
Proof. exact alpha_cased. Qed.
Print Assumptions C77_letters.
Theorem C77_letters_all : forall upper t, t <> [] -> Forall (cased upper) t -> exists id, alpha upper id = t.
Proof. exact alpha_surj. Qed.
Print Assumptions C77_letters_all.
Theorem C77_letters_order : forall upper i j, earlier (alpha upper i) (alpha upper j) <-> (i < j)%N.
Proof. exact alpha_order. Qed.
Print Assumptions C77_letters_order.
Theorem C77_letters_differ : forall upper i j, alpha upper i = alpha upper j -> i = j.
Proof. exact alpha_inj. Qed.
Print Assumptions C77_letters_differ.
Example C77_letters_holds : map (alpha true) [0; 25; 26; 701; 702]%N = [tx "A"; tx "Z"; tx "AA"; tx "ZZ"; tx "AAA"]. Proof. exact names_27. Qed.

(** Names are accepted exactly if there is one for each operator, they are well formed, and they differ. The default names are. *)
Theorem C77_table : forall moved self_moved mode raw l, (exists t, name_table moved self_moved mode raw l = Some t) <-> length l = raw /\ (forall n, In n l -> good_name n) /\ NoDup l.
Proof. exact t_made. Qed.
Print Assumptions C77_table.
Theorem C77_default : forall moved self_moved mode n, exists t, name_table moved self_moved mode n (default_names n) = Some t.
Proof. exact t_default. Qed.
Print Assumptions C77_default.
Example C77_table_holds : name_table same lost Bunched 2 xy = Some bunched_xy. Proof. exact bunched_made. Qed.

(** A name finds its operator and, with a star, the conjugate of it; nothing else is found. *)
Theorem C77_find : forall moved self_moved mode raw l t, name_table moved self_moved mode raw l = Some t -> forall i n, nth_error l i = Some n ->
  find_operator t n = Some (raw_operator mode i) /\ find_operator t (star n) = Some (conj_op (mk_pc raw mode) (raw_operator mode i)).
Proof. exact t_find. Qed.
Print Assumptions C77_find.
Theorem C77_found : forall moved self_moved mode raw l t, name_table moved self_moved mode raw l = Some t -> forall m o, find_operator t m = Some o ->
  exists i n, nth_error l i = Some n /\ ((m = n /\ o = raw_operator mode i) \/ (m = star n /\ o = conj_op (mk_pc raw mode) (raw_operator mode i))).
Proof. exact t_found. Qed.
Print Assumptions C77_found.

(** The text of an operator finds the operator: false, when operators and conjugates alternate the name of the first operator is moved to itself, ... *)
Theorem C77_round_refuted : exists moved self_moved mode raw l t o, name_table moved self_moved mode raw l = Some t /\ o < pc_num (mk_pc raw mode) /\ find_operator t (operator_text t o) <> Some o.
Proof. exact round_refuted. Qed.
Print Assumptions C77_round_refuted.
(** ... but true of every other operator, and of the first if a string that is moved to itself keeps its content. *)
Theorem C77_round_partial : forall moved self_moved mode raw l t, name_table moved self_moved mode raw l = Some t -> forall o, o < pc_num (mk_pc raw mode) ->
  mode <> Interleaved \/ o <> 0 \/ (forall n, self_moved n = n) -> find_operator t (operator_text t o) = Some o.
Proof. exact t_round. Qed.
Print Assumptions C77_round_partial.
Example C77_round_holds : name_table lost lost Interleaved 2 xy = Some woven_xy /\ operator_text woven_xy 1 = tx "x*" /\ operator_text woven_xy 2 = tx "yy" /\ operator_text woven_xy 3 = tx "yy*" /\ operator_text woven_xy 0 = [].
Proof. exact (conj woven_made round_others). Qed.

(** Words of named operators with the same text are the same: false without braces, if a name is "i", ... *)
Theorem C77_words_refuted : exists moved self_moved mode raw l t s s' w w', name_table moved self_moved mode raw l = Some t /\ mode <> Interleaved /\
  Forall (fun o => o < pc_num (mk_pc raw mode)) w /\ Forall (fun o => o < pc_num (mk_pc raw mode)) w' /\ w <> [] /\ w' <> [] /\ alg_text t false s w = alg_text t false s' w' /\ (s, w) <> (s', w').
Proof. exact imaginary_refuted. Qed.
Print Assumptions C77_words_refuted.
(** ... but true with braces, and true of real signs. *)
Theorem C77_words_partial : forall moved self_moved mode raw l t, name_table moved self_moved mode raw l = Some t -> mode <> Interleaved \/ (forall n, self_moved n = n) ->
  forall braces s s' w w', Forall (fun o => o < pc_num (mk_pc raw mode)) w -> Forall (fun o => o < pc_num (mk_pc raw mode)) w' -> w <> [] -> w' <> [] ->
  braces = true \/ s = s' \/ (real_sign s /\ real_sign s') -> alg_text t braces s w = alg_text t braces s' w' -> s = s' /\ w = w'.
Proof. exact t_words. Qed.
Print Assumptions C77_words_partial.
(** No such word has the text of a number. *)
Theorem C77_words_no_number : forall moved self_moved mode raw l t, name_table moved self_moved mode raw l = Some t -> mode <> Interleaved \/ (forall n, self_moved n = n) ->
  forall braces s w, Forall (fun o => o < pc_num (mk_pc raw mode)) w -> w <> [] -> alg_text t braces s w <> tx "1" /\ alg_text t braces s w <> tx "0".
Proof. exact t_not_number. Qed.
Print Assumptions C77_words_no_number.
Example C77_words_holds : (nm_names bunched_xy = [tx "x"; tx "yy"; tx "x*"; tx "yy*"] /\ alg_text bunched_xy true SNeg [3; 0] = tx "-<yy*;x>") /\ Forall (fun o => o < pc_num (mk_pc 2 Bunched)) [3; 0].
Proof. exact (conj bunched_texts words_met). Qed.
(** The text of the identity says its sign: false everywhere but for Pauli words, every multiple of it has the same text. *)
Theorem C77_identity_refuted : (forall t b s s', alg_text t b s [] = alg_text t b s' []) /\ (forall f sc b n n', loc_text f sc b n [] = loc_text f sc b n' []) /\ (forall c b n n', inf_text c b n [] = inf_text c b n' []).
Proof. exact identity_same. Qed.
Print Assumptions C77_identity_refuted.

(** Pauli words, with any sign, with or without braces; the identity included. *)
Theorem C77_pauli : forall braces s s' w w', pauli_text braces s w = pauli_text braces s' w' -> s = s' /\ w = w'.
Proof. exact t_pauli. Qed.
Print Assumptions C77_pauli.
Theorem C77_pauli_no_zero : forall braces s w, pauli_text braces s w <> tx "0".
Proof. exact t_pauli_zero. Qed.
Print Assumptions C77_pauli_no_zero.
Example C77_pauli_holds : pauli_text true SNegIm [0; 4; 8] = tx "-i<X1Y2Z3>". Proof. exact pauli_example. Qed.

(** Words of locality scenarios, in both formats. *)
Theorem C77_locality : forall f sc braces n n' w w', Forall (fun o => o < operator_count sc) w -> Forall (fun o => o < operator_count sc) w' -> w <> [] -> w' <> [] ->
  loc_text f sc braces n w = loc_text f sc braces n' w' -> n = n' /\ w = w'.
Proof. exact t_locality. Qed.
Print Assumptions C77_locality.
Theorem C77_locality_no_number : forall f sc braces n w, Forall (fun o => o < operator_count sc) w -> w <> [] -> loc_text f sc braces n w <> tx "1" /\ loc_text f sc braces n w <> tx "0".
Proof. exact t_locality_number. Qed.
Print Assumptions C77_locality_no_number.
Example C77_locality_holds : loc_text Natural two_three true true [2; 3] = tx "-<A.b1;B.a0>" /\ loc_text Traditional two_three false false [2; 3] = tx "A1|1;B0|0" /\ Forall (fun o => o < operator_count two_three) [2; 3].
Proof. exact loc_example. Qed.

(** Words of inflations of networks, at any level. *)
Theorem C77_inflation : forall outcomes srcs nt level, make_network outcomes srcs = Some nt -> forall braces n n' w w', word_exists (inflate nt level) w -> word_exists (inflate nt level) w' -> w <> [] -> w' <> [] ->
  inf_text (inflate nt level) braces n w = inf_text (inflate nt level) braces n' w' -> n = n' /\ w = w'.
Proof. exact t_inflation. Qed.
Print Assumptions C77_inflation.
Theorem C77_inflation_no_number : forall nt level braces n w, word_exists (inflate nt level) w -> w <> [] ->
  inf_text (inflate nt level) braces n w <> tx "1" /\ inf_text (inflate nt level) braces n w <> tx "0".
Proof. exact t_inflation_number. Qed.
Print Assumptions C77_inflation_no_number.
Example C77_inflation_holds : make_network ex_outcomes ex_srcs = Some ex_net /\ inf_text (inflate ex_net 2) true false [0; 3; 4] = tx "<A[0];B1[00];B0[10]>" /\ word_exists (inflate ex_net 2) [0; 3; 4].
Proof. exact (conj ex_made inf_example). Qed.
