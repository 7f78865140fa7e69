(** C82: texts of symbols, read and written. *)
From Coq Require Import NArith ZArith Arith Bool Ascii String List.
From Verif Require Import TextModel MonModel MonSpec MonProofs MonWriteProofs MonFinalProofs.
Import ListNotations.
Local Open Scope list_scope.

(** A text of at most 32 characters is accepted exactly if it has a meaning, and it is read as that meaning. *)
Theorem C82_reads : forall K k0 k1 kneg stod t m, 1 <= List.length t <= 32 ->
  (parse (K:=K) k0 k1 kneg stod t = MRead m <-> reads k0 k1 kneg stod t m).
Proof. exact parse_reads. Qed.
Print Assumptions C82_reads.
Example C82_reads_nonvacuous : 1 <= List.length (tx "2.5#7*") <= 32 /\ parse10 (tx "2.5#7*") = MRead (sym10 7 25 true) /\ parse10 (tx "-3") = MRead (sym10 3 (-10) false)
  /\ parse10 (tx "2.5") = MRead (sym10 1 25 false) /\ parse10 (tx "2 #7") = MBad.
Proof. split; [split; repeat constructor|]. repeat split; reflexivity. Qed.

(** A text has one meaning. *)
Theorem C82_one_meaning : forall K k0 k1 kneg stod t m m', 1 <= List.length t <= 32 ->
  reads (K:=K) k0 k1 kneg stod t m -> reads k0 k1 kneg stod t m' -> m = m'.
Proof. exact @reads_fun. Qed.
Print Assumptions C82_one_meaning.
Example C82_one_meaning_nonvacuous : reads 0%Z 10%Z Z.opp stod10 (tx "2.5#7*") (sym10 7 25 true).
Proof. apply parse_reads; [split; repeat constructor|reflexivity]. Qed.

(** Empty and longer texts are rejected. *)
Theorem C82_length : forall K k0 k1 kneg stod t, List.length t = 0 \/ 32 < List.length t -> parse (K:=K) k0 k1 kneg stod t = MBad.
Proof. exact parse_length. Qed.
Print Assumptions C82_length.
Example C82_length_nonvacuous : 32 < List.length (repeat "1"%char 33). Proof. repeat constructor. Qed.

(** The behaviour is undefined for exactly the texts of the least integer. *)
Theorem C82_undefined_partial : forall K k0 k1 kneg stod t, 1 <= List.length t <= 32 ->
  (parse (K:=K) k0 k1 kneg stod t = MUndef <-> exists d c, t = d ++ star c /\ integer d (- 2 ^ 31)).
Proof. exact parse_undefined. Qed.
Print Assumptions C82_undefined_partial.
(** ... so it is not always defined. *)
Theorem C82_defined_refuted : forall K k0 k1 kneg stod, parse (K:=K) k0 k1 kneg stod (tx "-2147483648") = MUndef.
Proof. exact least_undefined. Qed.
Print Assumptions C82_defined_refuted.
Example C82_undefined_nonvacuous : 1 <= List.length (tx "-2147483648") <= 32. Proof. split; repeat constructor. Qed.

(** A symbol with factor 1, or -1 if it is written without #, is read back from its own text. *)
Theorem C82_plain_back : forall K k0 k1 kneg kpos keqb show stod exact, shown (K:=K) k0 k1 kneg kpos keqb show exact ->
  forall hash m, (2 <= mo_id m < 2 ^ 31)%N -> mo_im m = k0 -> (mo_re m = k1 \/ (hash = false /\ mo_re m = kneg k1)) ->
  parse k0 k1 kneg stod (write k0 k1 kneg kpos keqb show false hash m) = MRead m.
Proof. exact plain_back. Qed.
Print Assumptions C82_plain_back.
Example C82_plain_back_nonvacuous : shown 0%Z 10%Z Z.opp pos10 Z.eqb show10 exact10 /\ (2 <= mo_id (sym10 5 (-10) true) < 2 ^ 31)%N /\
  mo_im (sym10 5 (-10) true) = 0%Z /\ mo_re (sym10 5 (-10) true) = (- (10))%Z /\ write10 false false (sym10 5 (-10) true) = tx "-5*".
Proof. split; [exact shown10|]. split; [split; [discriminate|reflexivity]|]. repeat split; reflexivity. Qed.

(** Zero is read back as zero. *)
Theorem C82_zero_back : forall K k0 k1 kneg kpos keqb show stod exact, shown (K:=K) k0 k1 kneg kpos keqb show exact ->
  forall hash m, ~ nonzero k0 m -> parse k0 k1 kneg stod (write k0 k1 kneg kpos keqb show false hash m) = MRead (mk_mono 0 k1 k0 false).
Proof. exact zero_reads. Qed.
Print Assumptions C82_zero_back.
Example C82_zero_back_nonvacuous : ~ nonzero 0%Z (sym10 5 0 true). Proof. intros [_ [H|H]]; apply H; reflexivity. Qed.

(** Which symbols are read back from their own text: these, and no others. *)
Theorem C82_back_partial : forall K k0 k1 kneg kpos keqb show stod exact, shown (K:=K) k0 k1 kneg kpos keqb show exact -> reader stod ->
  forall hash m, nonzero k0 m -> all_exact exact m -> (mo_id m < 2 ^ 31)%N -> 1 <= List.length (write k0 k1 kneg kpos keqb show false hash m) <= 32 ->
  (parse k0 k1 kneg stod (write k0 k1 kneg kpos keqb show false hash m) = MRead m <-> symbol_back k0 k1 kneg hash m \/ scalar_back k0 k1 kneg show stod m).
Proof. exact reads_back. Qed.
Print Assumptions C82_back_partial.
Example C82_back_nonvacuous : shown 0%Z 10%Z Z.opp pos10 Z.eqb show10 exact10 /\ reader stod10 /\ nonzero 0%Z (sym10 1 25 false) /\ all_exact exact10 (sym10 1 25 false) /\
  (mo_id (sym10 1 25 false) < 2 ^ 31)%N /\ 1 <= List.length (write10 false true (sym10 1 25 false)) <= 32 /\ scalar_back 0%Z 10%Z Z.opp show10 stod10 (sym10 1 25 false).
Proof. exact back_example. Qed.
(** A symbol with another factor is written in a form that is not read ... *)
Theorem C82_factor_back_refuted : write10 false true (sym10 5 25 true) = tx "2.5 #5*" /\ parse10 (write10 false true (sym10 5 25 true)) = MBad /\
  write10 false false (sym10 5 25 true) = tx "2.5*5*" /\ parse10 (write10 false false (sym10 5 25 true)) = MBad /\
  write10 false true (sym10 5 (-10) false) = tx "-#5" /\ parse10 (write10 false true (sym10 5 (-10) false)) = MBad.
Proof. exact factor_unread. Qed.
Print Assumptions C82_factor_back_refuted.
(** ... and twice the identity in a form that is read as another symbol. *)
Theorem C82_scalar_back_refuted : write10 false true (sym10 1 20 false) = tx "2" /\ parse10 (write10 false true (sym10 1 20 false)) = MRead (sym10 2 10 false).
Proof. exact scalar_misread. Qed.
Print Assumptions C82_scalar_back_refuted.

(** With #, the text tells which symbol, which factor, and whether it is conjugated. *)
Theorem C82_hash_text : forall K k0 k1 kneg kpos keqb show exact, shown (K:=K) k0 k1 kneg kpos keqb show exact ->
  forall m m', nonzero k0 m -> nonzero k0 m' -> all_exact exact m -> all_exact exact m' ->
  write k0 k1 kneg kpos keqb show false true m = write k0 k1 kneg kpos keqb show false true m' -> same_mono m m'.
Proof. exact hash_unique. Qed.
Print Assumptions C82_hash_text.
Example C82_hash_text_nonvacuous : nonzero 0%Z (mk_mono 5 25 20 true)%Z /\ all_exact exact10 (mk_mono 5 25 20 true)%Z /\
  write10 false true (mk_mono 5 25 20 true)%Z = tx "(2.5 + 2i) #5*" /\ write10 false true (mk_mono 5 0 (-10) false)%Z = tx "-i #5".
Proof. exact hash_example. Qed.
(** Without #, it does not. *)
Theorem C82_plain_text_refuted : exists m m', nonzero 0%Z m /\ nonzero 0%Z m' /\ all_exact exact10 m /\ all_exact exact10 m' /\
  write10 false false m = write10 false false m' /\ ~ same_mono m m'.
Proof. exact plain_ambiguous. Qed.
Print Assumptions C82_plain_text_refuted.
