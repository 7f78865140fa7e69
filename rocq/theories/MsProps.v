(** C66: asking a matrix system for a matrix finds it or creates it once. *)
From Coq Require Import List Arith ZArith Bool.
From Verif Require Import LockModel LockSpec LockProofs MsModel MsSpec MsHistProofs MsThreadProofs MsThmProofs MsWitnessProofs.
Import ListNotations.

(** Once a request has been answered with a matrix, every later request for the same matrix - whatever happened in between, short of its
    deletion - is answered with that matrix at that offset, whichever way it is asked for, and changes nothing. *)
Theorem C66_again : forall (T M P C B : Type) (E : menv T M P C B), poly_classes E -> e_kind E <> Derived ->
  forall t h op h2 k k' m o, asked op k (answer E t h op) o m -> same_request E k k' ->
  exists o', (op = Create k -> o' = o) /\ (~ In (Delete o') h2 -> let h' := h ++ op :: h2 in
    answer E t h' (Create k') = OMat o' m /\ answer E t h' (Lookup k') = ORef m /\ answer E t h' (Find k') = ORef m /\ answer E t h' (Get o') = ORef m /\
    after E t (h' ++ [Create k']) = after E t h' /\ after E t (h' ++ [Lookup k']) = after E t h').
Proof. exact @t_again. Qed.
Print Assumptions C66_again.
(** Different requests are given different offsets, and the same ones the same. *)
Theorem C66_distinct : forall (T M P C B : Type) (E : menv T M P C B), poly_classes E -> e_kind E <> Derived ->
  forall t h h2 k k' o o' m m', answer E t h (Create k) = OMat o m -> answer E t (h ++ Create k :: h2) (Create k') = OMat o' m' -> (o = o' <-> same_request E k k').
Proof. exact @t_distinct. Qed.
Print Assumptions C66_distinct.
(** The matrix a request is answered with was generated for that request; for a polynomial, it is composed of the matrices generated for its words. *)
Theorem C66_made_for_it : forall (T M P C B : Type) (E : menv T M P C B), poly_classes E -> e_kind E <> Derived ->
  forall t h k m, (exists o, answer E t h (Create k) = OMat o m) \/ answer E t h (Lookup k) = ORef m -> made E k m.
Proof. exact @t_made. Qed.
Print Assumptions C66_made_for_it.
Example C66_demo : poly_classes (toy Pauli false) /\ e_kind (toy Pauli false) <> Derived /\
  let E := toy Pauli false in let h := [Create (KMoment 1); Lookup (KPoly 2 5); Push 55; Create (KMoment 9); Create (KLoc 2 [6]); AddBook 3; Create (KSub 0 0)] in
  answer E 0 h (Create (KNNMoment 1 0)) = OMat 0 0 /\ answer E 0 h (Find (KNNPoly 2 0 5)) = ORef 105 /\ answer E 0 h (Create (KNNLoc 2 0 [6])) = OMat 2 2 /\
  answer E 0 h (Create (KNNLoc 2 1 [6])) = OMat 6 4 /\ answer E 0 h (Find (KMoment 9)) = OThrow XMissing /\ answer E 0 h (Lookup (KSub 0 0)) = ORef 3000 /\ answer E 0 h (Get 4) = ORef 55 /\
  answer E 0 [Create (KMoment 1)] (Lookup (KPoly 2 5)) = ORef 105 /\ same_request E (KPoly 2 5) (KNNPoly 2 0 5) /\ ~ same_request E (KNNLoc 2 1 [6]) (KLoc 2 [6]).
Proof. split; [apply toy_classes|]. split; [discriminate|]. cbv zeta. repeat (split; [vm_compute; reflexivity|]). split; [split; reflexivity|discriminate]. Qed.
(** A request that throws leaves its key unknown, so that it can be made again, and every matrix that was there is still there. *)
Theorem C66_exception : forall (T M P C B : Type) (E : menv T M P C B), poly_classes E -> e_kind E <> Derived ->
  forall t h k x, answer E t h (Create k) = OThrow x \/ answer E t h (Lookup k) = OThrow x ->
  answer E t h (Find k) = OThrow XMissing /\
  forall op, op = Create k \/ op = Lookup k -> answer E t (h ++ [op]) (Find k) = OThrow XMissing /\
    forall k' m, answer E t h (Find k') = ORef m -> answer E t (h ++ [op]) (Find k') = ORef m.
Proof. exact @failed. Qed.
Print Assumptions C66_exception.
Example C66_exception_demo : let E := toy Plain false in let h := [Create (KMoment 1); AddBook 3] in
  answer E 0 h (Create (KMoment 9)) = OThrow XFactory /\ answer E 0 h (Create (KSub 0 1)) = OThrow XMissing /\ answer E 0 h (Create (KSub 1 0)) = OThrow XMissing /\
  answer E 0 (h ++ [Create (KSub 1 0); Create (KMoment 2)]) (Create (KSub 1 0)) = OMat 2 3001 /\ answer E 0 h (Find (KMoment 1)) = ORef 0.
Proof. cbv zeta. repeat (split; [vm_compute; reflexivity|]). vm_compute. reflexivity. Qed.
(** No assertion fails and nothing is read past the end of the list of matrices, unless a matrix right behind the last one is to be deleted. *)
Theorem C66_proper : forall (T M P C B : Type) (E : menv T M P C B), poly_classes E -> e_kind E <> Derived ->
  forall t h op, (answer E t h op <> OAssert /\ answer E t h op <> OUndef) \/ exists o, op = Delete o /\ o = Z.of_nat (length (ms_mats (after E t h))).
Proof. exact @answers_proper. Qed.
Print Assumptions C66_proper.
(** As long as nothing is deleted, an index never leads to a matrix that is not there. *)
Theorem C66_no_dangling_index : forall (T M P C B : Type) (E : menv T M P C B), poly_classes E -> e_kind E <> Derived ->
  forall t h k, (forall o, ~ In (Delete o) h) -> answer E t h (Create k) <> ORuntime /\ answer E t h (Lookup k) <> ORuntime.
Proof. exact @t_present. Qed.
Print Assumptions C66_no_dangling_index.
(** Any number of threads, any interleaving: the answers are those of one thread making all the requests in some order, in which each
    thread's requests come in the order in which it makes them; a thread that is done has had all its requests answered. *)
Theorem C66_threads : forall (T M P C B : Type) (E : menv T M P C B), poly_classes E -> e_kind E <> Derived ->
  forall t0 (threads : list (list (mop M P C B))) st, lexec LNone (lstart (map (serve E) threads) (empty_system t0)) st ->
  exists hist, plausible E t0 [] hist /\
    (forall t, exists rest, nth t threads [] = map fst (told t hist) ++ rest /\ ((exists r, nth_error (l_ths st) t = Some (TIdle (PDone r))) -> rest = [])) /\
    map (fun e => (fst (fst e), snd e)) hist = results (l_log st) /\
    ((forall th, In th (l_ths st) -> busy th = false) -> l_mem st = after E t0 (map (fun e => snd (fst e)) hist)).
Proof. exact @threads_history. Qed.
Print Assumptions C66_threads.
(** So all threads that ask for the same matrix get the same one. *)
Theorem C66_threads_one_matrix : forall (T M P C B : Type) (E : menv T M P C B), poly_classes E -> e_kind E <> Derived ->
  forall t0 (threads : list (list (mop M P C B))) st, lexec LNone (lstart (map (serve E) threads) (empty_system t0)) st -> (forall ops o, In ops threads -> ~ In (Delete o) ops) ->
  exists hist, (forall t, exists rest, nth t threads [] = map fst (told t hist) ++ rest) /\ map (fun e => (fst (fst e), snd e)) hist = results (l_log st) /\
    forall e1 e2 k1 k2 m1 m2, In e1 hist -> In e2 hist -> asks (snd (fst e1)) k1 -> asks (snd (fst e2)) k2 -> same_request E k1 k2 ->
      matrix_of (snd e1) = Some m1 -> matrix_of (snd e2) = Some m2 -> m1 = m2.
Proof. exact @t_threads_one. Qed.
Print Assumptions C66_threads_one_matrix.
Theorem C66_threads_never_stuck : forall (T M P B : Type) (st : lstate (mstate T M P B) (mloc M)),
  (forall th, In th (l_ths st) -> exists r, th = TIdle (PDone r)) \/ exists t st', lstep LNone st t st'.
Proof. exact (fun T M P B => @no_deadlock _ _ _). Qed.
Print Assumptions C66_threads_never_stuck.
(** Both threads look in vain before either creates; the second to get the write lock finds the first one's matrix. *)
Example C66_threads_race : exists st, lexec LNone (lstart (map (serve (toy Plain false)) [[Lookup (KMoment 1)]; [Lookup (KMoment 1)]]) (empty_system 0)) st /\
  match results (l_log st), ms_mats (l_mem st), map busy (l_ths st) with
  | [(a, ORef m); (b, ORef m')], [Some _], [false; false] => (a =? 1) && (b =? 0) && (m =? 0) && (m' =? 0) && (length (l_log st) =? 4)
  | _, _, _ => false
  end = true.
Proof. apply (lrun_test LNone [0; 1; 1; 0; 0; 1; 1; 1; 1; 1; 1; 1; 0; 0; 0; 0; 0; 0]). vm_compute. reflexivity. Qed.
(** Deletion takes away the matrix at that offset and no other. *)
Theorem C66_delete : forall (T M P C B : Type) (E : menv T M P C B), poly_classes E -> e_kind E <> Derived ->
  forall t h o, let s := after E t h in o <> Z.of_nat (length (ms_mats s)) ->
  (answer E t h (Delete o) = OBool true <-> exists m, answer E t h (Get o) = ORef m) /\ (answer E t h (Delete o) = OBool true \/ answer E t h (Delete o) = OBool false) /\
  (forall h2, answer E t h (Delete o) = OBool true -> answer E t (h ++ Delete o :: h2) (Get o) = OThrow XMissing) /\
  (forall o', o' <> o -> answer E t (h ++ [Delete o]) (Get o') = answer E t h (Get o')).
Proof. exact @delete_spec. Qed.
Print Assumptions C66_delete.
Example C66_delete_demo : let E := toy Plain false in let h := [Create (KMoment 1); Create (KMoment 2); Create (KMoment 3)] in
  1%Z <> Z.of_nat (length (ms_mats (after E 0 h))) /\ answer E 0 h (Delete 1) = OBool true /\ answer E 0 h (Delete 7) = OBool false /\ answer E 0 (h ++ [Delete 1]) (Delete 1) = OBool false /\
  answer E 0 (h ++ [Delete 1]) (Get 2) = ORef 2 /\ answer E 0 (h ++ [Delete 1]) (Get 1) = OThrow XMissing.
Proof. cbv zeta. split; [vm_compute; discriminate|]. repeat (split; [vm_compute; reflexivity|]). vm_compute. reflexivity. Qed.
(** Deleting "the matrix" right behind the last one is not refused: the element past the end of the list is accessed. *)
Theorem C66_delete_refuted : exists (h : list (mop nat nat nat nat)) o, h = [Create (KMoment 1)] /\ answer (toy Plain false) 0 h (Get o) = OThrow XMissing /\ answer (toy Plain false) 0 h (Delete o) = OUndef.
Proof. exact delete_refuted. Qed.
Print Assumptions C66_delete_refuted.
(** A deleted matrix can never be had again: its index stays behind, and every later request for it fails. *)
Theorem C66_recreate_refuted : exists (h : list (mop nat nat nat nat)) k o, answer (toy Plain false) 0 [] (Create k) = OMat o 0 /\ h = [Create k; Delete o] /\
  answer (toy Plain false) 0 [Create k] (Delete o) = OBool true /\ answer (toy Plain false) 0 h (Create k) = ORuntime.
Proof. exact recreate_refuted. Qed.
Print Assumptions C66_recreate_refuted.
Theorem C66_deleted_forever : forall (T M P C B : Type) (E : menv T M P C B), poly_classes E -> e_kind E <> Derived ->
  forall t h k o m h2 h3, answer E t h (Create k) = OMat o m -> ~ In (Delete o) h2 ->
  answer E t ((h ++ Create k :: h2) ++ Delete o :: h3) (Create k) = ORuntime /\ answer E t ((h ++ Create k :: h2) ++ Delete o :: h3) (Lookup k) = ORuntime.
Proof. exact @deleted_forever. Qed.
Print Assumptions C66_deleted_forever.
(** In a derived system, asking for the image of a matrix of the base system by its offset and then by its name fails an assertion, or,
    without assertions, makes a second copy. *)
Theorem C66_derived_refuted : exists (h : list (mop nat nat nat nat)) k b, e_base (toy Derived false) 0 k = b /\ h = [Create (KDer (Z.to_nat b))] /\
  answer (toy Derived false) 0 h (Create k) = OAssert /\
  answer (toy Derived true) 0 h (Create k) = OMat 1 1 /\ answer (toy Derived true) 0 (h ++ [Create k]) (Create (KDer (Z.to_nat b))) = OMat 0 0.
Proof. exact derived_refuted. Qed.
Print Assumptions C66_derived_refuted.
(** A substituted matrix asked for the first time is made from the matrix and the rulebook as they are then... *)
Theorem C66_substituted : forall (T M P C B : Type) (E : menv T M P C B), poly_classes E -> e_kind E <> Derived ->
  forall t h a r o m, answer E t h (Find (KSub a r)) = OThrow XMissing -> (forall x, ~ In (Delete x) h) -> answer E t h (Create (KSub a r)) = OMat o m ->
  exists m0 b t', answer E t h (Get (Z.of_nat a)) = ORef m0 /\ book (after E t h) r = Some b /\ e_subst E (ms_t (after E t h)) m0 b = (t', Some m).
Proof. exact @t_substituted. Qed.
Print Assumptions C66_substituted.
Example C66_substituted_demo : let E := toy Plain false in let h := [Create (KMoment 1); Create (KMoment 2); AddBook 3; MergeBook 0 4] in
  answer E 0 h (Find (KSub 1 0)) = OThrow XMissing /\ answer E 0 h (Create (KSub 1 0)) = OMat 2 7001 /\ book (after E 0 h) 0 = Some 7.
Proof. cbv zeta. repeat (split; [vm_compute; reflexivity|]). vm_compute. reflexivity. Qed.
(** ... but it is not remade when rules are merged into the rulebook later: the request goes on being answered with the old matrix. *)
Theorem C66_stale_substitution_refuted : exists (h : list (mop nat nat nat nat)) m0 b m, book (after (toy Plain false) 0 h) 0 = Some b /\ answer (toy Plain false) 0 h (Get 0) = ORef m0 /\
  answer (toy Plain false) 0 h (Create (KSub 0 0)) = OMat 1 m /\ snd (e_subst (toy Plain false) (ms_t (after (toy Plain false) 0 h)) m0 b) <> Some m.
Proof. exact stale_refuted. Qed.
Print Assumptions C66_stale_substitution_refuted.
(** Rulebooks are numbered in the order in which they are added; a refused one leaves no trace. *)
Theorem C66_add_rulebook : forall (T M P C B : Type) (E : menv T M P C B) t h b, let n := length (ms_books (after E t h)) in let s' := after E t (h ++ [AddBook b]) in
  match e_added E (ms_t (after E t h)) n (e_name E n b) true with
  | (_, Some b') => answer E t h (AddBook b) = OBook n /\ book s' n = Some b' /\ length (ms_books s') = S n /\ forall i, i <> n -> book s' i = book (after E t h) i
  | (_, None) => answer E t h (AddBook b) = OThrow XFactory /\ ms_books s' = ms_books (after E t h)
  end.
Proof. exact @t_add. Qed.
Print Assumptions C66_add_rulebook.
(** Merging changes the one rulebook only. *)
Theorem C66_merge_rulebook : forall (T M P C B : Type) (E : menv T M P C B) t h i b, let s := after E t h in let s' := after E t (h ++ [MergeBook i b]) in
  length (ms_books s') = length (ms_books s) /\ (forall j, j <> i -> book s' j = book s j) /\
  match book s i with
  | None => answer E t h (MergeBook i b) = OThrow XMissing /\ s' = s
  | Some b0 => match e_merge E b0 b with
               | (b1, false) => answer E t h (MergeBook i b) = OThrow XFactory /\ book s' i = Some b1
               | (b1, true) => match e_added E (ms_t s) i b1 false with
                               | (_, Some b2) => answer E t h (MergeBook i b) = OBook i /\ book s' i = Some b2
                               | (_, None) => answer E t h (MergeBook i b) = OThrow XFactory /\ book s' i = Some b1
                               end
               end
  end.
Proof. exact @t_merge. Qed.
Print Assumptions C66_merge_rulebook.
Example C66_rulebooks_demo : let E := toy Plain false in let h := [AddBook 3; AddBook 77; AddBook 4; MergeBook 1 5; MergeBook 2 6] in
  ms_books (after E 0 h) = [Some 3; Some 9] /\ answer E 0 [AddBook 3] (AddBook 77) = OThrow XFactory /\ answer E 0 [AddBook 3; AddBook 77] (AddBook 4) = OBook 1 /\ answer E 0 h (MergeBook 2 6) = OThrow XMissing.
Proof. cbv zeta. repeat (split; [vm_compute; reflexivity|]). vm_compute. reflexivity. Qed.
