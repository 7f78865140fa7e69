(** C76: what the arguments of commands mean. *)
From Coq Require Import List String Arith Bool.
From Verif Require Import AlgModel TensorModel ArgModel ArgSpec ArgProofs ArgCallProofs ArgWitnessProofs.
Import ListNotations.
Local Open Scope string_scope.

(** Named values, flags and other values are told apart and kept: the first value of each name, the flags, the others in order. *)
Theorem C76_sorted : forall (A : Type) (text : A -> option string) params flags items, Forall (fits text params flags) items ->
  exists s, clean_inputs text params flags (written items) = Value s /\
  so_inputs s = plains items /\ (forall n, In n (so_flags s) <-> flagged text items n) /\ (forall n, lookup n (so_params s) = given text items n).
Proof. exact (@t_sorted). Qed.
Print Assumptions C76_sorted.
Example C76_sorted_holds : well arr_text Moment moment_named /\ well arr_text Moment moment_plain. Proof. exact moment_well. Qed.

(** Only such lists of arguments are accepted. *)
Theorem C76_accepted : forall (A : Type) (text : A -> option string) params flags args s, clean_inputs text params flags args = Value s ->
  exists items, args = written items /\ Forall (fits text params flags) items.
Proof. exact (@t_accepted). Qed.
Print Assumptions C76_accepted.
Example C76_accepted_holds : exists s, clean_inputs arr_text (param_names Moment) (flag_names Moment) (written moment_named) = Value s. Proof. exact (ex_intro _ _ eq_refl). Qed.

(** A name without a value should be an error, but it is not always: *)
Theorem C76_missing_refuted : exists (text : arr -> option string) (rd : readers arr nat (option bool * etype * nat) nat nat string) args, call text rd Moment args = Undefined.
Proof. exact dangling_undefined. Qed.
Print Assumptions C76_missing_refuted.
(** it is one if no other named value came before; *)
Theorem C76_missing_partial : forall (A : Type) (text : A -> option string) params flags items a n, Forall (fits text params flags) items -> no_names items -> text a = Some n -> In n params ->
  clean_inputs text params flags (written items ++ [a]) = Throws.
Proof. exact (@t_missing). Qed.
Print Assumptions C76_missing_partial.
Example C76_missing_holds : no_names [Plain (N 9); Flag (T "monomial")] /\ Forall (fits arr_text (param_names Moment) (flag_names Moment)) [Plain (N 9); Flag (T "monomial")].
Proof. exact plain_no_names. Qed.
(** there is no other way to read past the arguments. *)
Theorem C76_undefined : forall (A : Type) (text : A -> option string) params flags args, clean_inputs text params flags args = Undefined <->
  exists items a n, args = (written items ++ [a])%list /\ Forall (fits text params flags) items /\ ~ no_names items /\ text a = Some n /\ In n params.
Proof. exact (@t_undefined). Qed.
Print Assumptions C76_undefined.
Example C76_undefined_holds : clean_inputs arr_text (param_names Moment) (flag_names Moment) dangling = Undefined. Proof. exact eq_refl. Qed.

(** Names that exclude each other are found exactly if two of them are used. *)
Theorem C76_clash : forall pairs flags params, validate pairs flags params = None <-> forall a b, excluded pairs a b -> used flags params a -> used flags params b -> False.
Proof. exact validate_none. Qed.
Print Assumptions C76_clash.
Theorem C76_clash_named : forall pairs flags params a b, validate pairs flags params = Some (a, b) -> In (a, b) pairs /\ used flags params a /\ used flags params b.
Proof. exact validate_some. Qed.
Print Assumptions C76_clash_named.
Example C76_clash_holds : validate (exclusions Localizing) ["monomial"; "symbols"] ["level"] = None /\ validate (exclusions Localizing) ["operators"; "symbols"] ["level"] = Some ("operators", "symbols").
Proof. exact (conj eq_refl eq_refl). Qed.
(** Any two names of a list exclude each other, and only those. *)
Theorem C76_list_excludes : forall l i j a b, i <> j -> nth_error l i = Some a -> nth_error l j = Some b -> excluded (exclude_all l) a b.
Proof. exact all_excluded. Qed.
Print Assumptions C76_list_excludes.
Theorem C76_list_excludes_only : forall l a b, excluded (exclude_all l) a b -> exists i j, i <> j /\ nth_error l i = Some a /\ nth_error l j = Some b.
Proof. exact only_excluded. Qed.
Print Assumptions C76_list_excludes_only.
Example C76_list_excludes_holds : exclude_all ["symbols"; "operators"; "words"] = [("operators", "symbols"); ("symbols", "words"); ("operators", "words")]. Proof. exact eq_refl. Qed.

(** The flags that exclude each other are the alternatives of a command. *)
Theorem C76_alternatives : forall c a b, excluded (exclusions c) a b <-> alternatives c a b.
Proof. exact alternatives_spec. Qed.
Print Assumptions C76_alternatives.
Example C76_alternatives_holds : alternatives Localizing "zero_indexing" "matlab_indexing". Proof. exact alternatives_example. Qed.

(** A call that is accepted uses no two flags that exclude each other, ... *)
Theorem C76_exclusive : forall (A K E X D L : Type) (text : A -> option string) (rd : readers A K E X D L) c items o k r a b, well text c items ->
  call text rd c (written items) = Value (o, k, r) -> alternatives c a b -> flagged text items a -> flagged text items b -> False.
Proof. exact (@t_alternatives). Qed.
Print Assumptions C76_exclusive.
(** ... gives what the command needs all by name or all in order, ... *)
Theorem C76_complete : forall (A K E X D L : Type) (text : A -> option string) (rd : readers A K E X D L) c items o k r, well text c items ->
  call text rd c (written items) = Value (o, k, r) ->
  (plains items = [] /\ forall n, In n (keys c) -> given text items n <> None) \/ (List.length (plains items) = List.length (keys c) /\ forall n, In n (keys c) -> given text items n = None).
Proof. exact (@t_complete). Qed.
Print Assumptions C76_complete.
(** ... and asks for the output that its flag says, or for the default. *)
Theorem C76_mode : forall (A K E X D L : Type) (text : A -> option string) (rd : readers A K E X D L) c items o k r, well text c items ->
  call text rd c (written items) = Value (o, k, r) ->
  (forall m n, In (m, n) modes -> flagged text items n -> o = m) /\ ((forall m n, In (m, n) modes -> ~ flagged text items n) -> o = 5).
Proof. exact (@t_mode). Qed.
Print Assumptions C76_mode.
Example C76_calls : well arr_text Moment moment_named /\ call arr_text rd0 Moment (written moment_named) = Value (2, 9, WantMoment 3 2). Proof. exact (conj (proj1 moment_well) (proj1 moment_calls)). Qed.

(** A command means the same with values by name or in order; proved for all commands that ask for a matrix but two. *)
Theorem C76_named_partial : forall (A K E X D L : Type) (text : A -> option string) (rd : readers A K E X D L) c vals by_name in_order, c <> Commutator -> c <> Substituted ->
  same_call text c vals by_name in_order -> call text rd c (written by_name) = call text rd c (written in_order).
Proof. exact (@t_named). Qed.
Print Assumptions C76_named_partial.
Example C76_named_holds : same_call arr_text Moment [N 9; N 3] moment_named moment_plain /\ call arr_text rd0 Moment (written moment_plain) = Value (2, 9, WantMoment 3 2).
Proof. exact (conj moment_same (proj2 moment_calls)). Qed.
(** Commutator matrices: false, the level is lost (and 0). *)
Theorem C76_commutator_refuted : exists (text : arr -> option string) (rd : readers arr nat (option bool * etype * nat) nat nat string) vals by_name in_order,
  same_call text Commutator vals by_name in_order /\ (exists r, call text rd Commutator (written in_order) = Value r) /\ call text rd Commutator (written by_name) <> call text rd Commutator (written in_order).
Proof. exact comm_refuted. Qed.
Print Assumptions C76_commutator_refuted.
Theorem C76_commutator_partial : forall (A K E X D L : Type) (text : A -> option string) (rd : readers A K E X D L) vals by_name in_order, same_call text Commutator vals by_name in_order ->
  call text rd Commutator (written by_name) =
  match call text rd Commutator (written in_order) with Value (o, k, WantCommutator anti level n e) => Value (o, k, WantCommutator anti 0 n e) | other => other end.
Proof. exact (@t_commutator). Qed.
Print Assumptions C76_commutator_partial.
Example C76_commutator_holds : same_call arr_text Commutator [N 9; N 2; N 7] comm_named comm_plain. Proof. exact comm_same. Qed.
(** Substituted matrices: false, the index of the matrix is taken for that of the rules. *)
Theorem C76_substituted_refuted : exists (text : arr -> option string) (rd : readers arr nat (option bool * etype * nat) nat nat string) vals by_name in_order,
  same_call text Substituted vals by_name in_order /\ (exists r, call text rd Substituted (written in_order) = Value r) /\ call text rd Substituted (written by_name) <> call text rd Substituted (written in_order).
Proof. exact subs_refuted. Qed.
Print Assumptions C76_substituted_refuted.
Theorem C76_substituted_partial : forall (A K E X D L : Type) (text : A -> option string) (rd : readers A K E X D L) vals by_name in_order, same_call text Substituted vals by_name in_order ->
  forall o k m r, call text rd Substituted (written in_order) = Value (o, k, WantSubstituted m r) -> call text rd Substituted (written by_name) = Value (o, k, WantSubstituted m m).
Proof. exact (@t_substituted). Qed.
Print Assumptions C76_substituted_partial.
Example C76_substituted_holds : same_call arr_text Substituted [N 9; N 4; N 1] subs_named subs_plain /\ call arr_text rd0 Substituted (written subs_plain) = Value (5, 9, WantSubstituted 4 1).
Proof. exact (conj subs_same (proj2 subs_calls)). Qed.
