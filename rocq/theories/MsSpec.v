(** What users may rely on when they ask a matrix system for matrices. *)
From Coq Require Import List Arith ZArith Bool.
From Verif Require Import LockModel MsModel.
Import ListNotations.

Section Spec.
  Context {T M P C B : Type} (E : menv T M P C B).
  Notation key := (key P). Notation mop := (mop M P C B).
  (** Polynomials that the index of polynomial localizing matrices does not tell apart form classes. *)
  Definition poly_classes : Prop :=
    (forall p, e_peq E p p = true) /\ (forall p q, e_peq E p q = true -> e_peq E q p = true) /\
    (forall p q r, e_peq E p q = true -> e_peq E q r = true -> e_peq E p r = true).
  (** In a Pauli scenario, a request without restriction to neighbours is the request with restriction 0. *)
  Definition plain_key (k : key) : key :=
    match e_kind E with
    | Pauli => match k with KNNMoment l 0 => KMoment l | KNNLoc l 0 w => KLoc l w | KNNPoly l 0 p => KPoly l p | _ => k end
    | _ => k
    end.
  (** Two requests ask for the same matrix *)
  Definition same_request (k k' : key) : Prop :=
    match plain_key k, plain_key k' with
    | KPoly l p, KPoly l' p' => l = l' /\ e_peq E p p' = true
    | KNNPoly l n p, KNNPoly l' n' p' => l = l' /\ n = n' /\ e_peq E p p' = true
    | a, b => a = b
    end.
  (** [m] is a matrix such as the request [k] asks for: generated for it, or composed of matrices generated for the words of the polynomial *)
  Inductive made : key -> M -> Prop :=
  | made_generated : forall k t t' m, (forall l p, k <> KPoly l p) -> (forall l n p, k <> KNNPoly l n p) -> (forall s r, k <> KSub s r) -> e_mk E t k = (t', Some m) -> made k m
  | made_substituted : forall s r t t' m0 b m, e_subst E t m0 b = (t', Some m) -> made (KSub s r) m
  | made_composed : forall l n p k t0 t t' ms m, k = KPoly l p /\ n = 0 \/ k = KNNPoly l n p ->
      made_parts l n (e_monos E t0 p) ms -> e_compose E t l n ms = (t', Some m) -> made k m
  | made_same : forall k k' m, same_request k k' -> made k m -> made k' m
  with made_parts : nat -> nat -> list (list nat * C) -> list (M * C) -> Prop :=
  | parts_nil : forall l n, made_parts l n [] []
  | parts_cons : forall l n w c m parts ms, made (match e_kind E with Pauli => KNNLoc l n w | _ => KLoc l w end) m -> made_parts l n parts ms ->
      made_parts l n ((w, c) :: parts) ((m, c) :: ms).
  (** requests of a thread, and what it was told, in order *)
  Definition told (t : nat) (hist : list (nat * mop * mout M)) : list (mop * mout M) :=
    map (fun e => (snd (fst e), snd e)) (filter (fun e => Nat.eqb (fst (fst e)) t) hist).
  (** The answers recorded are those a single thread gets that makes the requests in the order of the history. *)
  Fixpoint plausible (t : T) (before : list mop) (hist : list (nat * mop * mout M)) : Prop :=
    match hist with
    | [] => True
    | (_, op, r) :: hist' => r = answer E t before op /\ plausible t (before ++ [op]) hist'
    end.
  (** requests for a matrix, and the matrix a request was answered with *)
  Definition asks (op : mop) (k : key) : Prop := op = Create k \/ op = Lookup k.
  Definition matrix_of (r : mout M) : option M := match r with OMat _ m => Some m | ORef m => Some m | _ => None end.
  Definition asked (op : mop) (k : key) (r : mout M) (o : Z) (m : M) : Prop := op = Create k /\ r = OMat o m \/ op = Lookup k /\ r = ORef m.
  (** the answers given so far in an execution of several threads, oldest first *)
  Definition results (log : list (nat * lop (mstate T M P B) (mloc M) * mloc M)) : list (nat * mout M) :=
    flat_map (fun e => match snd e with LOut r => [(fst (fst e), r)] | _ => [] end) log.
End Spec.
