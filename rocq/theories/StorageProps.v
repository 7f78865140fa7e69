(** C38: keys of persistent objects stay valid and never alias. *)
From Coq Require Import List NArith Arith Bool Sorted.
From Verif Require Import ParModel LockModel LockSpec LockProofs StorageModel StorageSpec StorageProofs StorageFinalProofs.
Import ListNotations.
Local Open Scope N_scope.

(** A key returned by store yields that object for as long as it is neither released nor the bank cleared. *)
Theorem C38_key_stays_valid : forall (A : Type) sig h1 s (x : A) h2 k, sig < 2 ^ 32 -> Forall key_op (h1 ++ Store s x :: h2) -> stored (h1 ++ Store s x :: h2) <= 2 ^ 32 ->
  result sig h1 (Store s x) = BKey k -> ~ In (Release k) h2 -> ~ In Clear h2 -> result sig (h1 ++ Store s x :: h2) (Get k) = BFound x.
Proof. exact @kept. Qed.
Print Assumptions C38_key_stays_valid.
(** Once released, the key is not found ever after: it never yields another object. *)
Theorem C38_released_key_is_dead : forall (A : Type) sig h1 s (x : A) h2 h3 k, sig < 2 ^ 32 -> let h := h1 ++ Store s x :: h2 ++ Release k :: h3 in
  Forall key_op h -> stored h <= 2 ^ 32 -> result sig h1 (Store s x) = BKey k -> ~ In Clear (h2 ++ h3) -> result sig h (Get k) = BNotFound.
Proof. exact @released. Qed.
Print Assumptions C38_released_key_is_dead.
Theorem C38_keys_distinct : forall (A : Type) sig h1 s (x : A) h2 s' y k k', sig < 2 ^ 32 -> Forall key_op (h1 ++ Store s x :: h2) -> stored (h1 ++ Store s x :: h2) < 2 ^ 32 -> ~ In Clear h2 ->
  result sig h1 (Store s x) = BKey k -> result sig (h1 ++ Store s x :: h2) (Store s' y) = BKey k' -> k <> k'.
Proof. exact @distinct. Qed.
Print Assumptions C38_keys_distinct.
(** Exactly the objects stored and not yet released or cleared can be had. *)
Theorem C38_get_exact : forall (A : Type) sig (h : list (bank_op A)) k, sig < 2 ^ 32 -> k < 2 ^ 64 -> k / 2 ^ 32 = sig -> Forall key_op h -> stored h <= 2 ^ 32 ->
  (forall x, result sig h (Get k) = BFound x <-> alive sig h k x) /\ (result sig h (Get k) = BNotFound <-> forall x, ~ alive sig h k x) /\
  (forall x, alive sig h k x -> result sig h (Release k) = BNone /\ result sig (h ++ [Release k]) (Get k) = BNotFound).
Proof. exact @exact_get. Qed.
Print Assumptions C38_get_exact.
(** Keys with a foreign signature are rejected as such and change nothing. *)
Theorem C38_foreign_signature : forall (A : Type) sig (h : list (bank_op A)) k, k < 2 ^ 64 -> k / 2 ^ 32 <> sig ->
  bank_run1 sig (Get k) (after sig h) = (after sig h, BBadSignature) /\ bank_run1 sig (Release k) (after sig h) = (after sig h, BBadSignature).
Proof. exact @foreign. Qed.
Print Assumptions C38_foreign_signature.
(** Going through the bank with first and next visits the objects that are alive, each once, in order of their keys; size and empty agree. *)
Theorem C38_iteration : forall (A : Type) sig (h : list (bank_op A)), sig < 2 ^ 32 -> Forall key_op h -> stored h <= 2 ^ 32 ->
  exists l, bank_loop (length l) (after sig h) (result sig h First) = Some l /\ result sig h Size = BSize (length l) /\ result sig h Empty = BEmpty (match l with [] => true | _ => false end) /\
    StronglySorted (fun x y => fst x < fst y) l /\ forall i x, In (i, x) l <-> i < 2 ^ 32 /\ alive sig h (sign_index sig i) x.
Proof. exact @iterate_spec. Qed.
Print Assumptions C38_iteration.
Example C38_history : let h := [Store false 10%nat; Store true 20%nat; Release (5 * 2 ^ 32); Get (5 * 2 ^ 32 + 1); Store false 30%nat] in
  Forall key_op h /\ stored h = 3 /\ result 5 [Store false 10%nat] (Store true 20%nat) = BKey (5 * 2 ^ 32 + 1) /\ ~ In Clear h /\
  result 5 h (Get (5 * 2 ^ 32 + 1)) = BFound 20%nat /\ result 5 h (Get (5 * 2 ^ 32)) = BNotFound /\ result 5 h (Get (6 * 2 ^ 32)) = BBadSignature /\
  bank_loop 2 (after 5 h) (result 5 h First) = Some [(1, 20%nat); (2, 30%nat)].
Proof. split; [repeat constructor|]. split; [reflexivity|]. split; [reflexivity|]. split; [|repeat split; vm_compute; reflexivity]. cbn. intuition discriminate. Qed.
(** Any number of threads: whatever the interleaving of memory actions, the completed operations form a history of one thread. *)
Theorem C38_threads : forall (A : Type) sig (threads : list (list (bank_op A))) st, lexec BNone (lstart (map (bank_thread sig) threads) new_bank) st ->
  exists hist : list (nat * bank_op A),
    (forall t, exists rest, nth t threads [] = map snd (filter (fun e => Nat.eqb (fst e) t) hist) ++ rest) /\
    l_log st = map (fun e => (fst (fst e), bank_lop sig (snd (fst e)), snd e)) (combine hist (snd (bank_run sig (map snd hist) new_bank))) /\
    ((forall th, In th (l_ths st) -> busy th = false) -> l_mem st = after sig (map snd hist)).
Proof. exact @threads_history. Qed.
Print Assumptions C38_threads.
Example C38_threads_interleaved : exists st, lexec BNone (lstart (map (bank_thread 5) [[Store false 10%nat]; [Get (5 * 2 ^ 32)]; [Get (5 * 2 ^ 32)]]) new_bank) st /\
  match l_log st with
  | [(a, _, BNotFound); (b, _, BKey k); (c, _, BFound x)] => ((a =? 2) && (b =? 0) && (c =? 1))%nat && (k =? 5 * 2 ^ 32) && (x =? 10)%nat
  | _ => false
  end = true.
Proof. apply (lrun_test BNone [2; 2; 2; 0; 0; 0; 0; 0; 1; 1; 1]%nat). vm_compute. reflexivity. Qed.
Theorem C38_threads_never_stuck : forall (A : Type) (st : lstate (bank A) (bank_out A)),
  (forall th, In th (l_ths st) -> exists r, th = TIdle (PDone r)) \/ exists t st', lstep BNone st t st'.
Proof. exact (fun A => @no_deadlock _ _ _). Qed.
Print Assumptions C38_threads_never_stuck.
(** A single object created on demand by any number of threads is constructed once, and all of them get it. *)
Theorem C38_created_once : forall (A : Type) (xs : list A) st, lexec None (lstart (map create_if_empty xs) (None, 0%nat)) st ->
  (forall th, In th (l_ths st) -> busy th = false) ->
  l_mem st = (None, 0%nat) \/ exists x, In x xs /\ l_mem st = (Some x, 1%nat) /\ forall t r, nth_error (l_ths st) t = Some (TIdle (PDone r)) -> r = Some x.
Proof. exact @created_once. Qed.
Print Assumptions C38_created_once.
Example C38_created_once_interleaved : exists st, lexec None (lstart (map create_if_empty [10; 20]%nat) (None, 0%nat)) st /\
  match l_mem st, l_ths st with
  | (Some a, 1%nat), [TIdle (PDone (Some b)); TIdle (PDone (Some c))] => ((a =? 20) && (b =? 20) && (c =? 20))%nat
  | _, _ => false
  end = true.
Proof. apply (lrun_test None [0; 1; 1; 0; 1; 0; 1; 1; 1; 1; 1; 0; 0; 0; 0; 0]%nat). vm_compute. reflexivity. Qed.
(** After clear a key of an object that is gone yields another object. *)
Theorem C38_clear_refuted : exists (h : list (bank_op bool)) k, result 1 [] (Store false true) = BKey k /\ h = [Store false true; Clear; Store false false] /\ result 1 h (Get k) = BFound false.
Proof. exact clear_refuted. Qed.
Print Assumptions C38_clear_refuted.
(** After 2^32 stores the counter wraps: the new object is not stored, and its key yields an old one. *)
Theorem C38_wrap_refuted : exists (h : list (bank_op bool)) k, Forall key_op h /\ ~ In Clear h /\
  result 1 h (Store false false) = BKey k /\ ~ In (Release k) h /\ result 1 (h ++ [Store false false]) (Get k) = BFound true.
Proof. exact wrap_refuted. Qed.
Print Assumptions C38_wrap_refuted.
