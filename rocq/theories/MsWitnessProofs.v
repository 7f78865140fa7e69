From Coq Require Import List Arith ZArith Bool Lia.
From Verif Require Import LockModel LockSpec LockProofs MsModel MsSpec MsProofs MsInvProofs MsHistProofs MsThreadProofs.
Import ListNotations.

(** A small system to try things on: the "matrix" generated for a key is the number of generations so far (so that a second generation
    would show), level 9 throws; the polynomial p has the words [p] and [p+1]; a composite is 100 plus the sum of its parts; applying
    rulebook b to matrix m gives 1000 * b + m; rulebooks are merged by adding them; rulebook 77 is refused. *)
Definition toy (kd : syskind) (nd : bool) : menv nat nat nat nat nat :=
  mk_menv kd nd
    (fun t k => match k with KMoment 9 => (t, None) | _ => (S t, Some t) end)
    (fun _ p => [([p], 1); ([S p], 2)])
    (fun t _ _ ms => (S t, Some (100 + fold_right Nat.add 0 (map (fun e => snd e * fst e) ms))))
    (fun t m b => (t, Some (1000 * b + m)))
    Nat.eqb
    (fun _ k => match k with KMoment l => Z.of_nat l | _ => (-1)%Z end)
    (fun _ b => b) (fun t _ b _ => (t, if Nat.eqb b 77 then None else Some b)) (fun b b' => (b + b', true)).
Lemma toy_classes kd nd : poly_classes (toy kd nd).
Proof. split; [|split]; cbn; intros *; rewrite ?Nat.eqb_eq; auto; try congruence. Qed.

Notation top := (mop nat nat nat nat).
Lemma delete_refuted : exists (h : list top) o, h = [Create (KMoment 1)] /\ answer (toy Plain false) 0 h (Get o) = OThrow XMissing /\ answer (toy Plain false) 0 h (Delete o) = OUndef.
Proof. exists [Create (KMoment 1)], 1%Z. split; [reflexivity|]. split; vm_compute; reflexivity. Qed.
Lemma recreate_refuted : exists (h : list top) k o, answer (toy Plain false) 0 [] (Create k) = OMat o 0 /\ h = [Create k; Delete o] /\ answer (toy Plain false) 0 [Create k] (Delete o) = OBool true /\
  answer (toy Plain false) 0 h (Create k) = ORuntime.
Proof. exists [Create (KMoment 1); Delete 0], (KMoment 1), 0%Z. repeat (split; [vm_compute; reflexivity|]). vm_compute. reflexivity. Qed.
Lemma derived_refuted : exists (h : list top) k b, e_base (toy Derived false) 0 k = b /\ h = [Create (KDer (Z.to_nat b))] /\
  answer (toy Derived false) 0 h (Create k) = OAssert /\
  answer (toy Derived true) 0 h (Create k) = OMat 1 1 /\ answer (toy Derived true) 0 (h ++ [Create k]) (Create (KDer (Z.to_nat b))) = OMat 0 0.
Proof. exists [Create (KDer 1)], (KMoment 1), 1%Z. repeat (split; [vm_compute; reflexivity|]). vm_compute. reflexivity. Qed.
Lemma stale_refuted : exists (h : list top) m0 b m, book (after (toy Plain false) 0 h) 0 = Some b /\ answer (toy Plain false) 0 h (Get 0) = ORef m0 /\
  answer (toy Plain false) 0 h (Create (KSub 0 0)) = OMat 1 m /\ snd (e_subst (toy Plain false) (ms_t (after (toy Plain false) 0 h)) m0 b) <> Some m.
Proof. exists [Create (KMoment 1); AddBook 2; Create (KSub 0 0); MergeBook 0 3], 0, 5, 2000. repeat (split; [vm_compute; reflexivity|]). vm_compute. discriminate. Qed.
