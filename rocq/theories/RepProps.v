(** C63: representations of a symmetry group on words of any length. *)
From Coq Require Import List Arith NArith ZArith Bool Sorted.
From Verif Require Import CoreModel AlgModel RepModel RepSpec RepFinalProofs RepWitnessProofs.
Import ListNotations.

(** The lengths made on the way to length n: ascending, ending with n, each the sum of two lengths made before it (or 1). *)
Theorem C63_build_list : forall n, (2 <= n)%N ->
  exists l, (forall fuel, N.size_nat n <= fuel -> decompose fuel n = Ret l) /\ StronglySorted N.lt l /\ (exists front, l = front ++ [n]) /\ Forall (fun w => (2 <= w)%N) l /\
    forall w, In w l -> let (a, b) := parents w in (a + b)%N = w /\ (1 <= b <= a)%N /\ (a = 1%N \/ In a l) /\ (b = 1%N \/ In b l).
Proof. exact f_list. Qed.
Print Assumptions C63_build_list.
Example C63_build_list_case : (2 <= 11)%N /\ decompose 4 11 = Ret [2; 3; 4; 8; 11]%N.
Proof. exact f_list_case. Qed.

(** If each element of the fundamental representation gives the action of a multiplicative map on the words of length 1, then after any calls every call
    returns a representation of the asked length whose elements give the actions of the same maps on the words of that length. *)
Theorem C63_representations : forall (A : algebra) (W : Type) (hash : W -> N) (prod_hash : W -> W -> N) (osg : N -> list W) (ev : W -> vt A),
  words_ok A W hash prod_hash osg ev ->
  forall phis, Forall (multiplicative A) phis ->
  forall fuel fund g wls,
  Forall2 (fun phi d => represents A phi (map ev (osg 1%N)) d) phis fund -> new_group osg (length (osg 1%N)) fund = Some g ->
  Forall (fun wl => (1 <= wl)%N /\ N.size_nat wl <= fuel) wls ->
  exists g' rs, creates hash prod_hash osg (s0 A) (s1 A) (sadd A) (smul A) fuel (length phis) g wls = Some (g', rs) /\
    Forall2 (fun wl r => g_reps g' wl = Some r /\ Forall2 (fun phi d => represents A phi (map ev (osg wl)) d) phis r) wls rs.
Proof. exact f_representations. Qed.
Print Assumptions C63_representations.
Example C63_representations_case : Forall (multiplicative (quad_alg 1)) [(fun x => x); qphi 1] /\ words_ok (quad_alg 1) word2 hash2 prod2 osg2 ev2 /\
  Forall2 (fun phi d => represents (quad_alg 1) phi (map ev2 (osg2 1)) d) [(fun x => x); qphi 1] [same3; swap3] /\
  new_group osg2 (length (osg2 1)) [same3; swap3] = Some start2 /\ Forall (fun wl => (1 <= wl)%N /\ (N.size_nat wl <= 5)%nat) [5; 3; 1; 12]%N.
Proof. exact f_case. Qed.
Example C63_representations_value : made2 = Some [[[1; 0; 0; 0]; [0; 1; 0; 0]; [0; 0; 1; 0]; [0; 0; 0; 1]]; [[1; 0; 0; 0]; [0; 0; 1; 0]; [0; 1; 0; 0]; [0; 0; 0; 1]]]%Z.
Proof. exact made2_value. Qed.

(** The sign of a product of words is not looked at: with anticommuting letters the matrices made for longer words are wrong. *)
Theorem C63_sign_refuted : exists (A : algebra) (W : Type) (hash : W -> N) (prod_hash : W -> W -> N) (osg : N -> list W) (ev : W -> vt A) (phi : vt A -> vt A) (d : nat -> nat -> sc A) (g g' : gstate (sc A)) (d' : nat -> nat -> sc A),
  (forall m n l r, (1 <= n <= m)%N -> In l (osg m) -> In r (osg n) -> exists w, In w (osg (m + n)%N) /\ hash w = prod_hash l r /\ (vmul A (ev l) (ev r) = ev w \/ vadd A (vmul A (ev l) (ev r)) (ev w) = v0 A)) /\
  multiplicative A phi /\ represents A phi (map ev (osg 1%N)) d /\ new_group osg (length (osg 1%N)) [d] = Some g /\
  create hash prod_hash osg (s0 A) (s1 A) (sadd A) (smul A) 5 1 g 2 = Made g' [d'] /\ ~ represents A phi (map ev (osg 2%N)) d'.
Proof. exact f_sign. Qed.
Print Assumptions C63_sign_refuted.
