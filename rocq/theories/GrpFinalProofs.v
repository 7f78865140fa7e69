(** Dimino's algorithm on the members of a finite group inside a larger type. *)
From Coq Require Import List Arith Bool Lia Permutation Eqdep_dec.
From Verif Require Import CoreModel AlgModel GrpModel GrpSpec GrpDiminoProofs.
Import ListNotations.

(** * Injective homomorphisms *)
Section Hom.
  Variables (A B : Type) (p : A -> B) (mulA : A -> A -> A) (mulB : B -> B -> B) (eqA : A -> A -> bool) (eqB : B -> B -> bool) (oneA one1A : A) (oneB one1B : B).
  Hypothesis p_mul : forall x y, p (mulA x y) = mulB (p x) (p y).
  Hypothesis p_one : p oneA = oneB.
  Hypothesis p_eq : forall x y, eqA x y = eqB (p x) (p y).
  Lemma hom_mem x l : existsb (eqB (p x)) (map p l) = existsb (eqA x) l.
  Proof. induction l as [|y l IH]; [reflexivity|]. cbn. now rewrite IH, p_eq. Qed.
  Lemma hom_coset x l : map p (map (fun h => mulA h x) l) = map (fun h => mulB h (p x)) (map p l).
  Proof. rewrite !map_map. apply map_ext. intros a. apply p_mul. Qed.
  Lemma hom_orbit g : forall max x, orbit mulB eqB oneB max (p g) (p x) = option_map (map p) (orbit mulA eqA oneA max g x).
  Proof. induction max as [|max IH]; intros x; cbn; rewrite <- p_one, <- p_eq; destruct (eqA x oneA); try reflexivity. rewrite p_one, <- p_mul, IH. now destruct (orbit mulA eqA oneA max g (mulA x g)). Qed.
  Lemma hom_try old rep : forall gens els, try_gens mulB eqB (map p old) (p rep) (map p gens) (map p els) = map p (try_gens mulA eqA old rep gens els).
  Proof. induction gens as [|g gens IH]; intros els; cbn; [reflexivity|]. rewrite <- p_mul, hom_mem. destruct (existsb (eqA (mulA rep g)) els); [apply IH|]. now rewrite <- hom_coset, <- map_app, IH. Qed.
  Definition rmap (f : A -> B) (r : res (list A)) : res (list B) := match r with Ret l => Ret (map f l) | Err => Err | NoFuel => NoFuel end.
  Lemma hom_cosets old gens : forall fuel pos els, cosets mulB eqB fuel (map p old) (map p gens) pos (map p els) = rmap p (cosets mulA eqA fuel old gens pos els).
  Proof.
    induction fuel as [|fuel IH]; intros pos els; cbn [cosets]; [reflexivity|]. rewrite nth_error_map. destruct (nth_error els pos) as [r|]; cbn [option_map]; [|reflexivity].
    rewrite hom_try, !map_length. destruct (pos + length old <? length (try_gens mulA eqA old r gens els)); [apply IH|reflexivity].
  Qed.
  Lemma hom_add fuel gens : forall todo els, add_gens mulB eqB fuel (map p gens) (map p todo) (map p els) = rmap p (add_gens mulA eqA fuel gens todo els).
  Proof.
    induction todo as [|g todo IH]; intros els; cbn [add_gens map]; [reflexivity|]. rewrite hom_mem. destruct (existsb (eqA g) els); [apply IH|]. rewrite <- hom_coset, <- map_app, hom_cosets, map_length.
    destruct (cosets mulA eqA fuel els gens (length els) (els ++ map (fun h => mulA h g) els)); cbn [rmap]; [apply IH|reflexivity|reflexivity].
  Qed.
  Lemma hom_dimino fuel max g rest : dimino mulB eqB oneB one1B fuel max (map p (g :: rest)) =
    match dimino mulA eqA oneA one1A fuel max (g :: rest) with Ret (Some l) => Ret (Some (map p l)) | Ret None => Ret None | Err => Err | NoFuel => NoFuel end.
  Proof.
    unfold dimino. cbn [map]. rewrite hom_orbit. destruct (orbit mulA eqA oneA max g g) as [l|]; cbn [option_map]; [|reflexivity].
    rewrite <- p_one. change (p g :: map p rest) with (map p (g :: rest)). change (p oneA :: map p l) with (map p (oneA :: l)). rewrite hom_add. now destruct (add_gens mulA eqA fuel (g :: rest) rest (oneA :: l)).
  Qed.
End Hom.

Section Members.
  Variables (E : Type) (mul : E -> E -> E) (one one1 : E) (eqb : E -> E -> bool) (G : list E).
  Hypothesis G_nodup : NoDup G.
  Hypothesis GG : group mul one G.
  Hypothesis eqb_eq : forall x y, In x G -> In y G -> (eqb x y = true <-> x = y).
  Definition memb (x : E) : Prop := In x G.
  (** equality of members can be decided, so membership can be made proof irrelevant: positions in the list *)
  Definition T : Type := { i : nat | (i <? length G) = true }.
  Definition p (t : T) : E := nth (proj1_sig t) G one.
  Lemma T_eq (a b : T) : proj1_sig a = proj1_sig b -> a = b.
  Proof. destruct a as [i hi], b as [j hj]. cbn. intros ->. f_equal. apply UIP_dec, bool_dec. Qed.
  Lemma p_in t : In (p t) G. Proof. destruct t as [i hi]. apply nth_In. now apply Nat.ltb_lt. Qed.
  Lemma p_inj a b : p a = p b -> a = b.
  Proof. intros H. apply T_eq. destruct a as [i hi], b as [j hj]. cbn in *. apply (proj1 (NoDup_nth G one) G_nodup); [now apply Nat.ltb_lt|now apply Nat.ltb_lt|exact H]. Qed.
  Fixpoint pos (x : E) (l : list E) : nat := match l with [] => 0 | y :: l' => if eqb x y then 0 else S (pos x l') end.
  Lemma pos_spec x : forall l, incl l G -> In x l -> pos x l < length l /\ nth (pos x l) l one = x.
  Proof.
    induction l as [|y l IH]; intros Il I; [contradiction|]. cbn [pos]. assert (Ix : In x G) by (now apply Il). destruct (eqb x y) eqn:Q.
    - apply eqb_eq in Q; [|exact Ix|apply Il; now left]. subst. cbn. split; [lia|reflexivity].
    - destruct I as [<-|I]; [rewrite (proj2 (eqb_eq y y Ix Ix) eq_refl) in Q; discriminate|]. destruct (IH (fun z J => Il z (or_intror J)) I) as [A B]. cbn. split; [lia|exact B].
  Qed.
  Lemma one_lt : (pos one G <? length G) = true.
  Proof. apply Nat.ltb_lt, pos_spec; [apply incl_refl|apply (gr_one _ _ _ _ GG)]. Qed.
  Definition mk (x : E) : T := match bool_dec (pos x G <? length G) true with Coq.Init.Specif.left h => exist _ (pos x G) h | Coq.Init.Specif.right _ => exist _ (pos one G) one_lt end.
  Lemma p_mk x : In x G -> p (mk x) = x.
  Proof.
    intros I. destruct (pos_spec x G (incl_refl _) I) as [A B]. unfold mk. destruct (bool_dec (pos x G <? length G) true) as [h|h]; [exact B|]. exfalso. apply h. now apply Nat.ltb_lt.
  Qed.
  Lemma mk_p t : mk (p t) = t. Proof. apply p_inj, p_mk, p_in. Qed.
  Definition tmul (a b : T) : T := mk (mul (p a) (p b)).
  Definition tone : T := mk one.
  Definition teq (a b : T) : bool := eqb (p a) (p b).
  Definition tinv (a : T) : T := match find (fun y => eqb (mul (p a) y) one) G with Some y => mk y | None => tone end.
  Lemma p_tmul a b : p (tmul a b) = mul (p a) (p b).
  Proof. apply p_mk, (gr_mul _ _ _ _ GG); apply p_in. Qed.
  Lemma p_tone : p tone = one. Proof. apply p_mk, (gr_one _ _ _ _ GG). Qed.
  Lemma teq_eq a b : teq a b = true <-> a = b.
  Proof. unfold teq. rewrite eqb_eq by apply p_in. split; [apply p_inj|now intros ->]. Qed.
  Lemma tinv_r a : tmul a (tinv a) = tone.
  Proof.
    apply p_inj. rewrite p_tmul, p_tone. unfold tinv. destruct (find (fun y => eqb (mul (p a) y) one) G) as [y|] eqn:F.
    - apply find_some in F. destruct F as [I F]. rewrite p_mk by exact I. apply eqb_eq; [apply (gr_mul _ _ _ _ GG); [apply p_in|exact I]|apply (gr_one _ _ _ _ GG)|exact F].
    - exfalso. destruct (gr_inv _ _ _ _ GG (p a) (p_in a)) as [y [I [Q _]]]. pose proof (find_none _ _ F y I) as N. cbn in N. rewrite Q in N. rewrite (proj2 (eqb_eq one one (gr_one _ _ _ _ GG) (gr_one _ _ _ _ GG)) eq_refl) in N. discriminate.
  Qed.
  Lemma tleft a : tmul tone a = a. Proof. apply p_inj. rewrite p_tmul, p_tone. apply (gr_left _ _ _ _ GG), p_in. Qed.
  Lemma tright a : tmul a tone = a. Proof. apply p_inj. rewrite p_tmul, p_tone. apply (gr_right _ _ _ _ GG), p_in. Qed.
  Lemma tassoc a b c : tmul a (tmul b c) = tmul (tmul a b) c.
  Proof. apply p_inj. rewrite !p_tmul. apply (gr_assoc _ _ _ _ GG); apply p_in. Qed.
  Lemma tinv_l a : tmul (tinv a) a = tone.
  Proof.
    pose proof (tinv_r (tinv a)) as H. assert (X : tinv (tinv a) = a); [|now rewrite X in H]. rewrite <- (tleft (tinv (tinv a))), <- (tinv_r a), <- tassoc, H. apply tright.
  Qed.
  Definition tall : list T := map mk G.
  Lemma tall_p : map p tall = G.
  Proof. unfold tall. rewrite map_map. rewrite <- (map_id G) at 2. apply map_ext_in. intros x I. now apply p_mk. Qed.
  Lemma tall_nodup : NoDup tall. Proof. apply (NoDup_map_inv p). now rewrite tall_p. Qed.
  Lemma tall_in t : In t tall. Proof. rewrite <- (mk_p t). apply in_map, p_in. Qed.
  Lemma p_power g n : In g G -> p (power tmul tone (mk g) n) = power mul one g n.
  Proof. intros I. induction n as [|n IH]; [apply p_tone|]. cbn. now rewrite p_tmul, IH, p_mk. Qed.
  Lemma p_gen gens x : incl gens G -> generated mul one gens x -> forall t, p t = x -> generated tmul tone (map mk gens) t.
  Proof.
    intros Ig H. induction H as [|x g H IH I]; intros t Ht; [replace t with tone by (apply p_inj; now rewrite p_tone); constructor|].
    assert (Ix : In x G). { clear IH Ht t. induction H as [|x g' H IH J]; [apply (gr_one _ _ _ _ GG)|]. apply (gr_mul _ _ _ _ GG); [exact IH|now apply Ig]. }
    replace t with (tmul (mk x) (mk g)); [|apply p_inj; rewrite p_tmul, !p_mk by (try exact Ix; now apply Ig); now symmetry]. constructor; [apply IH, p_mk, Ix|now apply in_map].
  Qed.
  Lemma map_pmk l : incl l G -> map p (map mk l) = l.
  Proof. intros I. rewrite map_map. rewrite <- (map_id l) at 2. apply map_ext_in. intros x J. apply p_mk. now apply I. Qed.
  Lemma f_generates max g rest : incl (g :: rest) G -> (forall x, In x G -> generated mul one (g :: rest) x) -> (exists k, 1 <= k <= S max /\ power mul one g k = one) ->
    exists els, Permutation els G /\ hd_error els = Some one /\ (forall fuel, length G <= fuel -> dimino mul eqb one one1 fuel max (g :: rest) = Ret (Some els)) /\
      (forall fuel, dimino mul eqb one one1 fuel max (g :: rest) = Ret (Some els) \/ dimino mul eqb one one1 fuel max (g :: rest) = NoFuel).
  Proof.
    intros Ig Gn [k [Hk Pk]]. assert (Hg : In g G) by (apply Ig; now left).
    destruct (dimino_total T tall tmul tone tone tinv teq tall_nodup tall_in tassoc tleft tright tinv_l tinv_r teq_eq max (mk g) (map mk rest)) as [els [[P Hh] [R1 R2]]].
    - intros t. apply (p_gen (g :: rest) (p t)); [exact Ig|apply Gn, p_in|reflexivity].
    - exists k. split; [exact Hk|]. apply p_inj. now rewrite p_power, p_tone.
    - assert (D := hom_dimino T E p tmul mul teq eqb tone tone one one1 p_tmul p_tone (fun _ _ => eq_refl)).
      exists (map p els). split; [rewrite <- tall_p; now apply Permutation_map|].
      split; [destruct els; [discriminate|]; injection Hh as ->; cbn; now rewrite p_tone|].
      assert (Em : g :: rest = map p (mk g :: map mk rest)) by (cbn; rewrite p_mk, map_pmk; [reflexivity|intros x J; apply Ig; now right|exact Hg]).
      rewrite Em. split.
      + intros fuel Hf. rewrite D, R1; [reflexivity|]. unfold tall. now rewrite map_length.
      + intros fuel. rewrite D. destruct (R2 fuel) as [R|R]; rewrite R; auto.
  Qed.
End Members.
Lemma f_none : forall (E : Type) (mul : E -> E -> E) (one : E) (eqb : E -> E -> bool) fuel max,
  exists els, dimino mul eqb one one fuel max [] = Ret (Some els) /\ NoDup els /\ forall x, In x els <-> generated mul one [] x.
Proof.
  intros E mul one eqb fuel max. exists [one]. split; [reflexivity|]. split; [constructor; [intros []|constructor]|]. intro x. split.
  - intros [<-|[]]. constructor.
  - intro G. induction G as [|y g G IH I]; [now left|contradiction].
Qed.
