(** The multi-partition iterator lists all compositions of a number. *)
From Coq Require Import List NArith Arith Bool Lia Sorted.
From Verif Require Import CoreModel CoreSpec AlgModel EnumModel EnumSpec EnumProofs.
Import ListNotations.
Local Arguments list_sum : simpl never.
Lemma lsum_cons x l : list_sum (x :: l) = x + list_sum l. Proof. reflexivity. Qed.
Lemma lsum_nil : list_sum [] = 0. Proof. reflexivity. Qed.
Lemma lsum_zeros n : list_sum (repeat 0 n) = 0.
Proof. induction n as [|n IH]; [reflexivity|]. cbn [repeat]. rewrite lsum_cons, IH. reflexivity. Qed.

(* ------------------------------------------------------------ enumeration in descending order *)
Fixpoint desc (x : nat) : list nat := match x with O => [] | S y => y :: desc y end.
Fixpoint comps (s k : nat) : list (list nat) :=
  match k with
  | O => match s with O => [[]] | _ => [] end
  | S k' => map (cons s) (comps 0 k') ++ flat_map (fun y => map (cons y) (comps (s - y) k')) (desc s)
  end.
Fixpoint cfrom (x : list nat) : list (list nat) :=
  match x with
  | [] => [[]]
  | a :: l => map (cons a) (cfrom l) ++ flat_map (fun y => map (cons y) (comps (a + list_sum l - y) (length l))) (desc a)
  end.
Fixpoint cnext (x : list nat) : option (list nat) :=
  match x with
  | [] => None
  | a :: l =>
      match cnext l with
      | Some l' => Some (a :: l')
      | None => match l, a with
                | [], _ => None
                | _, O => None
                | _ :: l', S b => Some (b :: S (list_sum l) :: repeat 0 (length l'))
                end
      end
  end.
Lemma cnext_keeps x : forall y, cnext x = Some y -> length y = length x /\ list_sum y = list_sum x.
Proof.
  induction x as [|a l IH]; cbn; [discriminate|]. destruct (cnext l) as [l'|].
  - intros y [= <-]. destruct (IH l' eq_refl) as [H1 H2]. cbn. rewrite !lsum_cons. lia.
  - destruct l as [|b l]; [discriminate|]. destruct a as [|a]; [discriminate|]. intros y [= <-]. cbn [length]. rewrite repeat_length.
    split; [reflexivity|]. rewrite !lsum_cons, lsum_zeros. lia.
Qed.
Lemma cfrom_zeros k : cfrom (repeat 0 k) = comps 0 k.
Proof. induction k as [|k IH]; [reflexivity|]. cbn. now rewrite IH. Qed.
Lemma cfrom_start s k : cfrom (s :: repeat 0 k) = comps s (S k).
Proof. cbn. rewrite cfrom_zeros, lsum_zeros, repeat_length, Nat.add_0_r. reflexivity. Qed.
Lemma flat_map_ext_in {A B} (f g : A -> list B) l : (forall x, In x l -> f x = g x) -> flat_map f l = flat_map g l.
Proof. induction l as [|x l IH]; intro H; [reflexivity|]. cbn. rewrite (H x) by now left. rewrite IH; [reflexivity|]. intros; apply H; now right. Qed.
Lemma in_desc a y : In y (desc a) <-> y < a.
Proof. induction a as [|a IH]; cbn; [lia|]. rewrite IH. lia. Qed.
Lemma cfrom_next x : cfrom x = x :: match cnext x with None => [] | Some y => cfrom y end.
Proof.
  induction x as [|a l IH]; [reflexivity|]. cbn [cfrom cnext]. rewrite IH. cbn [map app]. f_equal.
  destruct (cnext l) as [l'|] eqn:E.
  - destruct (cnext_keeps l l' E) as [H1 H2]. cbn [cfrom]. rewrite H1, H2. reflexivity.
  - cbn [map app]. destruct l as [|b l].
    + cbn [length]. rewrite lsum_nil. assert (G : forall y, In y (desc a) -> map (cons y) (comps (a + 0 - y) 0) = []).
      { intros y Hy. apply in_desc in Hy. cbn. destruct (a + 0 - y) eqn:Q; [lia|reflexivity]. }
      rewrite (flat_map_ext_in _ (fun _ => [])) by exact G. induction (desc a) as [|y d IHd]; [reflexivity|]. cbn. apply IHd. intros; apply G. now right.
    + destruct a as [|a]; [reflexivity|]. cbn [desc flat_map length]. rewrite (cfrom_start (S (list_sum (b :: l))) (length l) : cfrom (_ :: _) = _) || idtac.
      change (cfrom (a :: S (list_sum (b :: l)) :: repeat 0 (length l))) with
        (map (cons a) (cfrom (S (list_sum (b :: l)) :: repeat 0 (length l))) ++
         flat_map (fun y => map (cons y) (comps (a + list_sum (S (list_sum (b :: l)) :: repeat 0 (length l)) - y) (length (S (list_sum (b :: l)) :: repeat 0 (length l))))) (desc a)).
      rewrite cfrom_start. cbn [length]. rewrite repeat_length. f_equal.
      * f_equal. f_equal. lia.
      * apply flat_map_ext_in. intros y Hy. rewrite (lsum_cons (S _)), lsum_zeros. do 2 f_equal. lia.
Qed.
Lemma comps_spec : forall k s, lists_in_order (fun u v => lex_lt v u) (composition s k) (comps s k).
Proof.
  induction k as [|k IH]; intro s.
  - cbn. destruct s as [|s].
    + split; [repeat constructor|]. intro x. cbn. split; [intros [<-|[]]; split; reflexivity|]. intros [H _]. left. symmetry. now apply length_zero_iff_nil.
    + split; [constructor|]. intro x. split; [intros []|]. intros [H1 H2]. apply length_zero_iff_nil in H1. subst. discriminate.
  - cbn [comps].
    assert (G : forall a, a <= s -> StronglySorted (fun u v => lex_lt v u) (flat_map (fun y => map (cons y) (comps (s - y) k)) (desc a)) /\
      (forall x, In x (flat_map (fun y => map (cons y) (comps (s - y) k)) (desc a)) <-> exists y z, x = y :: z /\ y < a /\ composition (s - y) k z)).
    { induction a as [|a IHa]; intro Ha.
      - split; [constructor|]. intro x. split; [intros []|]. intros (y & z & _ & H & _). lia.
      - destruct (IHa ltac:(lia)) as [S1 M1]. cbn [desc flat_map]. destruct (IH (s - a)) as [S2 M2]. split.
        + clear IH IHa M2. revert S2. generalize (comps (s - a) k) as l. intros l S2.
          induction S2 as [|u l Hl IH Hf]; [exact S1|]. cbn. constructor; [exact IH|]. apply Forall_app. split.
          * rewrite Forall_map. eapply Forall_impl; [|exact Hf]. intros v Hv. now apply lex_tail.
          * apply Forall_forall. intros v Hv. apply M1 in Hv as (y & z & -> & L & _). now apply lex_head.
        + intro x. rewrite in_app_iff, M1, in_map_iff. split.
          * intros [(z & <- & Hz)|(y & z & -> & L & Hz)]; [exists a, z|exists y, z]; (split; [reflexivity|split; [lia|]]); [now apply M2|exact Hz].
          * intros (y & z & -> & L & Hz). destruct (Nat.eq_dec y a) as [->|D]; [left; exists z; split; [reflexivity|now apply M2]|].
            right. exists y, z. split; [reflexivity|]. split; [lia|exact Hz]. }
    destruct (G s ltac:(lia)) as [S1 M1]. destruct (IH 0) as [S2 M2]. split.
    + clear IH G M2. revert S2. generalize (comps 0 k) as l. intros l S2.
      induction S2 as [|u l Hl IH Hf]; [exact S1|]. cbn. constructor; [exact IH|]. apply Forall_app. split.
      * rewrite Forall_map. eapply Forall_impl; [|exact Hf]. intros v Hv. now apply lex_tail.
      * apply Forall_forall. intros v Hv. apply M1 in Hv as (y & z & -> & L & _). now apply lex_head.
    + intro x. rewrite in_app_iff, M1, in_map_iff. unfold composition in *. split.
      * intros [(z & <- & Hz)|(y & z & -> & L & Hz1 & Hz2)].
        -- apply M2 in Hz as [Z1 Z2]. cbn [length]. rewrite lsum_cons. lia.
        -- cbn [length]. rewrite lsum_cons. lia.
      * destruct x as [|y z]; [intros [H _]; discriminate|]. cbn [length]. rewrite lsum_cons. intros [H1 H2].
        destruct (Nat.eq_dec y s) as [->|D]; [left; exists z; split; [reflexivity|apply M2; lia]|].
        right. exists y, z. split; [reflexivity|]. lia.
Qed.

(* ------------------------------------------------------------ arrays *)
Lemma set_nth_app a x b v : set_nth (length a) v (a ++ x :: b) = a ++ v :: b.
Proof. induction a as [|y a IH]; cbn; [reflexivity|]. now rewrite IH. Qed.
Lemma set_nth_app1 a x y b v : set_nth (S (length a)) v (a ++ x :: y :: b) = a ++ x :: v :: b.
Proof.
  replace (a ++ x :: y :: b) with ((a ++ [x]) ++ y :: b) by now rewrite <- app_assoc.
  replace (S (length a)) with (length (a ++ [x])) by (rewrite app_length; cbn; lia). rewrite set_nth_app. now rewrite <- app_assoc.
Qed.
Lemma nth_app_mid a (x : nat) b : nth (length a) (a ++ x :: b) 0 = x.
Proof. rewrite app_nth2 by lia. now rewrite Nat.sub_diag. Qed.
Lemma nth_app_mid1 a (x y : nat) b : nth (S (length a)) (a ++ x :: y :: b) 0 = y.
Proof. rewrite app_nth2 by lia. replace (S (length a) - length a) with 1 by lia. reflexivity. Qed.
Lemma nth_at n a (x : nat) b : length a = n -> nth n (a ++ x :: b) 0 = x.
Proof. intros <-. apply nth_app_mid. Qed.
Lemma set_at n a x b v : length a = n -> set_nth n v (a ++ x :: b) = a ++ v :: b.
Proof. intros <-. apply set_nth_app. Qed.
Lemma fill_from_app b v : forall a, fill_from (length a) (length b) v (a ++ b) = a ++ repeat v (length b).
Proof.
  induction b as [|x b IH]; intro a; [reflexivity|]. cbn [length fill_from repeat]. rewrite set_nth_app.
  replace (a ++ v :: b) with ((a ++ [v]) ++ b) by now rewrite <- app_assoc.
  replace (S (length a)) with (length (a ++ [v])) by (rewrite app_length; cbn; lia). rewrite IH. now rewrite <- app_assoc.
Qed.
Lemma last_nonzero_None i l : last_nonzero i l = None -> forall j, j <= i -> nth j l 0 = 0.
Proof.
  induction i as [|i IH]; cbn [last_nonzero].
  - destruct (Nat.eqb_spec (nth 0 l 0) 0); [|discriminate]. intros _ j Hj. now replace j with 0 by lia.
  - destruct (Nat.eqb_spec (nth (S i) l 0) 0); [|discriminate]. intros H j Hj. destruct (Nat.eq_dec j (S i)) as [->|D]; [assumption|]. apply IH; [exact H|lia].
Qed.
Lemma last_nonzero_Some i l d : last_nonzero i l = Some d -> d <= i /\ nth d l 0 <> 0 /\ forall j, d < j <= i -> nth j l 0 = 0.
Proof.
  induction i as [|i IH]; cbn [last_nonzero].
  - destruct (Nat.eqb_spec (nth 0 l 0) 0); [discriminate|]. intros [= <-]. repeat split; auto. intros; lia.
  - destruct (Nat.eqb_spec (nth (S i) l 0) 0) as [Z|Z].
    + intro H. destruct (IH H) as (A & B & C). split; [lia|]. split; [exact B|]. intros j Hj. destruct (Nat.eq_dec j (S i)) as [->|D]; [exact Z|]. apply C. lia.
    + intros [= <-]. split; [lia|]. split; [exact Z|]. intros; lia.
Qed.
Lemma all_zero_repeat l : (forall j, j < length l -> nth j l 0 = 0) -> l = repeat 0 (length l).
Proof.
  induction l as [|x l IH]; intro H; [reflexivity|]. cbn. f_equal; [apply (H 0); cbn; lia|]. apply IH. intros j Hj. apply (H (S j)). cbn. lia.
Qed.
Lemma split_at l d : d < length l -> l = firstn d l ++ nth d l 0 :: skipn (S d) l.
Proof.
  revert l. induction d as [|d IH]; intros [|x l] H; cbn in *; try lia; [reflexivity|]. f_equal. apply IH. lia.
Qed.
Lemma nth_skipn_ n (l : list nat) j : nth j (skipn n l) 0 = nth (n + j) l 0.
Proof. revert l. induction n as [|n IH]; intros l; [reflexivity|]. destruct l as [|x l]; cbn; [now destruct j|]. apply IH. Qed.

(* ------------------------------------------------------------ inc_reverse *)
Fixpoint psums (acc : nat) (l : list nat) : list nat := match l with [] => [] | x :: l' => (acc + x) :: psums (acc + x) l' end.
Lemma psums_app l : forall acc m, psums acc (l ++ m) = psums acc l ++ psums (acc + list_sum l) m.
Proof.
  induction l as [|x l IH]; intros acc m; cbn; [now rewrite lsum_nil, Nat.add_0_r|]. now rewrite IH, lsum_cons, Nat.add_assoc.
Qed.
Lemma psums_length l : forall acc, length (psums acc l) = length l.
Proof. induction l as [|x l IH]; intro acc; cbn; [reflexivity|]. now rewrite IH. Qed.
Lemma psums_zeros n : forall acc, psums acc (repeat 0 n) = repeat acc n.
Proof. induction n as [|n IH]; intro acc; cbn; [reflexivity|]. now rewrite Nat.add_0_r, IH. Qed.
Lemma cnext_app a l l' : cnext l = Some l' -> cnext (a ++ l) = Some (a ++ l').
Proof. intro H. induction a as [|x a IH]; cbn; [exact H|]. now rewrite IH. Qed.
Lemma cnext_zeros n : cnext (repeat 0 n) = None.
Proof. induction n as [|n IH]; cbn; [reflexivity|]. rewrite IH. now destruct (repeat 0 n). Qed.
Lemma cnext_zeros_last n y : cnext (repeat 0 n ++ [y]) = None.
Proof. induction n as [|n IH]; cbn; [reflexivity|]. rewrite IH. destruct (repeat 0 n ++ [y]) eqn:E; [|reflexivity]. destruct n; discriminate. Qed.
Lemma repeat_snoc {A} (x : A) n : repeat x (S n) = repeat x n ++ [x].
Proof. induction n as [|n IH]; [reflexivity|]. cbn [repeat] in *. cbn. now rewrite <- IH. Qed.

Definition mp_inv (it : mpi) : Prop :=
  length (mp_cursor it) = mp_parties it /\ list_sum (mp_cursor it) = mp_sum it /\ mp_cum it = psums 0 (mp_cursor it) /\ 0 < mp_parties it.
Lemma lsum_app a b : list_sum (a ++ b) = list_sum a + list_sum b.
Proof. apply list_sum_app. Qed.
Lemma inc_reverse_spec it : mp_inv it -> mp_end it = false ->
  match cnext (mp_cursor it) with
  | None => mpi_inc_reverse it = Ret (mk_mpi (mp_sum it) (mp_parties it) (mp_cursor it) (mp_cum it) true)
  | Some c => mpi_inc_reverse it = Ret (mk_mpi (mp_sum it) (mp_parties it) c (psums 0 c) false)
  end.
Proof.
  destruct it as [s k c cum e]. intros (Hk & Hs & Hc & Hp) He. cbn [mp_sum mp_parties mp_cursor mp_cum mp_end] in *. subst cum e.
  unfold mpi_inc_reverse. cbn [mp_sum mp_parties mp_cursor mp_cum].
  destruct (Nat.eqb_spec s 0) as [Z|Z].
  { assert (c = repeat 0 (length c)) as ->.
    { apply all_zero_repeat. clear - Hs Z. rewrite Z in Hs. clear Z. revert Hs. induction c as [|x c IH]; intros H j Hj; cbn in *; [lia|].
      rewrite lsum_cons in H. destruct j; [lia|]. apply IH; lia. }
    rewrite cnext_zeros. reflexivity. }
  cbn [orb]. destruct (Nat.leb_spec k 1) as [L|L].
  { destruct c as [|x [|y c]]; cbn in Hk; try lia. reflexivity. }
  destruct (last_nonzero (k - 1) c) as [d|] eqn:D.
  2:{ exfalso. pose proof (last_nonzero_None _ _ D) as A. assert (c = repeat 0 (length c)) as Q by (apply all_zero_repeat; intros; apply A; lia).
      rewrite Q, lsum_zeros in Hs. lia. }
  apply last_nonzero_Some in D as (D1 & D2 & D3). pose proof (split_at c d ltac:(lia)) as Sp.
  destruct (Nat.eqb_spec d (k - 1)) as [E|E].
  - (* last entry non-zero *)
    assert (Last : skipn (S d) c = []). { apply length_zero_iff_nil. rewrite skipn_length. lia. }
    rewrite Last in Sp. set (a0 := firstn d c) in *. set (y := nth d c 0) in *.
    assert (La : length a0 = d) by (unfold a0; rewrite firstn_length; lia).
    destruct (last_nonzero (d - 1) c) as [n|] eqn:N.
    + apply last_nonzero_Some in N as (N1 & N2 & N3). pose proof (split_at a0 n ltac:(lia)) as Sa.
      set (a := firstn n a0) in *. assert (Ln : length a = n) by (unfold a; rewrite firstn_length; lia).
      assert (Nz : nth n a0 0 = nth n c 0). { rewrite Sp. rewrite app_nth1 by lia. reflexivity. }
      set (x := nth n a0 0) in *.
      assert (Zs : skipn (S n) a0 = repeat 0 (length (skipn (S n) a0))).
      { apply all_zero_repeat. intros j Hj. rewrite skipn_length in Hj. rewrite nth_skipn_.
        replace (nth (S n + j) a0 0) with (nth (S n + j) c 0) by (rewrite Sp, app_nth1 by lia; reflexivity). apply N3. lia. }
      set (m := length (skipn (S n) a0)) in *. assert (Lm : S n + m = d) by (unfold m; rewrite skipn_length; lia).
      rewrite Zs in Sa. destruct x as [|x]; [lia|].
      assert (C : c = a ++ S x :: repeat 0 m ++ [y]). { rewrite Sp, Sa, <- app_assoc. reflexivity. }
      clearbody m y. clear Sp Zs Last Nz N2 N3 D2 D3. clear Sa. clearbody a. subst c.
      assert (CN : cnext (a ++ S x :: repeat 0 m ++ [y]) = Some (a ++ x :: S y :: repeat 0 m)).
      { apply cnext_app. cbn [cnext]. rewrite cnext_zeros_last. destruct (repeat 0 m ++ [y]) as [|b l] eqn:Q; [destruct m; discriminate|].
        do 3 f_equal; [|f_equal].
        - rewrite <- Q, lsum_app, lsum_zeros, lsum_cons, lsum_nil. lia.
        - apply (f_equal (@length nat)) in Q. rewrite app_length, repeat_length in Q. cbn in Q. lia. }
      rewrite CN. f_equal. rewrite <- Ln. rewrite nth_app_mid. replace (S x - 1) with x by lia. rewrite set_nth_app.
      rewrite psums_app. cbn [Nat.add psums]. rewrite !(nth_at (length a) (psums 0 a)), !(set_at (length a) (psums 0 a)) by apply psums_length.
      replace (list_sum a + S x - 1) with (list_sum a + x) by lia.
      rewrite !(nth_at (length a) (psums 0 a)) by apply psums_length.
      rewrite lsum_app, lsum_cons, lsum_app, lsum_zeros, lsum_cons, lsum_nil in Hs. rewrite app_length in Hk. cbn [length] in Hk. rewrite app_length, repeat_length in Hk. cbn [length] in Hk.
      replace (s - (list_sum a + x)) with (S y) by lia.
      (* shape after the changed entries *)
      assert (Sh : forall v, exists w b, repeat 0 m ++ [v] = w :: b /\ length b = m).
      { intro v. destruct m as [|m]; [exists v, []; split; reflexivity|]. exists 0, (repeat 0 m ++ [v]). split; [reflexivity|]. rewrite app_length, repeat_length. cbn. lia. }
      rewrite (psums_app (repeat 0 m) (list_sum a + S x) [y]), psums_zeros.
      change (psums (list_sum a + S x + list_sum (repeat 0 m)) [y]) with [list_sum a + S x + list_sum (repeat 0 m) + y].
      destruct (Sh y) as (w & b & Q & Lb). rewrite Q. rewrite set_nth_app1.
      assert (Q2 : exists b2, repeat (list_sum a + S x) m ++ [list_sum a + S x + list_sum (repeat 0 m) + y] = s :: b2 \/ (exists w2, repeat (list_sum a + S x) m ++ [list_sum a + S x + list_sum (repeat 0 m) + y] = w2 :: b2) ).
      { destruct m as [|m]; eexists; right; eexists; reflexivity. }
      set (tail := repeat (list_sum a + S x) m ++ [list_sum a + S x + list_sum (repeat 0 m) + y]) in *.
      assert (Lt : length tail = S m). { unfold tail. rewrite app_length, repeat_length. cbn. lia. }
      destruct tail as [|w2 b2] eqn:Tl; [discriminate|]. cbn in Lt.
      f_equal.
      * replace (S (S (length a))) with (length (a ++ [x; S y])) by (rewrite app_length; cbn; lia).
        replace (k - length (a ++ [x; S y])) with (length b) by (rewrite app_length; cbn; lia).
        replace (a ++ x :: S y :: b) with ((a ++ [x; S y]) ++ b) by (rewrite <- app_assoc; reflexivity).
        rewrite fill_from_app, Lb. rewrite <- app_assoc. reflexivity.
      * replace (S (length a)) with (S (length (psums 0 a))) by (now rewrite psums_length). rewrite set_nth_app1.
        rewrite psums_app. cbn [psums]. rewrite psums_zeros.
        replace (S (S (length (psums 0 a)))) with (length (psums 0 a ++ [list_sum a + x; s])) by (rewrite app_length; cbn; lia).
        replace (k - length (psums 0 a ++ [list_sum a + x; s])) with (length b2) by (rewrite app_length, psums_length; cbn; lia).
        replace (psums 0 a ++ list_sum a + x :: s :: b2) with ((psums 0 a ++ [list_sum a + x; s]) ++ b2) by (rewrite <- app_assoc; reflexivity).
        rewrite fill_from_app. rewrite <- app_assoc. cbn [app]. cbn [Nat.add]. replace (list_sum a + x + S y) with s by lia.
        do 3 f_equal. f_equal. lia.
    + pose proof (last_nonzero_None _ _ N) as A.
      assert (a0 = repeat 0 (length a0)) as Q.
      { apply all_zero_repeat. intros j Hj. replace (nth j a0 0) with (nth j c 0) by (rewrite Sp, app_nth1 by lia; reflexivity). apply A. lia. }
      assert (CN : cnext c = None). { clearbody y a0. rewrite Q in Sp. rewrite Sp. apply cnext_zeros_last. }
      rewrite CN. reflexivity.
  - (* last entry zero *)
    set (a := firstn d c) in *. assert (La : length a = d) by (unfold a; rewrite firstn_length; lia).
    destruct (nth d c 0) as [|x] eqn:X; [lia|].
    assert (Zs : skipn (S d) c = repeat 0 (length (skipn (S d) c))).
    { apply all_zero_repeat. intros j Hj. rewrite skipn_length in Hj. rewrite nth_skipn_. apply D3. lia. }
    rewrite skipn_length in Zs. replace (length c - S d) with (S (k - 2 - d)) in Zs by lia. set (m := k - 2 - d) in *. rewrite Zs in Sp.
    clearbody a m. clear Zs D3 X. subst c. rewrite <- La.
    rewrite (cnext_app a (S x :: repeat 0 (S m)) (x :: 1 :: repeat 0 m)).
    2:{ cbn [cnext]. rewrite cnext_zeros. cbn [repeat]. rewrite lsum_cons, lsum_zeros, repeat_length. reflexivity. }
    cbn [repeat]. f_equal. f_equal.
    + rewrite nth_app_mid1. replace (S x - 1) with x by lia. rewrite set_nth_app, set_nth_app1. reflexivity.
    + rewrite psums_app. cbn [psums]. rewrite !(nth_at (length a) (psums 0 a)), !(set_at (length a) (psums 0 a)) by apply psums_length.
      rewrite psums_app. cbn [psums Nat.add]. do 2 f_equal; [lia|]. rewrite !psums_zeros. f_equal; [lia|]. f_equal. lia.
Qed.
Lemma mpi_rev_remains s k : forall c, length c = k -> list_sum c = s -> 0 < k ->
  remains mp_end mp_cursor mpi_inc_reverse (mk_mpi s k c (psums 0 c) false) (cfrom c).
Proof.
  intro c. remember (length (cfrom c)) as n eqn:E. revert c E. induction n as [n IH] using lt_wf_ind. intros c E Hk Hs Hp.
  assert (I : mp_inv (mk_mpi s k c (psums 0 c) false)) by (repeat split; assumption).
  pose proof (inc_reverse_spec _ I eq_refl) as Q. cbn [mp_cursor mp_sum mp_parties mp_cum] in Q. rewrite cfrom_next in E |- *.
  destruct (cnext c) as [c'|] eqn:C.
  - destruct (cnext_keeps c c' C) as [K1 K2]. cbn in E.
    eapply (rem_step mp_end mp_cursor mpi_inc_reverse (mk_mpi s k c (psums 0 c) false)); [reflexivity|exact Q|].
    apply (IH (length (cfrom c'))); [lia|reflexivity|lia|lia|exact Hp].
  - eapply (rem_step mp_end mp_cursor mpi_inc_reverse (mk_mpi s k c (psums 0 c) false)); [reflexivity|exact Q|]. now apply rem_done.
Qed.
Lemma psums_start s n : psums 0 (s :: repeat 0 n) = repeat s (S n).
Proof. cbn. now rewrite psums_zeros. Qed.
Lemma mpi_run_rev_spec fuel s k : 0 < k -> length (comps s k) <= fuel -> mpi_run_rev fuel s k = Ret (comps s k).
Proof.
  intros Hk Hf. unfold mpi_run_rev, mpi_start_rev. destruct k as [|k]; [lia|]. cbn [Nat.eqb bind repeat set_nth].
  change (s :: repeat s k) with (repeat s (S k)). rewrite <- psums_start, <- cfrom_start. apply run_remains.
  - apply mpi_rev_remains; [cbn; now rewrite repeat_length|rewrite lsum_cons, lsum_zeros; lia|lia].
  - now rewrite cfrom_start.
Qed.

(* ------------------------------------------------------------ enumeration in ascending order *)
Fixpoint acomps (s k : nat) : list (list nat) :=
  match k with
  | O => match s with O => [[]] | _ => [] end
  | S k' => flat_map (fun y => map (cons y) (acomps (s - y) k')) (seq 0 (S s))
  end.
Fixpoint afrom (x : list nat) : list (list nat) :=
  match x with
  | [] => [[]]
  | a :: l => map (cons a) (afrom l) ++ flat_map (fun y => map (cons y) (acomps (a + list_sum l - y) (length l))) (seq (S a) (list_sum l))
  end.
Fixpoint anext (x : list nat) : option (list nat) :=
  match x with
  | [] => None
  | a :: l =>
      match anext l with
      | Some l' => Some (a :: l')
      | None => match list_sum l with
                | O => None
                | S t => Some (S a :: repeat 0 (length l - 1) ++ [t])
                end
      end
  end.
Lemma anext_keeps x : forall y, anext x = Some y -> length y = length x /\ list_sum y = list_sum x.
Proof.
  induction x as [|a l IH]; cbn; [discriminate|]. destruct (anext l) as [l'|].
  - intros y [= <-]. destruct (IH l' eq_refl) as [H1 H2]. cbn. rewrite !lsum_cons. lia.
  - destruct (list_sum l) as [|t] eqn:E; [discriminate|]. intros y [= <-]. destruct l as [|b l]; [discriminate|]. cbn [length].
    rewrite app_length, repeat_length. cbn [length]. split; [lia|]. rewrite lsum_cons, lsum_app, lsum_zeros, lsum_cons, lsum_nil. rewrite lsum_cons, E. lia.
Qed.
Lemma afrom_start s k : afrom (repeat 0 k ++ [s]) = acomps s (S k).
Proof.
  revert s. induction k as [|k IH]; intro s.
  - change (repeat 0 0 ++ [s]) with [s]. change (afrom [s]) with (map (cons s) [[]] ++ flat_map (fun y => map (cons y) (acomps (s + 0 - y) 0)) []).
    cbn [map flat_map app]. symmetry. cbn [acomps]. rewrite seq_S, flat_map_app. cbn [flat_map plus].
    rewrite Nat.sub_diag. cbn. rewrite (flat_map_ext_in _ (fun _ => [])).
    + induction (seq 0 s) as [|y d IHd]; [reflexivity|exact IHd].
    + intros y Hy. apply in_seq in Hy. destruct (s - y) eqn:Q; [lia|reflexivity].
  - cbn [repeat app afrom]. rewrite IH. rewrite lsum_app, lsum_zeros, lsum_cons, lsum_nil, app_length, repeat_length. cbn [length].
    change (acomps s (S (S k))) with (flat_map (fun y => map (cons y) (acomps (s - y) (S k))) (seq 0 (S s))).
    cbn [seq flat_map]. rewrite Nat.sub_0_r. f_equal. replace (0 + (s + 0)) with s by lia. apply flat_map_ext_in. intros y _.
    do 2 f_equal; lia.
Qed.
Lemma afrom_next x : afrom x = x :: match anext x with None => [] | Some y => afrom y end.
Proof.
  induction x as [|a l IH]; [reflexivity|]. cbn [afrom anext]. rewrite IH. cbn [map app]. f_equal.
  destruct (anext l) as [l'|] eqn:E.
  - destruct (anext_keeps l l' E) as [H1 H2]. cbn [afrom]. rewrite H1, H2. reflexivity.
  - cbn [map app]. destruct (list_sum l) as [|t] eqn:Sl; [reflexivity|]. destruct l as [|b l]; [discriminate|]. cbn [seq flat_map].
    cbn [afrom length]. replace (S (length l) - 1) with (length l) by lia.
    rewrite afrom_start. rewrite lsum_app, lsum_zeros, lsum_cons, lsum_nil, app_length, repeat_length. cbn [length]. f_equal.
    + do 2 f_equal; lia.
    + replace (0 + (t + 0)) with t by lia. apply flat_map_ext_in. intros y _. do 2 f_equal; lia.
Qed.
Lemma acomps_spec : forall k s, lists_in_order lex_lt (composition s k) (acomps s k).
Proof.
  induction k as [|k IH]; intro s.
  - cbn. destruct s as [|s].
    + split; [repeat constructor|]. intro x. cbn. split; [intros [<-|[]]; split; reflexivity|]. intros [H _]. left. symmetry. now apply length_zero_iff_nil.
    + split; [constructor|]. intro x. split; [intros []|]. intros [H1 H2]. apply length_zero_iff_nil in H1. subst. discriminate.
  - cbn [acomps].
    assert (G : forall n a, StronglySorted lex_lt (flat_map (fun y => map (cons y) (acomps (s - y) k)) (seq a n)) /\
      (forall x, In x (flat_map (fun y => map (cons y) (acomps (s - y) k)) (seq a n)) <-> exists y z, x = y :: z /\ a <= y < a + n /\ composition (s - y) k z)).
    { induction n as [|n IHn]; intro a.
      - split; [constructor|]. intro x. split; [intros []|]. intros (y & z & _ & H & _). lia.
      - destruct (IHn (S a)) as [S1 M1]. cbn [seq flat_map]. destruct (IH (s - a)) as [S2 M2]. split.
        + clear IH IHn M2. revert S2. generalize (acomps (s - a) k) as l. intros l S2.
          induction S2 as [|u l Hl IH Hf]; [exact S1|]. cbn. constructor; [exact IH|]. apply Forall_app. split.
          * rewrite Forall_map. eapply Forall_impl; [|exact Hf]. intros v Hv. now apply lex_tail.
          * apply Forall_forall. intros v Hv. apply M1 in Hv as (y & z & -> & L & _). apply lex_head. lia.
        + intro x. rewrite in_app_iff, M1, in_map_iff. split.
          * intros [(z & <- & Hz)|(y & z & -> & L & Hz)]; [exists a, z|exists y, z]; (split; [reflexivity|split; [lia|]]); [now apply M2|exact Hz].
          * intros (y & z & -> & L & Hz). destruct (Nat.eq_dec y a) as [->|D]; [left; exists z; split; [reflexivity|now apply M2]|].
            right. exists y, z. split; [reflexivity|]. split; [lia|exact Hz]. }
    destruct (G (S s) 0) as [S1 M1]. split; [exact S1|]. intro x. etransitivity; [apply M1|]. unfold composition. split.
    + intros (y & z & -> & L & Z1 & Z2). cbn [length]. rewrite lsum_cons. lia.
    + destruct x as [|y z]; [intros [H _]; discriminate|]. cbn [length]. rewrite lsum_cons. intros [H1 H2]. exists y, z. split; [reflexivity|]. lia.
Qed.

(* ------------------------------------------------------------ inc_forward *)
Lemma anext_app a l l' : anext l = Some l' -> anext (a ++ l) = Some (a ++ l').
Proof. intro H. induction a as [|x a IH]; cbn; [exact H|]. now rewrite IH. Qed.
Lemma anext_zeros n y : anext (y :: repeat 0 n) = None.
Proof. revert y. induction n as [|n IH]; intro y; [reflexivity|]. cbn [repeat]. cbn [anext]. cbn [anext] in IH. rewrite IH. cbn [repeat]. rewrite lsum_cons, lsum_zeros. reflexivity. Qed.
Lemma fwd_carry_some sum n : forall p x q z cp cx cz, length q = n -> length cp = length p -> cx < sum ->
  fwd_carry sum (length p + n) (p ++ x :: q ++ z) (cp ++ cx :: repeat sum n ++ cz) =
  Some (length p, p ++ S x :: repeat 0 n ++ z, cp ++ S cx :: repeat (S sum) n ++ cz).
Proof.
  induction n as [|n IH]; intros p x q z cp cx cz Hq Hcp Hx.
  - apply length_zero_iff_nil in Hq. subst q. rewrite Nat.add_0_r. cbn [app repeat].
    destruct p as [|p0 p'] eqn:Ep; [|rewrite <- Ep in *].
    + destruct cp; [|discriminate]. cbn [length fwd_carry nth app set_nth]. destruct (Nat.ltb_spec sum (S cx)); [lia|reflexivity].
    + replace (length p) with (S (length p')) at 1 by (subst p; reflexivity). cbn [fwd_carry].
      replace (S (length p')) with (length p) by (subst p; reflexivity).
      rewrite !(nth_at (length p) p), !(set_at (length p) p) by reflexivity. rewrite !(nth_at (length p) cp), !(set_at (length p) cp) by assumption.
      rewrite (nth_at (length p) cp) by assumption. destruct (Nat.ltb_spec sum (S cx)); [lia|reflexivity].
  - destruct (exists_last (l := q)) as (q' & v & ->); [intros ->; discriminate|]. rewrite app_length in Hq. cbn in Hq.
    replace (length p + S n) with (S (length p + n)) by lia. cbn [fwd_carry].
    replace (p ++ x :: (q' ++ [v]) ++ z) with ((p ++ x :: q') ++ v :: z) by (rewrite <- !app_assoc; reflexivity).
    replace (cp ++ cx :: repeat sum (S n) ++ cz) with ((cp ++ cx :: repeat sum n) ++ sum :: cz) by (rewrite repeat_snoc, <- !app_assoc; reflexivity).
    assert (L1 : length (p ++ x :: q') = S (length p + n)) by (rewrite app_length; cbn; lia).
    assert (L2 : length (cp ++ cx :: repeat sum n) = S (length p + n)) by (rewrite app_length; cbn; rewrite repeat_length; lia).
    rewrite !(nth_at _ _ _ _ L1), !(nth_at _ _ _ _ L2), !(set_at _ _ _ _ _ L1), !(set_at _ _ _ _ _ L2), !(nth_at _ _ _ _ L2).
    destruct (Nat.ltb_spec sum (S sum)); [|lia].
    replace ((p ++ x :: q') ++ 0 :: z) with (p ++ x :: q' ++ 0 :: z) by (rewrite <- !app_assoc; reflexivity).
    replace ((cp ++ cx :: repeat sum n) ++ S sum :: cz) with (cp ++ cx :: repeat sum n ++ S sum :: cz) by (rewrite <- !app_assoc; reflexivity).
    rewrite IH by (assumption || lia). rewrite !repeat_snoc, <- !app_assoc. reflexivity.
Qed.
Lemma fwd_carry_none sum n : forall q z cz, length q = S n -> fwd_carry sum n (q ++ z) (repeat sum (S n) ++ cz) = None.
Proof.
  induction n as [|n IH]; intros q z cz Hq.
  - cbn. rewrite Nat.leb_refl. reflexivity.
  - destruct (exists_last (l := q)) as (q' & v & ->); [intros ->; discriminate|]. rewrite app_length in Hq. cbn [length] in Hq.
    cbn [fwd_carry]. rewrite repeat_snoc, <- !app_assoc. cbn [app].
    assert (L1 : length q' = S n) by lia. assert (L2 : length (repeat sum (S n)) = S n) by apply repeat_length.
    rewrite !(nth_at _ _ _ _ L1), !(nth_at _ _ _ _ L2), !(set_at _ _ _ _ _ L1), !(set_at _ _ _ _ _ L2), !(nth_at _ _ _ _ L2).
    destruct (Nat.ltb_spec sum (S sum)); [|lia]. apply IH. exact L1.
Qed.
Lemma psums_last p : p <> [] -> nth (length p - 1) (psums 0 p) 0 = list_sum p.
Proof.
  intro H. destruct (exists_last H) as (q & v & ->). rewrite app_length, psums_app. cbn [length psums Nat.add].
  rewrite (nth_at _ (psums 0 q)) by (rewrite psums_length; lia). rewrite lsum_app, lsum_cons, lsum_nil. lia.
Qed.
Lemma fwd_cum_spec : forall q p z cq cz, length cq = length q -> fwd_cum (length p) (length q) (p ++ q ++ z) (psums 0 p ++ cq ++ cz) = psums 0 (p ++ q) ++ cz.
Proof.
  induction q as [|v q IH]; intros p z cq cz H.
  - destruct cq; [|discriminate]. cbn. now rewrite app_nil_r.
  - destruct cq as [|c cq]; [discriminate|]. cbn [length fwd_cum app].
    rewrite (nth_at (length p) p) by reflexivity. rewrite (set_at (length p) (psums 0 p)) by apply psums_length.
    assert (B : (if 0 <? length p then nth (length p - 1) (psums 0 p ++ c :: cq ++ cz) 0 else 0) = list_sum p).
    { destruct (Nat.ltb_spec 0 (length p)) as [L|L].
      - rewrite app_nth1 by (rewrite psums_length; lia). apply psums_last. intros ->. cbn in L. lia.
      - destruct p; [reflexivity|cbn in L; lia]. }
    rewrite B. specialize (IH (p ++ [v]) z cq cz ltac:(cbn in H; lia)). rewrite psums_app in IH. cbn [psums Nat.add] in IH.
    rewrite <- !app_assoc in IH. cbn [app] in IH. rewrite app_length in IH. cbn [length] in IH.
    replace (length p + 1) with (S (length p)) in IH by lia. exact IH.
Qed.
Lemma comp_shape (c : list nat) : c <> [] -> (exists y m, c = y :: repeat 0 m) \/ (exists p x y m, c = p ++ x :: S y :: repeat 0 m).
Proof.
  induction c as [|y c IH]; [easy|]. intros _. destruct c as [|z c]; [left; exists y, 0; reflexivity|].
  destruct IH as [(v & m & E)|(p & x & v & m & E)]; [easy| |].
  - rewrite E. destruct v as [|v]; [left; exists y, (S m); reflexivity|right; exists [], y, v, m; reflexivity].
  - right. rewrite E. exists (y :: p), x, v, m. reflexivity.
Qed.
Lemma inc_forward_spec it : mp_inv it -> mp_end it = false ->
  match anext (mp_cursor it) with
  | None => mpi_inc_forward it = Ret (mk_mpi (mp_sum it) (mp_parties it) (mp_cursor it) (mp_cum it) true)
  | Some c => mpi_inc_forward it = Ret (mk_mpi (mp_sum it) (mp_parties it) c (psums 0 c) false)
  end.
Proof.
  destruct it as [s k c cum e]. intros (Hk & Hs & Hc & Hp) He. cbn [mp_sum mp_parties mp_cursor mp_cum mp_end] in *. subst cum e.
  unfold mpi_inc_forward. cbn [mp_sum mp_parties mp_cursor mp_cum].
  destruct (comp_shape c) as [(y & m & ->)|(p & x & y & m & ->)]; [intros ->; cbn in Hk; lia| |].
  - rewrite anext_zeros. cbn [length] in Hk. rewrite repeat_length in Hk. rewrite lsum_cons, lsum_zeros in Hs.
    destruct (Nat.leb_spec k 1) as [L|L]; [reflexivity|]. destruct m as [|m]; [lia|].
    rewrite psums_start. replace (k - 2) with m by lia. replace y with s by lia.
    replace (s :: repeat 0 (S m)) with ((s :: repeat 0 m) ++ [0]) by (rewrite repeat_snoc; reflexivity).
    replace (repeat s (S (S m))) with (repeat s (S m) ++ [s]) by now rewrite <- repeat_snoc.
    rewrite fwd_carry_none; [reflexivity|cbn; now rewrite repeat_length].
  - rewrite app_length in Hk. cbn [length] in Hk. rewrite repeat_length in Hk. rewrite lsum_app, !lsum_cons, lsum_zeros in Hs.
    destruct (Nat.leb_spec k 1) as [L|L]; [lia|].
    rewrite (anext_app p (x :: S y :: repeat 0 m) (S x :: repeat 0 m ++ [y])).
    2:{ cbn [anext]. rewrite (anext_zeros m (S y) : match anext (repeat 0 m) with _ => _ end = None) || idtac.
        change (match anext (S y :: repeat 0 m) with Some l' => Some (x :: l') | None => match list_sum (S y :: repeat 0 m) with O => None | S t => Some (S x :: repeat 0 (length (S y :: repeat 0 m) - 1) ++ [t]) end end = Some (S x :: repeat 0 m ++ [y])).
        rewrite anext_zeros, lsum_cons, lsum_zeros. cbn [length Nat.add]. rewrite repeat_length. replace (y + 0) with y by lia. replace (S m - 1) with m by lia. reflexivity. }
    assert (PS : psums 0 (p ++ x :: S y :: repeat 0 m) = psums 0 p ++ (list_sum p + x) :: repeat s m ++ [s]).
    { rewrite psums_app. cbn [psums Nat.add]. rewrite psums_zeros, <- repeat_snoc. cbn [repeat]. replace (list_sum p + x + S y) with s by lia. reflexivity. }
    rewrite PS. assert (CS : exists q v, S y :: repeat 0 m = q ++ [v] /\ length q = m).
    { destruct m as [|m]; [exists [], (S y); split; reflexivity|]. exists (S y :: repeat 0 m), 0. rewrite repeat_snoc. split; [reflexivity|cbn; now rewrite repeat_length]. }
    destruct CS as (q & v & CS & Lq). rewrite CS. replace (k - 2) with (length p + m) by lia.
    rewrite fwd_carry_some by (try rewrite psums_length; lia).
    replace (k - 1 - length p) with (length (S x :: repeat 0 m)) by (cbn; rewrite repeat_length; lia).
    replace (p ++ S x :: repeat 0 m ++ [v]) with (p ++ (S x :: repeat 0 m) ++ [v]) by reflexivity.
    replace (psums 0 p ++ S (list_sum p + x) :: repeat (S s) m ++ [s]) with (psums 0 p ++ (S (list_sum p + x) :: repeat (S s) m) ++ [s]) by reflexivity.
    rewrite fwd_cum_spec by (cbn; rewrite !repeat_length; reflexivity).
    assert (Lk : length (p ++ S x :: repeat 0 m) = k - 1) by (rewrite app_length; cbn; rewrite repeat_length; lia).
    assert (NT : nth (length p + m) (psums 0 (p ++ S x :: repeat 0 m) ++ [s]) 0 = list_sum p + S x).
    { rewrite app_nth1 by (rewrite psums_length; lia). replace (length p + m) with (length (p ++ S x :: repeat 0 m) - 1) by lia.
      rewrite psums_last by (destruct p; discriminate). rewrite lsum_app, lsum_cons, lsum_zeros. lia. }
    rewrite NT. replace (p ++ (S x :: repeat 0 m) ++ [v]) with ((p ++ S x :: repeat 0 m) ++ [v]) by (rewrite <- app_assoc; reflexivity).
    rewrite (set_at _ _ _ _ _ Lk). replace (p ++ S x :: repeat 0 m ++ [y]) with ((p ++ S x :: repeat 0 m) ++ [y]) by (rewrite <- app_assoc; reflexivity).
    replace (s - (list_sum p + S x)) with y by lia. do 2 f_equal. rewrite (psums_app (p ++ S x :: repeat 0 m)). cbn [psums Nat.add].
    rewrite lsum_app, lsum_cons, lsum_zeros. do 2 f_equal. lia.
Qed.
Lemma mpi_fwd_remains s k : forall c, length c = k -> list_sum c = s -> 0 < k ->
  remains mp_end mp_cursor mpi_inc_forward (mk_mpi s k c (psums 0 c) false) (afrom c).
Proof.
  intro c. remember (length (afrom c)) as n eqn:E. revert c E. induction n as [n IH] using lt_wf_ind. intros c E Hk Hs Hp.
  assert (I : mp_inv (mk_mpi s k c (psums 0 c) false)) by (repeat split; assumption).
  pose proof (inc_forward_spec _ I eq_refl) as Q. cbn [mp_cursor mp_sum mp_parties mp_cum] in Q. rewrite afrom_next in E |- *.
  destruct (anext c) as [c'|] eqn:C.
  - destruct (anext_keeps c c' C) as [K1 K2]. cbn in E.
    eapply (rem_step mp_end mp_cursor mpi_inc_forward (mk_mpi s k c (psums 0 c) false)); [reflexivity|exact Q|].
    apply (IH (length (afrom c'))); [lia|reflexivity|lia|lia|exact Hp].
  - eapply (rem_step mp_end mp_cursor mpi_inc_forward (mk_mpi s k c (psums 0 c) false)); [reflexivity|exact Q|]. now apply rem_done.
Qed.
Lemma mpi_run_fwd_spec fuel s k : 0 < k -> length (acomps s k) <= fuel -> mpi_run_fwd fuel s k = Ret (acomps s k).
Proof.
  intros Hk Hf. unfold mpi_run_fwd, mpi_start_fwd. destruct k as [|k]; [lia|]. cbn [Nat.eqb bind].
  replace (S k - 1) with k by lia. rewrite repeat_snoc. rewrite (set_at k (repeat 0 k)) by apply repeat_length.
  replace (repeat 0 k ++ [s]) with (repeat 0 k ++ [s]) at 2 by reflexivity.
  assert (P : repeat 0 k ++ [s] = psums 0 (repeat 0 k ++ [s])). { rewrite psums_app, psums_zeros, lsum_zeros. reflexivity. }
  rewrite P at 2. rewrite <- afrom_start. apply run_remains.
  - apply mpi_fwd_remains; [rewrite app_length, repeat_length; cbn; lia|rewrite lsum_app, lsum_zeros, lsum_cons, lsum_nil; lia|lia].
  - now rewrite afrom_start.
Qed.
