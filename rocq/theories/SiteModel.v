(** Site hashes and translation-canonical Pauli words: scenarios/pauli/symmetry/site_hasher.h, moment_simplifier.cpp,
    moment_simplifier_wrapping.h and moment_simplifier_no_wrapping.{h,cpp}.

    A hash (Datum) is a list of 64-bit numbers ("slides"), also for the one-slide hasher, whose Datum is a plain uint64_t.
    Sizes, offsets and operator numbers are natural numbers; the arithmetic on slides is that of uint64_t.  Two points are kept
    explicit because the code can reach them: a size_t subtraction wraps ([sub64]), and shifting a uint64_t by 64 or more is
    undefined behaviour in C++ ([wide] says what such a shift does; C++ itself allows only [SUndef]). *)
From Coq Require Import List NArith ZArith Arith Bool.
From Verif Require Import CoreModel.
Import ListNotations.

(** result of an operation: a value, undefined behaviour, or (loops only) out of fuel *)
Inductive sout (A : Type) := SOk (a : A) | SUndef | SNoFuel.
Arguments SOk {A} _. Arguments SUndef {A}. Arguments SNoFuel {A}.
Definition sbind {A B} (x : sout A) (f : A -> sout B) : sout B :=
  match x with SOk a => f a | SUndef => SUndef | SNoFuel => SNoFuel end.

Definition two64 : N := (2 ^ 64)%N.
(** uint64_t / size_t subtraction *)
Definition sub64 (a b : N) : N := ((a + two64 - b) mod two64)%N.
(** ~x on uint64_t *)
Definition not64 (x : N) : N := N.lxor x (N.ones 64).
(** qubits_per_slide, site_hasher.h:25-26 (two bits for each qubit) *)
Definition per_slide : nat := 32.

(** SiteHasherImplBase, site_hasher.h:28-49 *)
Record hasher := mk_hasher { h_slides : nat; h_col : nat; h_row : nat; h_final : N; h_mask : N }.
Definition h_qubits (h : hasher) : nat := h_col h * h_row h.
Definition datum : Type := list N.
Definition at_slide (d : datum) (i : nat) : N := nth i d 0%N.
(** [out\[i\] = f(out\[i\])] *)
Fixpoint upd (i : nat) (f : N -> N) (d : datum) : datum :=
  match d, i with
  | [], _ => []
  | x :: d', O => f x :: d'
  | x :: d', S i' => x :: upd i' f d'
  end.

Section Site.
  (** result of [x << k] (true) or [x >> k] (false) for k >= 64 *)
  Variable wide : bool -> N -> N -> sout N.
  Definition shl (x k : N) : sout N := if (k <? 64)%N then SOk (N.shiftl x k mod two64)%N else wide true x k.
  Definition shr (x k : N) : sout N := if (k <? 64)%N then SOk (N.shiftr x k) else wide false x k.

  (** calculate_mask_from_bits, site_hasher.h:77-85; calculate_mask_from_qubits, 92-95 *)
  Definition mask_bits (b : nat) : sout N :=
    if Nat.eqb b 64 || Nat.eqb b 0 then SOk (N.ones 64)
    else sbind (shl 1 (N.of_nat b)) (fun x => SOk (sub64 x 1)).
  Definition mask_qubits (n : nat) : sout N := mask_bits (2 * n).
  (** calculate_last_slide_qubit_count, site_hasher.h:67-70.  Signed arithmetic: no qubits give 0. *)
  Definition last_count (n : nat) : nat := if Nat.eqb n 0 then 0 else (n - 1) mod per_slide + 1.
  (** constructor, site_hasher.h:57-63 *)
  Definition make_hasher (slides col row : nat) : sout hasher :=
    sbind (mask_qubits (last_count (col * row))) (fun fm =>
    sbind (mask_qubits col) (fun cm => SOk (mk_hasher slides col row fm cm))).

  (** hash, site_hasher.h:124-135, 350-361, 519-529.  The three are the same: with one slide the shift is by twice the qubit
      number.  An operator beyond the slides writes outside the array (one slide: shifts by 64 or more): undefined. *)
  Fixpoint hash_from (out : datum) (w : word) : sout datum :=
    match w with
    | [] => SOk out
    | op :: w' =>
        let q := op / 3 in
        if q / per_slide <? length out then
          hash_from (upd (q / per_slide) (fun x => (x + N.shiftl (N.of_nat (op mod 3) + 1) (N.of_nat (q mod per_slide * 2))) mod two64)%N out) w'
        else SUndef
    end.
  Definition empty_hash (h : hasher) : datum := repeat 0%N (h_slides h).
  Definition site_hash (h : hasher) (w : word) : sout datum := hash_from (empty_hash h) w.

  (** std::countr_zero *)
  Fixpoint ctz (p : positive) : nat := match p with xO p' => S (ctz p') | _ => 0 end.
  Definition countr_zero (x : N) : nat := match x with N0 => 64 | Npos p => ctz p end.
  (** inner loop of unhash, site_hasher.h:157-171, 371-392, 548-563 *)
  Fixpoint unhash_slide (fuel qubit : nat) (cursor : N) : sout word :=
    if N.eqb cursor 0 then SOk []
    else match fuel with
         | O => SNoFuel
         | S fuel' =>
             let off := countr_zero cursor / 2 in
             let cursor1 := N.shiftr cursor (N.of_nat (off * 2)) in
             let pauli := N.to_nat (N.land cursor1 3 - 1) in
             let q := qubit + off in
             sbind (unhash_slide fuel' (q + 1) (N.shiftr cursor1 2)) (fun w => SOk (q * 3 + pauli :: w))
         end.
  (** unhash, site_hasher.h:148-174, 371-392, 541-566 *)
  Fixpoint unhash_from (slide : nat) (d : datum) : sout word :=
    match d with
    | [] => SOk []
    | x :: d' => sbind (unhash_slide 64 (slide * per_slide) x) (fun a => sbind (unhash_from (S slide) d') (fun b => SOk (a ++ b)))
    end.
  Definition unhash (d : datum) : sout word := unhash_from 0 d.

  (** shifts by less than 64 by construction of their argument *)
  Definition shl_in (x : N) (k : nat) : N := (N.shiftl x (N.of_nat k) mod two64)%N.
  Definition shr_in (x : N) (k : nat) : N := N.shiftr x (N.of_nat k).

  (** SiteHasherSized<num_slides>::cyclic_shift, site_hasher.h:180-235; the loops over slides are written as the final value of
      each slide *)
  Definition front_part (d : datum) (fso fbo i : nat) : N :=
    if Nat.eqb fbo 0 then (if fso <=? i then at_slide d (i - fso) else 0%N)
    else if i <? fso then 0%N
    else if Nat.eqb i fso then shl_in (at_slide d 0) fbo
    else ((shl_in (at_slide d (i - fso)) fbo + shr_in (at_slide d (i - fso - 1)) (64 - fbo)) mod two64)%N.
  Definition back_part (slides : nat) (d : datum) (bso bbo i : nat) : N :=
    if Nat.eqb bbo 0 then (if i <? slides - bso then at_slide d (i + bso) else 0%N)
    else if i <? slides - bso - 1 then N.lor (shr_in (at_slide d (i + bso)) bbo) (shl_in (at_slide d (i + bso + 1)) (64 - bbo))
    else if Nat.eqb i (slides - bso - 1) then shr_in (at_slide d (slides - 1)) bbo
    else 0%N.
  Definition cyclic_n (h : hasher) (d : datum) (offset : nat) : sout datum :=
    let k := offset mod h_qubits h in
    if Nat.eqb k 0 then SOk d
    else
      let back := h_qubits h - k in
      let out := map (fun i => N.lor (front_part d (k / per_slide) (k mod per_slide * 2) i)
                                     (back_part (h_slides h) d (back / per_slide) (back mod per_slide * 2) i)) (seq 0 (h_slides h)) in
      SOk (upd (h_slides h - 1) (fun x => N.land x (h_final h)) out).
  (** SiteHasherSized<1>::cyclic_shift, site_hasher.h:398-404 *)
  Definition cyclic_1 (h : hasher) (d : datum) (offset : nat) : sout datum :=
    let k := 2 * (offset mod per_slide) in
    if Nat.eqb k 0 then SOk d
    else
      sbind (shl (at_slide d 0) (N.of_nat k)) (fun a =>
      sbind (shr (at_slide d 0) (sub64 (2 * N.of_nat (h_qubits h)) (N.of_nat k))) (fun b =>
      SOk [N.lor (N.land a (h_final h)) b])).
  (** SiteHasherSized<2>::cyclic_shift, site_hasher.h:571-617 *)
  Definition cyclic_2 (h : hasher) (d : datum) (offset : nat) : sout datum :=
    let k := offset mod h_qubits h in
    let i0 := at_slide d 0 in let i1 := at_slide d 1 in
    if Nat.eqb k 0 then SOk d
    else
      let f0 := if k <? per_slide then shl_in i0 (2 * k) else 0%N in
      let f1 := if k <? per_slide then N.lor (shr_in i0 (64 - 2 * k)) (shl_in i1 (2 * k)) else shl_in i0 (2 * (k - per_slide)) in
      let back := h_qubits h - k in
      let o0 := if back <? per_slide then N.lor f0 (N.lor (shl_in i1 (64 - back * 2)) (shr_in i0 (back * 2)))
                else N.lor f0 (shr_in i1 (2 * (back - per_slide))) in
      let o1 := if back <? per_slide then N.lor f1 (shr_in i1 (back * 2)) else f1 in
      SOk [o0; N.land o1 (h_final h)].
  Definition cyclic_shift (h : hasher) (d : datum) (offset : nat) : sout datum :=
    match h_slides h with 1 => cyclic_1 h d offset | 2 => cyclic_2 h d offset | _ => cyclic_n h d offset end.

  (** rotation of the word of one column, site_hasher.h:266, 274, 419, 633, 641, 651 *)
  Definition rotate (h : hasher) (word bit_offset anti : N) : sout N :=
    sbind (shl word bit_offset) (fun a => sbind (shr word anti) (fun b => SOk (N.land (N.lor a b) (h_mask h)))).
  (** for loops over columns *)
  Fixpoint columns (f : nat -> datum -> sout datum) (cs : list nat) (out : datum) : sout datum :=
    match cs with [] => SOk out | c :: cs' => sbind (f c out) (columns f cs') end.

  (** SiteHasherSized<1>::extract_column, site_hasher.h:429-432, and row_cyclic_shift, 409-424 *)
  Definition extract_1 (h : hasher) (d : datum) (c : nat) : sout N :=
    sbind (shr (at_slide d 0) (N.of_nat (c * h_col h * 2))) (fun x => SOk (N.land x (h_mask h))).
  Definition row_1 (h : hasher) (d : datum) (offset : nat) : sout datum :=
    let k := offset mod h_col h in
    if Nat.eqb k 0 then SOk d
    else columns (fun c out =>
           sbind (extract_1 h d c) (fun word =>
           sbind (rotate h word (2 * N.of_nat k) (sub64 (N.of_nat (h_col h) * 2) (2 * N.of_nat k))) (fun word1 =>
           sbind (shl word1 (N.of_nat (c * h_col h * 2))) (fun x => SOk (upd 0 (N.lor x) out)))))
         (seq 0 (h_row h)) [0%N].

  (** BoundaryCalculator, site_hasher.h:454-506 (a column height of zero is not modelled: a hasher with qubits has none) *)
  Record boundary := mk_boundary { lhs_mask : N; lhs_anti : N; rhs_mask : N; rhs_offset : N; wrap_column : nat }.
  Definition make_boundary (col : nat) : sout boundary :=
    let left := per_slide mod col in
    if 0 <? left then
      sbind (mask_bits (2 * (per_slide - left))) (fun m =>
      sbind (mask_qubits (col - left)) (fun r =>
      SOk (mk_boundary (not64 m) (N.of_nat (2 * (per_slide - left))) r (N.of_nat (2 * left)) (per_slide / col))))
    else
      sbind (mask_qubits col) (fun r => SOk (mk_boundary 0 64 r 0 (per_slide / col))).
  Definition evaluate (b : boundary) (d : datum) : sout N :=
    sbind (shr (N.land (at_slide d 0) (lhs_mask b)) (lhs_anti b)) (fun x =>
    sbind (shl (N.land (at_slide d 1) (rhs_mask b)) (rhs_offset b)) (fun y => SOk (N.lor x y))).
  Definition splice_in (b : boundary) (out : datum) (value : N) : sout datum :=
    sbind (shl value (lhs_anti b)) (fun x =>
    sbind (shr value (rhs_offset b)) (fun y =>
    SOk (upd 1 (fun o => N.lor o (N.land y (rhs_mask b))) (upd 0 (fun o => N.lor o (N.land x (lhs_mask b))) out)))).
  (** SiteHasherSized<2>::row_cyclic_shift, site_hasher.h:622-662 *)
  Definition row_2 (h : hasher) (d : datum) (offset : nat) : sout datum :=
    let k := offset mod h_col h in
    if Nat.eqb k 0 then SOk d
    else
      let bo := (2 * N.of_nat k)%N in let ao := sub64 (N.of_nat (h_col h) * 2) (2 * N.of_nat k) in
      sbind (make_boundary (h_col h)) (fun b =>
      sbind (if N.eqb (at_slide d 0) 0 then SOk [0%N; 0%N]
             else columns (fun c out =>
                    sbind (shr (at_slide d 0) (N.of_nat (c * h_col h * 2))) (fun x =>
                    sbind (rotate h (N.land x (h_mask h)) bo ao) (fun word =>
                    sbind (shl word (N.of_nat (c * h_col h * 2))) (fun y => SOk (upd 0 (fun o => N.lor o y) out)))))
                  (seq 0 (wrap_column b)) [0%N; 0%N]) (fun out1 =>
      sbind (evaluate b d) (fun middle =>
      sbind (rotate h middle bo ao) (fun middle1 =>
      sbind (splice_in b out1 middle1) (fun out2 =>
      if N.eqb (at_slide d 1) 0 then SOk out2
      else columns (fun c out =>
             sbind (shr (at_slide d 1) (sub64 (N.of_nat (c * h_col h * 2)) 64)) (fun x =>
             sbind (rotate h (N.land x (h_mask h)) bo ao) (fun word =>
             sbind (shl word (sub64 (N.of_nat (c * h_col h * 2)) 64)) (fun y => SOk (upd 1 (fun o => N.lor o y) out)))))
           (seq (wrap_column b + 1) (h_row h - (wrap_column b + 1))) out2))))).
  (** SiteHasherSized<2>::extract_column, site_hasher.h:667-681 *)
  Definition extract_2 (h : hasher) (d : datum) (c : nat) : sout N :=
    sbind (make_boundary (h_col h)) (fun b =>
    if c <? wrap_column b then sbind (shr (at_slide d 0) (N.of_nat (c * h_col h * 2))) (fun x => SOk (N.land x (h_mask h)))
    else if wrap_column b <? c then sbind (shr (at_slide d 1) (sub64 (N.of_nat (c * h_col h * 2)) 64)) (fun x => SOk (N.land x (h_mask h)))
    else evaluate b d).

  (** position of a column, site_hasher.h:256-260, 290-294 *)
  Definition first_slide (h : hasher) (c : nat) : nat := c * h_col h / per_slide.
  Definition offset_one (h : hasher) (c : nat) : nat := 2 * (c * h_col h mod per_slide).
  Definition offset_two (h : hasher) (c : nat) : nat := 2 * ((c + 1) * h_col h mod per_slide).
  Definition straddles (h : hasher) (c : nat) : bool := (offset_two h c <=? offset_one h c) && negb (Nat.eqb (offset_two h c) 0).
  (** SiteHasherSized<num_slides>::extract_column, site_hasher.h:287-307, and the reading of a column at 264-265, 273.
      [column_height - (offset_slide_two / 2)] wraps when it is negative. *)
  Definition remainder_bits (h : hasher) (c : nat) : N :=
    (sub64 (N.of_nat (h_col h)) (N.of_nat (offset_two h c / 2)) * 2 mod two64)%N.
  Definition extract_n (h : hasher) (d : datum) (c : nat) : sout N :=
    sbind (shr (at_slide d (first_slide h c)) (N.of_nat (offset_one h c))) (fun x =>
    if straddles h c then
      sbind (mask_bits (offset_two h c)) (fun m =>
      sbind (shl (N.land (at_slide d (first_slide h c + 1)) m) (remainder_bits h c)) (fun y =>
      SOk (N.lor (N.land x (h_mask h)) y)))
    else SOk (N.land x (h_mask h))).
  (** SiteHasherSized<num_slides>::row_cyclic_shift, site_hasher.h:240-282.  The offset is reduced modulo row_width. *)
  Definition row_n (h : hasher) (d : datum) (offset : nat) : sout datum :=
    let k := offset mod h_row h in
    if Nat.eqb k 0 then SOk d
    else columns (fun c out =>
           sbind (extract_n h d c) (fun word =>
           sbind (rotate h word (2 * N.of_nat k) (sub64 (N.of_nat (h_col h) * 2) (2 * N.of_nat k))) (fun word1 =>
           sbind (shl word1 (N.of_nat (offset_one h c))) (fun x =>
           if straddles h c then
             sbind (shr word1 (remainder_bits h c)) (fun y =>
             SOk (upd (first_slide h c + 1) (fun _ => y) (upd (first_slide h c) (fun o => N.lor o x) out)))
           else SOk (upd (first_slide h c) (fun o => N.lor o x) out)))))
         (seq 0 (h_row h)) (empty_hash h).
  Definition row_cyclic_shift (h : hasher) (d : datum) (offset : nat) : sout datum :=
    match h_slides h with 1 => row_1 h d offset | 2 => row_2 h d offset | _ => row_n h d offset end.
  Definition extract_column (h : hasher) (d : datum) (c : nat) : sout N :=
    match h_slides h with 1 => extract_1 h d c | 2 => extract_2 h d c | _ => extract_n h d c end.

  (** less, site_hasher.h:309-318, 434-436, 684-691: compared from the last slide *)
  Fixpoint less_rev (a b : datum) : bool :=
    match a, b with
    | x :: a', y :: b' => if (x <? y)%N then true else if (y <? x)%N then false else less_rev a' b'
    | _, _ => false
    end.
  Definition less (a b : datum) : bool := less_rev (rev a) (rev b).
  Fixpoint datum_eqb (a b : datum) : bool :=
    match a, b with
    | [], [] => true
    | x :: a', y :: b' => N.eqb x y && datum_eqb a' b'
    | _, _ => false
    end.

  (** col_shift, site_hasher.h:714-716; lattice_shift, 732-735 *)
  Definition col_shift (h : hasher) (d : datum) (offset : nat) : sout datum := cyclic_shift h d (offset mod h_row h * h_col h).
  Definition lattice_shift (h : hasher) (d : datum) (row col : nat) : sout datum :=
    sbind (col_shift h d col) (fun x => row_cyclic_shift h x row).
  (** candidate of one operator in do_canonical_hash, site_hasher.h:781-800 *)
  Definition candidate (lattice : bool) (h : hasher) (d : datum) (op : nat) : sout datum :=
    let q := op / 3 in
    if lattice then lattice_shift h d (h_col h - q mod h_col h) (h_row h - q / h_col h)
    else cyclic_shift h d (h_qubits h - q).
  (** loop of do_canonical_hash, site_hasher.h:779-803; [best] is output.first, [None] while done_once is false *)
  Fixpoint smallest (lattice : bool) (h : hasher) (d : datum) (best : option datum) (ops : word) : sout datum :=
    match ops with
    | [] => match best with Some b => SOk b | None => SUndef end
    | op :: ops' =>
        sbind (candidate lattice h d op) (fun c =>
        smallest lattice h d (Some (match best with None => c | Some b => if less c b then c else b end)) ops')
    end.
  (** do_canonical_hash, site_hasher.h:765-805; canonical_hash, 744-748 *)
  Definition canonical_hash (h : hasher) (w : word) : sout (datum * datum) :=
    match w with
    | [] => SOk (empty_hash h, empty_hash h)
    | _ => sbind (site_hash h w) (fun d => sbind (smallest (negb (Nat.eqb (h_row h) 1)) h d None w) (fun b => SOk (b, d)))
    end.
  (** first_chain_alias, site_hasher.h:754-761 *)
  Fixpoint alias_from (h : hasher) (d : datum) (offset count : nat) : sout nat :=
    match count with
    | O => SOk (h_qubits h)
    | S count' => sbind (cyclic_shift h d offset) (fun x => if datum_eqb d x then SOk offset else alias_from h d (S offset) count')
    end.
  Definition first_chain_alias (h : hasher) (d : datum) : sout nat := alias_from h d 1 (h_qubits h - 1).

  (** MomentSimplifierWrapping::canonical_sequence, moment_simplifier_wrapping.h:37-52; is_canonical, 57-63 *)
  Definition wrap_canonical (h : hasher) (w : word) : sout word :=
    sbind (canonical_hash h w) (fun x => if datum_eqb (fst x) (snd x) then SOk w else unhash (fst x)).
  Definition wrap_is_canonical (h : hasher) (w : word) : sout bool :=
    sbind (canonical_hash h w) (fun x => SOk (datum_eqb (fst x) (snd x))).
  (** [offset % qubit_size] of a ptrdiff_t and a size_t: the offset is converted to size_t first, so the result is never
      negative and the branches at moment_simplifier_wrapping.h:72-74, 88-90, 93-95 are dead *)
  Definition wrap_offset (n : nat) (offset : Z) : nat := Z.to_nat ((offset mod 2 ^ 64) mod Z.of_nat n)%Z.
  (** chain_offset, moment_simplifier_wrapping.h:68-78; lattice_offset, 82-100 *)
  Definition wrap_chain_offset (h : hasher) (w : word) (offset : Z) : sout word :=
    sbind (site_hash h w) (fun d => sbind (cyclic_shift h d (wrap_offset (h_qubits h) offset)) unhash).
  Definition wrap_lattice_offset (h : hasher) (w : word) (row col : Z) : sout word :=
    sbind (site_hash h w) (fun d =>
    sbind (lattice_shift h d (wrap_offset (h_qubits h) row) (wrap_offset (h_qubits h) col)) unhash).

  (** the hasher made for a context: MomentSimplifier::make, moment_simplifier.cpp:33-68, with the sizes of
      moment_simplifier_wrapping.h:26-31; [None]: more than 256 qubits, an exception *)
  Definition slides_for (n : nat) : nat :=
    match n / per_slide + (if Nat.eqb (n mod per_slide) 0 then 0 else 1) with O => 1 | s => s end.
  Definition make_wrapping (lattice : bool) (col row : nat) : option (sout hasher) :=
    if 256 <? col * row then None
    else Some (if lattice then make_hasher (slides_for (col * row)) col row else make_hasher (slides_for (col * row)) (col * row) 1).
End Site.

(** C++: any shift by 64 or more is undefined behaviour *)
Definition wide_cpp (left : bool) (x k : N) : sout N := SUndef.

(** MomentSimplifier::canonical_sequence(OperatorSequence), moment_simplifier.cpp:70-76, with the constructor
    operator_sequence.cpp:41-47: the hash is taken after the operators were moved into the first argument.  A SmallVector of up to
    16 operators is left intact by the move (small_vector.h:129-135), a longer one is left empty (122-128). *)
Definition presorted (radix : N) (w : word) (s : sign) : hseq :=
  mk_hseq (hash radix (if length w <=? 16 then w else [])) w s.

(** MomentSimplifierNoWrappingChain, moment_simplifier_no_wrapping.h:33-48 and .cpp:36-66 *)
Definition chain_minimum (w : word) : nat := match w with [] => 0 | op :: _ => op / 3 end.
Definition chain_canonical (w : word) : word :=
  let off := 3 * chain_minimum w in if Nat.eqb off 0 then w else map (fun op => op - off) w.
Definition chain_is_canonical (w : word) : bool := match w with [] => true | op :: _ => op <=? 2 end.
Definition chain_supremum (w : word) : nat := match w with [] => 0 | _ => last w 0 / 3 + 1 end.
Definition chain_supremum_poly (p : list word) : nat := fold_left (fun m w => Nat.max m (chain_supremum w)) p 0.
(** do_chain_offset, moment_simplifier_no_wrapping.cpp:18-29 (exact arithmetic: the narrowing to oper_name_t is not modelled) *)
Definition do_chain_offset (w : word) (offset : Z) : list Z := map (fun op => (Z.of_nat op + 3 * offset)%Z) w.
(** MomentSimplifierNoWrappingLattice, moment_simplifier_no_wrapping.cpp:79-205; [ch] is the column height *)
Definition lattice_minimum (ch : nat) (w : word) : nat * nat :=
  match w with
  | [] => (0, 0)
  | op :: w' => (fold_left (fun m o => Nat.min m ((o / 3) mod ch)) w' ((op / 3) mod ch), op / (ch * 3))
  end.
Definition lattice_canonical (ch : nat) (w : word) : word :=
  let m := lattice_minimum ch w in
  if Nat.eqb (fst m) 0 && Nat.eqb (snd m) 0 then w
  else map (fun op => op - (snd m * (ch * 3) + fst m * 3)) w.
Definition lattice_is_canonical (ch : nat) (w : word) : bool :=
  match w with
  | [] => true
  | op :: _ => if 0 <? op / (ch * 3) then false else existsb (fun o => Nat.eqb ((o / 3) mod ch) 0) w
  end.
Definition lattice_supremum (ch : nat) (w : word) : nat * nat :=
  match w with
  | [] => (0, 0)
  | op :: w' => (fold_left (fun m o => Nat.max m (1 + (o / 3) mod ch)) w' ((op / 3) mod ch + 1), 1 + last w 0 / (ch * 3))
  end.
Definition lattice_offset (ch : nat) (w : word) (row col : Z) : list Z := do_chain_offset w (col * Z.of_nat ch + row)%Z.
