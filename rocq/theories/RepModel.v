(** Representations of a symmetry group on words of a given length, scenarios/symmetrized/{group,representation,representation_mapper}.cpp.

    Simplifications: matrices are functions of row and column with entries in an abstract semi-ring (the code has sparse matrices of double); a vector of
    owned pointers indexed by word length minus one is a function from word lengths, and the resizing before it is written to is left out. *)
From Coq Require Import List Arith NArith Bool.
From Verif Require Import CoreModel AlgModel.
Import ListNotations.

(** * Which lengths have to be made, group.cpp *)
(** std::popcount *)
Fixpoint popcount_pos (p : positive) : nat := match p with xH => 1 | xO q => popcount_pos q | xI q => S (popcount_pos q) end.
Definition popcount (n : N) : nat := match n with N0 => 0 | Npos p => popcount_pos p end.
(** std::bit_floor *)
Definition bit_floor (n : N) : N := match n with N0 => 0%N | Npos _ => N.pow 2 (N.log2 n) end.
(** determine_parents, group.cpp:35-49: the lengths of the two parents *)
Definition parents (len : N) : N * N :=
  if popcount len =? 1 then (N.shiftr len 1, N.shiftr len 1) else (bit_floor len, N.lxor len (bit_floor len)).
(** "and other pow2's", 262-265 *)
Fixpoint halvings (fuel : nat) (bf rem : N) (out : list N) : res (list N) :=
  match fuel with
  | 0 => NoFuel
  | S fuel' => if (rem <? bf)%N then halvings fuel' (N.shiftr bf 1) rem (out ++ [bf]) else Ret out
  end.
(** the do-while loop, 249-271 *)
Fixpoint decompose_loop (fuel : nat) (rem : N) (out : list N) : res (list N) :=
  match fuel with
  | 0 => NoFuel
  | S fuel' =>
      let out1 := out ++ [rem] in
      let next :=
        if popcount rem =? 1 then Ret (N.shiftr rem 1, out1)
        else let bf := bit_floor rem in
             let rem' := N.lxor rem bf in
             match halvings fuel bf rem' out1 with Ret out2 => Ret (rem', out2) | Err => Err | NoFuel => NoFuel end in
      match next with
      | Ret (rem', out') => if (1 <? rem')%N then decompose_loop fuel' rem' out' else Ret out'
      | Err => Err
      | NoFuel => NoFuel
      end
  end.
(** Group::decompose_build_list, 240-277 *)
Definition decompose (fuel : nat) (target : N) : res (list N) :=
  if (target <=? 1)%N then Ret []
  else match decompose_loop fuel target [] with Ret out => Ret (rev out) | Err => Err | NoFuel => NoFuel end.

(** * Representation mappers, representation_mapper.cpp *)
Section Mapper.
  (** words; their hash; the hash of the product of two words (its sign is not looked at, 58-61); the words of each length, shortest first; scalars *)
  Variables (W : Type) (hash : W -> N) (prod_hash : W -> W -> N) (osg : N -> list W).
  Variables (K : Type) (k0 k1 : K) (kadd kmul : K -> K -> K).
  Definition mat : Type := nat -> nat -> K.

  (** the map from hashes to indices, 39-51: std::map::emplace_hint keeps the first entry of a key *)
  Fixpoint find_index (h : N) (ws : list W) (i : nat) : option nat :=
    match ws with [] => None | w :: ws' => if N.eqb (hash w) h then Some i else find_index h ws' (S i) end.
  Definition hash_to_index (target : N) (h : N) : option nat := if N.eqb h 0 then Some 0 else find_index h (osg target) 1.
  (** vector_remap, 33-67.  None: the end iterator is dereferenced *)
  Fixpoint sequence {A} (l : list (option A)) : option (list A) :=
    match l with
    | [] => Some []
    | x :: l' => match x, sequence l' with Some a, Some r => Some (a :: r) | _, _ => None end
    end.
  Definition vector_remap (lhs rhs target : N) : option (list nat) :=
    sequence (flat_map (fun l => map (fun r => hash_to_index target (prod_hash l r)) (osg rhs)) (osg lhs)).

  (** setFromTriplets: entries at the same place are added *)
  Definition from_triplets (ts : list (nat * nat)) : mat :=
    fun r c => fold_right (fun t a => if (fst t =? r) && (snd t =? c) then kadd k1 a else a) k0 ts.
  (** make_lhs, 72-92 *)
  Fixpoint lhs_triplets (raw : nat) (remap : list nat) : list (nat * nat) :=
    match remap with
    | [] => []
    | m :: rest => (if 0 <? m then [(m - 1, raw)] else []) ++ lhs_triplets (S raw) rest
    end.
  (** make_rhs, 97-122 *)
  Fixpoint rhs_triplets (raw : nat) (done : list nat) (remap : list nat) : list (nat * nat) :=
    match remap with
    | [] => []
    | m :: rest =>
        if (0 <? m) && negb (existsb (Nat.eqb (m - 1)) done) then (raw, m - 1) :: rhs_triplets (S raw) ((m - 1) :: done) rest
        else rhs_triplets (S raw) done rest
    end.
  Record mapper := mk_mapper { mp_length : N; mp_left : nat; mp_right : nat; mp_raw : nat; mp_dim : nat; mp_remap : list nat }.
  (** RepresentationMapper(context), 126-138 *)
  Definition first_mapper : mapper :=
    let d := length (osg 1) in mk_mapper 1 d 1 d d (seq 1 d).
  (** RepresentationMapper(context, parents, length), 140-167 *)
  Definition make_mapper (a b : mapper) (len : N) : option mapper :=
    match vector_remap (mp_length a) (mp_length b) len with
    | None => None
    | Some rm => Some (mk_mapper len (mp_dim a) (mp_dim b) (mp_dim a * mp_dim b) (length (osg len)) rm)
    end.
  Definition sum (n : nat) (f : nat -> K) : K := fold_right (fun i a => kadd (f i) a) k0 (seq 0 n).
  (** Eigen::kroneckerProduct; [n] is the dimension of [b] *)
  Definition kronecker (n : nat) (a b : mat) : mat := fun r c => kmul (a (r / n) (c / n)) (b (r mod n) (c mod n)).
  (** RepresentationMapper::operator(), 176-183 *)
  Definition apply_mapper (m : mapper) (a b : mat) : mat :=
    let lhs := from_triplets (lhs_triplets 0 (mp_remap m)) in
    let rhs := from_triplets (rhs_triplets 0 [] (mp_remap m)) in
    fun r c => sum (mp_raw m) (fun j => kmul (sum (mp_raw m) (fun i => kmul (lhs r i) (kronecker (mp_right m) a b i j))) (rhs j c)).

  (** * The group, group.cpp *)
  (** elements of a representation, in the order of the group's elements *)
  Definition rep : Type := list mat.
  Record gstate := mk_g { g_reps : N -> option rep; g_maps : N -> option mapper }.
  Definition upd {A} (f : N -> option A) (k : N) (v : A) : N -> option A := fun x => if N.eqb x k then Some v else f x.
  (** Group::Group, 93-116.  None: the dimension is wrong, an exception *)
  Definition new_group (dim : nat) (fundamental : rep) : option gstate :=
    if dim =? length (osg 1) then Some (mk_g (upd (fun _ => None) 1%N fundamental) (upd (fun _ => None) 1%N first_mapper)) else None.
  (** mappers, 300-311.  None: a null pointer or the end iterator is dereferenced *)
  Fixpoint build_maps (maps : N -> option mapper) (todo : list N) : option (N -> option mapper) :=
    match todo with
    | [] => Some maps
    | wl :: todo' =>
        match maps wl with
        | Some _ => build_maps maps todo'
        | None =>
            let (a, b) := parents wl in
            match maps a, maps b with
            | Some ma, Some mb => match make_mapper ma mb wl with Some m => build_maps (upd maps wl m) todo' | None => None end
            | _, _ => None
            end
        end
    end.
  (** the loop over the elements of the group, 68-74; [None]: read outside a representation *)
  Definition make_rep (m : mapper) (a b : rep) (size : nat) : option rep :=
    sequence (map (fun i => match nth_error a i, nth_error b i with Some x, Some y => Some (apply_mapper m x y) | _, _ => None end) (seq 0 size)).
  (** build_representations_single_thread, 51-78 *)
  Fixpoint build_reps (maps : N -> option mapper) (size : nat) (reps : N -> option rep) (todo : list N) : option (N -> option rep) :=
    match todo with
    | [] => Some reps
    | wl :: todo' =>
        let (a, b) := parents wl in
        match reps a, reps b, maps wl with
        | Some ra, Some rb, Some m => match make_rep m ra rb size with Some r => build_reps maps size (upd reps wl r) todo' | None => None end
        | _, _, _ => None
        end
    end.
  (** identify_and_build_representations, 283-335 (one thread) *)
  Definition unbuilt (reps : N -> option rep) (l : list N) : list N := filter (fun wl => match reps wl with Some _ => false | None => true end) l.
  Definition identify_and_build (fuel size : nat) (g : gstate) (wl : N) : res (option gstate) :=
    match decompose fuel wl with
    | Ret l =>
        match build_maps (g_maps g) l with
        | None => Ret None
        | Some maps => match build_reps maps size (g_reps g) (unbuilt (g_reps g) l) with None => Ret None | Some reps => Ret (Some (mk_g reps maps)) end
        end
    | Err => Err
    | NoFuel => NoFuel
    end.
  (** Group::create_representation, 200-226 *)
  Inductive created := Threw | Undef | Fuel | Made (g : gstate) (r : rep).
  Definition create (fuel size : nat) (g : gstate) (wl : N) : created :=
    if N.eqb wl 0 then Threw
    else match g_reps g wl with
         | Some r => Made g r
         | None =>
             match identify_and_build fuel size g wl with
             | Ret (Some g') => match g_reps g' wl with Some r => Made g' r | None => Undef end
             | Ret None => Undef
             | Err => Undef
             | NoFuel => Fuel
             end
         end.
  (** several calls, one after the other; None: one of them did not return a representation *)
  Fixpoint creates (fuel size : nat) (g : gstate) (wls : list N) : option (gstate * list rep) :=
    match wls with
    | [] => Some (g, [])
    | wl :: rest =>
        match create fuel size g wl with
        | Made g' r => match creates fuel size g' rest with Some (g2, rs) => Some (g2, r :: rs) | None => None end
        | _ => None
        end
    end.
End Mapper.
Arguments mk_g {K}. Arguments g_reps {K}. Arguments g_maps {K}. Arguments Threw {K}. Arguments Undef {K}. Arguments Fuel {K}. Arguments Made {K}.
Arguments unbuilt {K}. Arguments find_index {W}. Arguments hash_to_index {W}. Arguments vector_remap {W}. Arguments from_triplets {K}. Arguments first_mapper {W}. Arguments make_mapper {W}.
Arguments sum {K}. Arguments kronecker {K}. Arguments apply_mapper {K}. Arguments new_group {W} _ {K}. Arguments build_maps {W}. Arguments make_rep {K}. Arguments build_reps {K}.
Arguments identify_and_build {W} _ _ _ {K}. Arguments create {W} _ _ _ {K}. Arguments creates {W} _ _ _ {K}.
