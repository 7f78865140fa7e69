(** Operator sequence generators (dictionaries): the generic one, its conjugate, the locality one, and the cache of levels. *)
From Coq Require Import List NArith Arith Bool.
From Verif Require Import CoreModel AlgModel LocModel EnumModel.
Import ListNotations.

(** loop helper: run a [res]-valued body over a list and append what it produces *)
Fixpoint res_flat_map {A B} (f : A -> res (list B)) (l : list A) : res (list B) :=
  match l with
  | [] => Ret []
  | x :: l' => bind (f x) (fun y => bind (res_flat_map f l') (fun r => Ret (y ++ r)))
  end.

(** * Generic generator: OperatorSequenceGenerator::build_generic_sequences, operator_sequence_generator.cpp:17-38.
    [canon] is Context::get_if_canonical (virtual); [num_ops] the context's operator count. *)
Definition keep_canonical (canon : word -> res (option hseq)) (w : word) : res (list hseq) :=
  bind (canon w) (fun q => Ret (match q with Some s => [s] | None => [] end)).
Definition build_generic (fuel num_ops : nat) (canon : word -> res (option hseq)) (max_len : nat) : res (list hseq) :=
  bind (res_flat_map (fun len => bind (moi_run fuel len num_ops 0) (res_flat_map (keep_canonical canon))) (seq 1 max_len))
       (fun r => Ret (hseq_const false :: r)).
(** OperatorSequenceGenerator::conjugate, operator_sequence_generator.cpp:41-56: the conjugates and the greatest length *)
Fixpoint osg_conjugate (conj : hseq -> res hseq) (l : list hseq) (longest : nat) : res (list hseq * nat) :=
  match l with
  | [] => Ret ([], longest)
  | q :: l' =>
      bind (conj q) (fun c =>
      let len := length (hs_ops c) in
      bind (osg_conjugate conj l' (if Nat.ltb longest len then len else longest)) (fun r => Ret (c :: fst r, snd r)))
  end.

(** * Locality generator, locality_osg.cpp *)
(** PartyOSG: unique_sequences and word_length_boundaries *)
Record party_osg := mk_posg { po_seqs : list hseq; po_bounds : list nat }.
(** the inner loop 99-105 *)
Definition keep_full_length (sc : scenario) (wl : nat) (w : word) : res (list hseq) :=
  bind (loc_sequence sc w SPos) (fun q => Ret (if Nat.eqb wl (length (hs_ops q)) then [q] else [])).
(** constructor, 84-108; [p] is the party's index *)
Fixpoint party_levels (fuel : nat) (sc : scenario) (p : nat) (lens : list nat) (acc : party_osg) : res party_osg :=
  match lens with
  | [] => Ret acc
  | wl :: lens' =>
      bind (moi_run fuel wl (party_size (the_party sc p)) (op_offset sc p)) (fun ws =>
      bind (res_flat_map (keep_full_length sc wl) ws) (fun new =>
      let seqs := po_seqs acc ++ new in
      party_levels fuel sc p lens' (mk_posg seqs (po_bounds acc ++ [length seqs]))))
  end.
Definition make_party_osg (fuel : nat) (sc : scenario) (p max_len : nat) : res party_osg :=
  party_levels fuel sc p (seq 1 max_len) (mk_posg [hseq_const false] [1]).
(** operator[], 110-119; [Err] = index past the boundaries (assert) *)
Definition posg_slice (o : party_osg) (wl : nat) : res (list hseq) :=
  match nth_error (po_bounds o) wl with
  | None => Err
  | Some last_elem =>
      let first_elem := if Nat.ltb 0 wl then nth (wl - 1) (po_bounds o) 0 else 0 in
      Ret (firstn (last_elem - first_elem) (skipn first_elem (po_seqs o)))
  end.
(** get_party_spans, 26-38 *)
Fixpoint party_spans (parties : list party_osg) (lens : list nat) : res (list (list hseq)) :=
  match parties, lens with
  | [], _ => Ret []
  | o :: parties', wl :: lens' => bind (posg_slice o wl) (fun s => bind (party_spans parties' lens') (fun r => Ret (s :: r)))
  | _ :: _, [] => Err
  end.
(** the copying loop 65-70; [Err] = writing past the buffer, or an index out of range *)
Definition copy_at (buf src : word) (offset : nat) : res word :=
  if Nat.leb (offset + length src) (length buf) then Ret (firstn offset buf ++ src ++ skipn (offset + length src) buf) else Err.
Fixpoint concat_into (buf : word) (offset : nat) (spans : list (list hseq)) (indices : list nat) : res word :=
  match spans, indices with
  | [], _ => Ret buf
  | s :: spans', i :: indices' =>
      match nth_error s i with
      | None => Err
      | Some q => bind (copy_at buf (hs_ops q) offset) (fun buf' => concat_into buf' (offset + length (hs_ops q)) spans' indices')
      end
  | _ :: _, [] => Err
  end.
(** tensor_populate, 49-80; [buf] is next_seq, reused between iterations *)
Fixpoint tensor_loop (sc : scenario) (spans : list (list hseq)) (buf : word) (idx : list (list nat)) : res (list hseq) :=
  match idx with
  | [] => Ret []
  | i :: idx' =>
      bind (concat_into buf 0 spans i) (fun buf' =>
      bind (tensor_loop sc spans buf' idx') (fun r => Ret (mk_hseq (hash (loc_radix sc) buf') buf' SPos :: r)))
  end.
Definition tensor_populate (fuel : nat) (sc : scenario) (spans : list (list hseq)) (wl : nat) : res (list hseq) :=
  bind (mdi_run fuel (map (@length hseq) spans)) (tensor_loop sc spans (repeat 0 wl)).
(** populate_general, 158-185 *)
Definition populate_general (fuel : nat) (sc : scenario) (parties : list party_osg) (max_len : nat) : res (list hseq) :=
  if Nat.leb max_len 0 then Ret [hseq_const false]
  else bind (res_flat_map (fun o => posg_slice o 1) parties) (fun level1 =>
       if Nat.leb max_len 1 then Ret (hseq_const false :: level1)
       else bind (res_flat_map (fun wl =>
                    bind (mpi_run_rev fuel wl (length parties)) (res_flat_map (fun lens =>
                    bind (party_spans parties lens) (fun spans => tensor_populate fuel sc spans wl))))
                  (seq 2 (max_len - 1))) (fun rest =>
            Ret (hseq_const false :: level1 ++ rest))).
Fixpoint all_party_osgs (fuel : nat) (sc : scenario) (max_len : nat) (ps : list nat) : res (list party_osg) :=
  match ps with
  | [] => Ret []
  | p :: ps' => bind (make_party_osg fuel sc p max_len) (fun o => bind (all_party_osgs fuel sc max_len ps') (fun r => Ret (o :: r)))
  end.
(** constructor 122-144, with populate_zero_parties 146-149 and populate_one_party 151-156 *)
Definition locality_osg (fuel : nat) (sc : scenario) (max_len : nat) : res (list hseq) :=
  bind (all_party_osgs fuel sc max_len (seq 0 (length sc))) (fun parties =>
  match parties with
  | [] => Ret [hseq_const false]
  | [o] => Ret (po_seqs o)
  | _ => populate_general fuel sc parties max_len
  end).
