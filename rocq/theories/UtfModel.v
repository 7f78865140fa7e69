(** Conversion between UTF-16 and UTF-8: utilities/utf_conversion.cpp.  Code units are numbers (below 2^16 and 2^8). *)
From Coq Require Import List NArith Arith Bool.
Import ListNotations.
Local Open Scope N_scope.

(** UTF16toUTF8Convertor::size_in_utf8 (15-29) *)
Definition unit_size_in_utf8 (e : N) : nat :=
  if e <? 0x7f then 1%nat else if e <=? 0x7ff then 2%nat else if (0xd800 <=? e) && (e <=? 0xdfff) then 2%nat else 3%nat.
Definition size_in_utf8 (l : list N) : nat := fold_left (fun n e => (n + unit_size_in_utf8 e)%nat) l 0%nat.
(** UTF16toUTF8Convertor::convert_as_ascii (32-41), UTF8toUTF16Convertor::convert_as_ascii (176-185) *)
Definition as_ascii (l : list N) : list N := map (fun e => N.land e 0x7f) l.

(** the loop of UTF16toUTF8Convertor::convert (61-132): one unit (63-95) *)
Definition direct_bytes (s : N) : option (list N) :=
  if s <=? 0x7f then Some [N.land s 0x7f]
  else if negb (N.land s 0xf800 =? 0xd800) then
    if s <=? 0x7ff then Some [N.lor 0xc0 (N.shiftr (N.land 0x7c0 s) 6); N.lor 0x80 (N.land 0x3f s)]
    else Some [N.lor 0xe0 (N.shiftr (N.land 0xf000 s) 12); N.lor 0x80 (N.shiftr (N.land 0xfc0 s) 6); N.lor 0x80 (N.land 0x3f s)]
  else None.
(** a surrogate pair (100-125) *)
Definition is_pair (s low : N) : bool := (N.land s 0xfc00 =? 0xd800) && (N.land low 0xfc00 =? 0xdc00).
Definition pair_bytes (s low : N) : list N :=
  let high := N.land s 0x3ff + 0x40 in
  [N.lor 0xf0 (N.shiftr (N.land high 0x300) 8); N.lor 0x80 (N.shiftr (N.land high 0xfc) 2);
   N.lor 0x80 (N.lor (N.shiftl (N.land high 0x3) 4) (N.shiftr (N.land low 0x3c0) 6)); N.lor 0x80 (N.land low 0x3f)].
Fixpoint utf8_bytes (l : list N) : list N :=
  match l with
  | [] => []
  | s :: r =>
      match direct_bytes s with
      | Some b => b ++ utf8_bytes r
      | None =>
          match r with
          | low :: r' => if is_pair s low then pair_bytes s low ++ utf8_bytes r' else 0 :: 0 :: utf8_bytes r (* unmatched surrogate (127-131) *)
          | [] => [0; 0]
          end
      end
  end.
(** a string of [n] zeros of which the first are overwritten; [None]: a write beyond the end *)
Definition written (n : nat) (l : list N) : option (list N) := if (length l <=? n)%nat then Some (l ++ repeat 0 (n - length l)) else None.
(** UTF16toUTF8Convertor::convert (43-135) *)
Definition to_utf8 (l : list N) : option (list N) :=
  let n := size_in_utf8 l in if (length l =? n)%nat then Some (as_ascii l) else written n (utf8_bytes l).

(** UTF8toUTF16Convertor::size_in_utf16 (137-173): how many bytes are skipped and units announced for a lead byte *)
Definition lead_skip (e : N) : nat * nat :=
  if N.land e 0x80 =? 0 then (1, 1)%nat else if N.land e 0xe0 =? 0xc0 then (2, 1)%nat else if N.land e 0xf0 =? 0xe0 then (3, 1)%nat
  else if N.land e 0xf8 =? 0xf0 then (4, 2)%nat else (1, 1)%nat.
Fixpoint size_in_utf16_loop (fuel : nat) (l : list N) : nat :=
  match fuel, l with
  | S fuel', e :: _ => (snd (lead_skip e) + size_in_utf16_loop fuel' (skipn (fst (lead_skip e)) l))%nat
  | _, _ => 0%nat
  end.
Definition size_in_utf16 (l : list N) : nat := size_in_utf16_loop (length l) l.
(** the loop of UTF8toUTF16Convertor::convert (202-268) *)
Definition two_bytes (a b : N) : N := N.lor (N.shiftl (N.land 0x1f a) 6) (N.land 0x3f b).
Definition three_bytes (a b c : N) : N := N.lor (N.lor (N.shiftl (N.land a 0x0f) 12) (N.shiftl (N.land b 0x3f) 6)) (N.land c 0x3f).
(** both surrogates are converted to 16 bits: 0x0040 is subtracted modulo 2^16 *)
Definition four_bytes (a b c d : N) : list N :=
  let b1 := N.land a 0x03 in let b2 := N.land b 0x3f in let b3 := N.land c 0x3f in let b4 := N.land d 0x3f in
  [(N.lor (N.lor (N.lor 0xd800 (N.shiftl b1 8)) (N.shiftl b2 2)) (N.shiftr (N.land b3 0x30) 4) + (0x10000 - 0x40)) mod 0x10000;
   N.lor (N.lor 0xdc00 (N.shiftl (N.land b3 0x0f) 6)) b4].
Fixpoint utf16_units (l : list N) : list N :=
  match l with
  | [] => []
  | a :: r =>
      if N.land a 0x80 =? 0 then a :: utf16_units r
      else if N.land a 0xe0 =? 0xc0 then match r with b :: r' => two_bytes a b :: utf16_units r' | [] => [] end
      else if N.land a 0xf0 =? 0xe0 then match r with b :: c :: r' => three_bytes a b c :: utf16_units r' | _ => [] end
      else if N.land a 0xf8 =? 0xf0 then match r with b :: c :: d :: r' => four_bytes a b c d ++ utf16_units r' | _ => [] end
      else utf16_units r
  end.
(** UTF8toUTF16Convertor::convert (187-274) *)
Definition to_utf16 (l : list N) : option (list N) :=
  let n := size_in_utf16 l in if (length l =? n)%nat then Some (as_ascii l) else written n (utf16_units l).
