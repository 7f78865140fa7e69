(** The Unicode encodings, by arithmetic (RFC 3629, RFC 2781). *)
From Coq Require Import List NArith Bool.
Import ListNotations.
Local Open Scope N_scope.

(** Unicode scalar values *)
Definition scalar (c : N) : Prop := c < 0x110000 /\ ~ (0xd800 <= c < 0xe000).
(** the encodings of one scalar value *)
Definition utf16 (c : N) : list N := if c <? 0x10000 then [c] else [0xd800 + (c - 0x10000) / 0x400; 0xdc00 + (c - 0x10000) mod 0x400].
Definition utf8 (c : N) : list N :=
  if c <? 0x80 then [c]
  else if c <? 0x800 then [0xc0 + c / 0x40; 0x80 + c mod 0x40]
  else if c <? 0x10000 then [0xe0 + c / 0x1000; 0x80 + c / 0x40 mod 0x40; 0x80 + c mod 0x40]
  else [0xf0 + c / 0x40000; 0x80 + c / 0x1000 mod 0x40; 0x80 + c / 0x40 mod 0x40; 0x80 + c mod 0x40].
Definition utf16_text (cs : list N) : list N := flat_map utf16 cs.
Definition utf8_text (cs : list N) : list N := flat_map utf8 cs.
(** scalar values outside the last plane (private use) *)
Definition plain (c : N) : Prop := scalar c /\ c < 0x100000.
(** how many delete characters a text has *)
Definition dels (cs : list N) : nat := length (filter (N.eqb 0x7f) cs).
