(** C39: conversion between UTF-16 and UTF-8. *)
From Coq Require Import List NArith Bool.
From Verif Require Import UtfModel UtfSpec UtfProofs.
Import ListNotations.
Local Open Scope N_scope.

(** UTF-16 to UTF-8 and back gives the text again; the predicted length is exact. *)
Theorem C39_round_trip : forall cs, Forall plain cs -> ~ In 0x7f cs ->
  exists b, to_utf8 (utf16_text cs) = Some b /\ length b = size_in_utf8 (utf16_text cs) /\ to_utf16 b = Some (utf16_text cs).
Proof. exact round_trip. Qed.
Print Assumptions C39_round_trip.
(** The standard UTF-8 encoding comes out, followed by a zero for each delete character. *)
Theorem C39_to_utf8 : forall cs, Forall plain cs -> to_utf8 (utf16_text cs) = Some (utf8_text cs ++ repeat 0 (dels cs)).
Proof. exact to_utf8_spec. Qed.
Print Assumptions C39_to_utf8.
Theorem C39_to_utf16 : forall cs, Forall plain cs -> to_utf16 (utf8_text cs) = Some (utf16_text cs).
Proof. exact to_utf16_spec. Qed.
Print Assumptions C39_to_utf16.
Example C39_text : let cs := [0x41; 0xe9; 0x20ac; 0x1f600; 0xfffff] in Forall plain cs /\ ~ In 0x7f cs /\
  utf16_text cs = [0x41; 0xe9; 0x20ac; 0xd83d; 0xde00; 0xdbbf; 0xdfff] /\
  to_utf8 (utf16_text cs) = Some [0x41; 0xc3; 0xa9; 0xe2; 0x82; 0xac; 0xf0; 0x9f; 0x98; 0x80; 0xf3; 0xbf; 0xbf; 0xbf].
Proof. exact text_example. Qed.
(** Whatever the input, no write is outside the string, which gets the announced length. *)
Theorem C39_utf8_in_bounds : forall l, exists b, to_utf8 l = Some b /\ length b = size_in_utf8 l.
Proof. exact to_utf8_safe. Qed.
Print Assumptions C39_utf8_in_bounds.
Theorem C39_utf16_in_bounds : forall l, exists b, to_utf16 l = Some b /\ length b = size_in_utf16 l.
Proof. exact to_utf16_safe. Qed.
Print Assumptions C39_utf16_in_bounds.
(** A delete character gains a zero byte, which comes back as a zero unit. *)
Theorem C39_delete_refuted : exists cs, Forall scalar cs /\ to_utf8 (utf16_text cs) = Some (utf8_text cs ++ [0]) /\ to_utf16 (utf8_text cs ++ [0]) = Some (utf16_text cs ++ [0]).
Proof. exact delete_refuted. Qed.
Print Assumptions C39_delete_refuted.
(** Characters of plane 16 are converted wrongly both ways. *)
Theorem C39_plane16_refuted : exists cs, Forall scalar cs /\ to_utf8 (utf16_text cs) <> Some (utf8_text cs) /\ to_utf16 (utf8_text cs) <> Some (utf16_text cs).
Proof. exact plane16_refuted. Qed.
Print Assumptions C39_plane16_refuted.
