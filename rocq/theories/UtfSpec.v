(** Independent definition of UTF-8 and UTF-16 (Unicode standard, D90-D92),
    by arithmetic rather than bit operations. *)
From Verif Require Import Base.
Local Open Scope N_scope.

Definition scalar (c : N) : Prop := c < 0xd800 \/ 0xe000 <= c <= 0x10ffff.

Definition utf8 (c : N) : list N :=
  if c <? 0x80 then [c]
  else if c <? 0x800 then [192 + c / 64; 128 + c mod 64]
  else if c <? 0x10000 then [224 + c / 4096; 128 + c / 64 mod 64; 128 + c mod 64]
  else [240 + c / 262144; 128 + c / 4096 mod 64; 128 + c / 64 mod 64; 128 + c mod 64].

Definition utf16 (c : N) : list N :=
  if c <? 0x10000 then [c]
  else [0xd800 + (c - 0x10000) / 1024; 0xdc00 + (c - 0x10000) mod 1024].

(** Shape of one UTF-8 sequence: lead byte and the right number of
    continuation bytes. *)
Definition cont_byte (b : N) : Prop := 128 <= b < 192.
Definition u8_shape (l : list N) : Prop :=
  match l with
  | [a] => a < 128
  | [a; b] => 192 <= a < 224 /\ cont_byte b
  | [a; b; c] => 224 <= a < 240 /\ cont_byte b /\ cont_byte c
  | [a; b; c; d] => 240 <= a < 248 /\ cont_byte b /\ cont_byte c /\ cont_byte d
  | _ => False
  end.

(** Shape of one UTF-16 sequence. *)
Definition u16_shape (l : list N) : Prop :=
  match l with
  | [a] => a < 0xd800 \/ 0xdfff < a
  | [a; b] => 0xd800 <= a <= 0xdbff /\ 0xdc00 <= b <= 0xdfff
  | _ => False
  end.
