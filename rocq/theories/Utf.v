(** Model of include/lexertl/utf_iterators.hpp. An underlying iterator is an
    index into a buffer [buf] whose end is [length buf]; reading at or past the
    end is [UB]. Bytes are [N] below 256 ([char] may be signed in C++; every
    use masks the value, so only the low 8 bits matter). Simplification:
    char_type is wide enough for 21 bits (char32_t, or 32 bit wchar_t). The
    post-increment operators, which return a copy and do the same update, are
    not modelled separately. *)
From Verif Require Import Base.
Local Open Scope N_scope.

(** Dereference an underlying iterator. *)
Definition deref (buf : list N) (i : nat) : res N := of_opt (nth_error buf i).

(** utf_iterators.hpp:116-119: the members of basic_utf8_in_iterator. *)
Record uin := { u_it : nat; u_end : nat; u_char : N }.

(** utf_iterators.hpp:224-242: len(). *)
Definition u8_len (b : N) : N :=
  if b <? 0x80 then 1
  else if N.land b 0xe0 =? 0xc0 then 2
  else if N.land b 0xf0 =? 0xe0 then 3
  else if N.land b 0xf8 =? 0xf0 then 4
  else 127.

(** utf_iterators.hpp:157-161 (repeated at 172-176, 181-185, 196-200, 205-209,
    214-218): the checks made before using the byte at [_end]. *)
Definition u8_cont (buf : list N) (e : nat) : res N :=
  if Nat.eqb e (length buf) then Throw ETruncatedUtf
  else do b <- deref buf e;
       if N.land b 0xc0 =? 0x80 then Ok b else Throw EInvalidUtf.

(** utf_iterators.hpp:152-165: next2(). *)
Definition u8_next2 (buf : list N) (it : nat) (ch : N) : res uin :=
  do b <- u8_cont buf (it + 1);
  Ok {| u_it := it; u_end := it + 2;
        u_char := N.lor (N.land (N.shiftl ch 6) 0x7ff) (N.land b 0x3f) |}.

(** utf_iterators.hpp:167-189: next3(). *)
Definition u8_next3 (buf : list N) (it : nat) (ch : N) : res uin :=
  do b <- u8_cont buf (it + 1);
  let ch1 := N.lor (N.land (N.shiftl ch 12) 0xffff)
                   (N.land (N.shiftl (N.land b 0xff) 6) 0xfff) in
  do b2 <- u8_cont buf (it + 2);
  Ok {| u_it := it; u_end := it + 3; u_char := N.lor ch1 (N.land b2 0x3f) |}.

(** utf_iterators.hpp:191-222: next4(). *)
Definition u8_next4 (buf : list N) (it : nat) (ch : N) : res uin :=
  do b <- u8_cont buf (it + 1);
  let ch1 := N.lor (N.land (N.shiftl ch 18) 0x1fffff)
                   (N.land (N.shiftl (N.land b 0xff) 12) 0x3ffff) in
  do b2 <- u8_cont buf (it + 2);
  let ch2 := N.lor ch1 (N.land (N.shiftl (N.land b2 0xff) 6) 0xfff) in
  do b3 <- u8_cont buf (it + 3);
  Ok {| u_it := it; u_end := it + 4; u_char := N.lor ch2 (N.land b3 0x3f) |}.

(** utf_iterators.hpp:121-150: next(). *)
Definition u8_next (buf : list N) (s : uin) : res uin :=
  if Nat.eqb (u_it s) (length buf) then Ok s
  else
    do b <- deref buf (u_it s);
    let ch := N.land b 0xff in
    match u8_len b with
    | 1 => Ok {| u_it := u_it s; u_end := u_it s + 1; u_char := ch |}
    | 2 => u8_next2 buf (u_it s) ch
    | 3 => u8_next3 buf (u_it s) ch
    | 4 => u8_next4 buf (u_it s) ch
    | _ => Throw EInvalidUtf
    end.

(** utf_iterators.hpp:32-39: the constructor. *)
Definition u8_begin (buf : list N) (i : nat) : res uin :=
  u8_next buf {| u_it := i; u_end := i; u_char := 0 |}.

(** utf_iterators.hpp:64-69: operator++. *)
Definition u8_incr (buf : list N) (s : uin) : res uin :=
  u8_next buf {| u_it := u_end s; u_end := u_end s; u_char := u_char s |}.

(** utf_iterators.hpp:80-91: operator+. *)
Fixpoint u8_plus (buf : list N) (s : uin) (n : nat) : res uin :=
  match n with
  | O => Ok s
  | S n' => do s' <- u8_incr buf s; u8_plus buf s' n'
  end.

(** utf_iterators.hpp:103: the inner while loop of operator-; decrementing the
    begin iterator is UB. *)
Fixpoint u8_back (buf : list N) (i : nat) : res nat :=
  do b <- deref buf i;
  if N.land b 0xc0 =? 0x80 then
    match i with O => UB | S i' => u8_back buf i' end
  else Ok i.

(** utf_iterators.hpp:98-104: the for loop of operator-. *)
Fixpoint u8_minus_loop (buf : list N) (s : uin) (n : nat) : res uin :=
  match n with
  | O => Ok s
  | S n' =>
    match u_it s with
    | O => UB
    | S i => do j <- u8_back buf i;
             u8_minus_loop buf {| u_it := j; u_end := u_it s; u_char := u_char s |} n'
    end
  end.

(** utf_iterators.hpp:93-108: operator-. *)
Definition u8_minus (buf : list N) (s : uin) (n : nat) : res uin :=
  do s' <- u8_minus_loop buf s n; u8_next buf s'.

(** The client loop [for (; iter != end; ++iter) take the current char], where
    end is basic_utf8_in_iterator(eoi, eoi). *)
Fixpoint u_collect (incr : uin -> res uin) (e : nat) (fuel : nat) (s : uin)
    : res (list N) :=
  if Nat.eqb (u_it s) e then Ok []
  else match fuel with
       | O => Fuel
       | S f => do s' <- incr s; do l <- u_collect incr e f s'; Ok (u_char s :: l)
       end.

Definition u8_decode (buf : list N) : res (list N) :=
  do s <- u8_begin buf 0; u_collect (u8_incr buf) (length buf) (length buf) s.

(** utf_iterators.hpp:324-328: the members of basic_utf8_out_iterator and (with
    two elements in the array) of basic_utf16_out_iterator, 585-589. *)
Record uout := { o_it : nat; o_bytes : list N; o_count : nat; o_index : nat }.

(** utf_iterators.hpp:365-377: len(). *)
Definition u8_olen (ch : N) : nat :=
  if ch <? 0x80 then 1 else if ch <? 0x800 then 2 else if ch <? 0x10000 then 3 else 4%nat.

(** static_cast<char>. *)
Definition byte (x : N) : N := N.land x 0xff.

(** utf_iterators.hpp:340-362: the switch of next(); unused array cells keep
    their old values. *)
Definition u8_obytes (ch : N) (old : list N) : list N :=
  match u8_olen ch with
  | 1%nat => upd old 0 (byte ch)
  | 2%nat => upd (upd old 0 (byte (N.lor (N.shiftr ch 6) 0xc0)))
                 1 (byte (N.lor (N.land ch 0x3f) 0x80))
  | 3%nat => upd (upd (upd old 0 (byte (N.lor (N.shiftr ch 12) 0xe0)))
                      1 (byte (N.lor (N.land (N.shiftr ch 6) 0x3f) 0x80)))
                 2 (byte (N.lor (N.land ch 0x3f) 0x80))
  | _ => upd (upd (upd (upd old 0 (byte (N.lor (N.shiftr ch 18) 0xf0)))
                           1 (byte (N.lor (N.land (N.shiftr ch 12) 0x3f) 0x80)))
                      2 (byte (N.lor (N.land (N.shiftr ch 6) 0x3f) 0x80)))
                 3 (byte (N.lor (N.land ch 0x3f) 0x80))
  end.

(** utf_iterators.hpp:330-363 and 591-614: next(), given len() and the switch. *)
Definition uo_next (len : N -> nat) (enc : N -> list N -> list N)
    (buf : list N) (s : uout) : res uout :=
  if Nat.eqb (o_it s) (length buf) then Ok s
  else do ch <- deref buf (o_it s);
       Ok {| o_it := o_it s; o_bytes := enc ch (o_bytes s);
             o_count := len ch; o_index := 0 |}.

(** utf_iterators.hpp:270-276: constructor; [junk] is the uninitialised array. *)
Definition uo_begin len enc buf (junk : list N) : res uout :=
  uo_next len enc buf {| o_it := 0; o_bytes := junk; o_count := 0; o_index := 0 |}.

(** utf_iterators.hpp:295-306 and 556-567: operator++. *)
Definition uo_incr len enc (buf : list N) (s : uout) : res uout :=
  let i := S (o_index s) in
  if Nat.leb (o_count s) i then
    uo_next len enc buf {| o_it := S (o_it s); o_bytes := o_bytes s;
                           o_count := o_count s; o_index := i |}
  else Ok {| o_it := o_it s; o_bytes := o_bytes s; o_count := o_count s; o_index := i |}.

(** utf_iterators.hpp:278-281: operator*. *)
Definition uo_deref (s : uout) : res N := of_opt (nth_error (o_bytes s) (o_index s)).

(** The client loop over an output iterator. *)
Fixpoint uo_collect len enc (buf : list N) (fuel : nat) (s : uout) : res (list N) :=
  if Nat.eqb (o_it s) (length buf) then Ok []
  else match fuel with
       | O => Fuel
       | S f => do c <- uo_deref s; do s' <- uo_incr len enc buf s;
                do l <- uo_collect len enc buf f s'; Ok (c :: l)
       end.

Definition u8_encode (buf junk : list N) : res (list N) :=
  do s <- uo_begin u8_olen u8_obytes buf junk;
  uo_collect u8_olen u8_obytes buf (4 * length buf) s.

(** utf_iterators.hpp:473-503: basic_utf16_in_iterator::next(). *)
Definition u16_next (buf : list N) (s : uin) : res uin :=
  if Nat.eqb (u_it s) (length buf) then Ok s
  else
    do c <- deref buf (u_it s);
    if (c <? 0xd800) || (0xdfff <? c) then
      Ok {| u_it := u_it s; u_end := u_it s + 1; u_char := c |}
    else if 0xdbff <? c then Throw EInvalidUtf
    else
      let ch := N.shiftl (c - 0xd800) 10 in
      if Nat.eqb (u_it s + 1) (length buf) then Throw ETruncatedUtf
      else
        do d <- deref buf (u_it s + 1);
        if (d <? 0xdc00) || (0xdfff <? d) then Throw EInvalidUtf
        else Ok {| u_it := u_it s; u_end := u_it s + 2;
                   u_char := N.lor ch (d - 0xdc00) + 0x10000 |}.

(** utf_iterators.hpp:395-402, 421-426. *)
Definition u16_begin (buf : list N) (i : nat) : res uin :=
  u16_next buf {| u_it := i; u_end := i; u_char := 0 |}.
Definition u16_incr (buf : list N) (s : uin) : res uin :=
  u16_next buf {| u_it := u_end s; u_end := u_end s; u_char := u_char s |}.
Definition u16_decode (buf : list N) : res (list N) :=
  do s <- u16_begin buf 0; u_collect (u16_incr buf) (length buf) (length buf) s.

(** utf_iterators.hpp:450-465: basic_utf16_in_iterator operator-. *)
Fixpoint u16_minus_loop (buf : list N) (s : uin) (n : nat) : res uin :=
  match n with
  | O => Ok s
  | S n' =>
    match u_it s with
    | O => UB
    | S i =>
      do c <- deref buf i;
      if (0xdc00 <=? c) && (c <=? 0xdfff) then
        match i with
        | O => UB
        | S j => u16_minus_loop buf {| u_it := j; u_end := u_it s; u_char := u_char s |} n'
        end
      else u16_minus_loop buf {| u_it := i; u_end := u_it s; u_char := u_char s |} n'
    end
  end.
Definition u16_minus (buf : list N) (s : uin) (n : nat) : res uin :=
  do s' <- u16_minus_loop buf s n; u16_next buf s'.

(** utf_iterators.hpp:616-619: len(). *)
Definition u16_olen (ch : N) : nat := if 0xffff <? ch then 2%nat else 1%nat.

(** utf_iterators.hpp:601-613: the switch of next(); static_cast to a 16 bit
    type keeps the low 16 bits. *)
Definition u16_ochars (ch : N) (old : list N) : list N :=
  match u16_olen ch with
  | 1%nat => upd old 0 (N.land ch 0xffff)
  | _ => upd (upd old 0 (N.land (N.shiftr (ch - 0x10000) 10 + 0xd800) 0xffff))
             1 (N.land (N.land ch 0x3ff + 0xdc00) 0xffff)
  end.
Definition u16_encode (buf junk : list N) : res (list N) :=
  do s <- uo_begin u16_olen u16_ochars buf junk;
  uo_collect u16_olen u16_ochars buf (2 * length buf) s.

(** utf_iterators.hpp:643-655: basic_flip_iterator::operator* on the object
    representation of the value: the bytes at [i] and [j] are swapped while
    i < j. *)
Definition swap_at (l : list N) (i j : nat) : list N :=
  upd (upd l i (nth j l 0)) j (nth i l 0).
Fixpoint flip_loop (fuel : nat) (l : list N) (i j : nat) : res (list N) :=
  if Nat.ltb i j then
    match fuel with
    | O => Fuel
    | S f => flip_loop f (swap_at l i j) (S i) (j - 1)
    end
  else Ok l.
Definition flip_bytes (l : list N) : res (list N) :=
  flip_loop (length l) l 0 (length l - 1).

(** Object representation of an unsigned value of [w] bytes (little endian; a
    big endian representation is its reversal and gives the same result). *)
Fixpoint to_bytes (w : nat) (v : N) : list N :=
  match w with O => [] | S w' => v mod 256 :: to_bytes w' (v / 256) end.
Fixpoint of_bytes (l : list N) : N :=
  match l with [] => 0 | b :: l' => b + 256 * of_bytes l' end.
Definition flip (w : nat) (v : N) : res N :=
  do l <- flip_bytes (to_bytes w v); Ok (of_bytes l).
