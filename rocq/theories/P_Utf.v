(** Properties C24-C27 and C45: UTF and byte flipping iterators. *)
From Verif Require Import Base Utf UtfSpec UtfProofs.
Local Open Scope N_scope.

(** C24: iterating over the UTF-8 encoding of code points yields them. *)
Theorem C24_utf8_in_decodes : forall cps,
  Forall (fun c => c <= 0x10ffff) cps -> u8_decode (concat (map utf8 cps)) = Ok cps.
Proof. exact u8_decode_correct. Qed.
Print Assumptions C24_utf8_in_decodes.

(** C24, error part: on any bytes the iteration never reads outside the buffer
    and always ends; it succeeds exactly on concatenations of sequences made of
    a lead byte and its continuation bytes, and throws on everything else. *)
Theorem C24_utf8_in_total : forall buf, Forall (fun b => b < 256) buf ->
  match u8_decode buf with
  | Ok cs => exists chunks, buf = concat chunks /\ Forall u8_shape chunks /\ cs = map u8_val chunks
  | Throw _ => ~ exists chunks, buf = concat chunks /\ Forall u8_shape chunks
  | _ => False
  end.
Proof. exact u8_decode_total. Qed.
Print Assumptions C24_utf8_in_total.

Example C24_nonvacuous :
  concat (map utf8 [0x41; 0x7ff; 0x20ac; 0x10ffff])
    = [0x41; 0xdf; 0xbf; 0xe2; 0x82; 0xac; 0xf4; 0x8f; 0xbf; 0xbf] /\
  u8_decode [0x41; 0xdf; 0xbf; 0xe2; 0x82; 0xac; 0xf4; 0x8f; 0xbf; 0xbf]
    = Ok [0x41; 0x7ff; 0x20ac; 0x10ffff] /\
  u8_decode [0x41; 0xe2; 0x82] = Throw ETruncatedUtf /\
  u8_decode [0x41; 0x82] = Throw EInvalidUtf.
Proof. repeat split; vm_compute; reflexivity. Qed.

(** C25 *)
Theorem C25_utf8_out_encodes : forall cps junk,
  Forall (fun c => c <= 0x10ffff) cps -> length junk = 4%nat ->
  u8_encode cps junk = Ok (concat (map utf8 cps)).
Proof. exact u8_encode_correct. Qed.
Print Assumptions C25_utf8_out_encodes.

Theorem C25_utf8_out_in_round_trip : forall cps junk,
  Forall (fun c => c <= 0x10ffff) cps -> length junk = 4%nat ->
  (do bs <- u8_encode cps junk; u8_decode bs) = Ok cps.
Proof.
  exact (fun cps junk H Hj => eq_trans
    (f_equal (fun r => do bs <- r; u8_decode bs) (u8_encode_correct cps junk H Hj))
    (u8_decode_correct cps H)).
Qed.
Print Assumptions C25_utf8_out_in_round_trip.

Example C25_nonvacuous :
  u8_encode [0x41; 0x7ff; 0x20ac; 0x10ffff] [1; 2; 3; 4]
    = Ok [0x41; 0xdf; 0xbf; 0xe2; 0x82; 0xac; 0xf4; 0x8f; 0xbf; 0xbf].
Proof. vm_compute; reflexivity. Qed.

(** C26 *)
Theorem C26_utf16_in_decodes : forall cps,
  Forall scalar cps -> u16_decode (concat (map utf16 cps)) = Ok cps.
Proof. exact u16_decode_correct. Qed.
Print Assumptions C26_utf16_in_decodes.

Theorem C26_utf16_out_encodes : forall cps junk,
  Forall (fun c => c <= 0x10ffff) cps -> length junk = 2%nat ->
  u16_encode cps junk = Ok (concat (map utf16 cps)).
Proof. exact u16_encode_correct. Qed.
Print Assumptions C26_utf16_out_encodes.

Theorem C26_utf16_out_in_round_trip : forall cps junk,
  Forall scalar cps -> length junk = 2%nat ->
  (do us <- u16_encode cps junk; u16_decode us) = Ok cps.
Proof. exact u16_round_trip. Qed.
Print Assumptions C26_utf16_out_in_round_trip.

(** Lone and truncated surrogates throw; nothing is read outside the buffer. *)
Theorem C26_utf16_in_total : forall buf,
  match u16_decode buf with
  | Ok cs => exists chunks, buf = concat chunks /\ Forall u16_shape chunks /\ cs = map u16_val chunks
  | Throw _ => ~ exists chunks, buf = concat chunks /\ Forall u16_shape chunks
  | _ => False
  end.
Proof. exact u16_decode_total. Qed.
Print Assumptions C26_utf16_in_total.

Example C26_nonvacuous :
  Forall scalar [0x41; 0xe000; 0x10000; 0x10ffff] /\
  u16_encode [0x41; 0xe000; 0x10000; 0x10ffff] [7; 7]
    = Ok [0x41; 0xe000; 0xd800; 0xdc00; 0xdbff; 0xdfff] /\
  u16_decode [0x41; 0xe000; 0xd800; 0xdc00; 0xdbff; 0xdfff]
    = Ok [0x41; 0xe000; 0x10000; 0x10ffff] /\
  u16_decode [0xd800] = Throw ETruncatedUtf /\ u16_decode [0xdc00] = Throw EInvalidUtf.
Proof. split; [|repeat split; vm_compute; reflexivity]. unfold scalar; repeat constructor; lia. Qed.

(** C27: anywhere in well formed UTF-8, ++ followed by - 1 gives back the same
    iterator (all three members) and ++ did move. *)
Theorem C27_utf8_minus_undoes_increment : forall pre chunk post,
  Forall u8_shape pre -> u8_shape chunk -> Forall u8_shape post ->
  Forall (fun b => b < 256) (concat pre ++ chunk ++ concat post) ->
  let buf := concat pre ++ chunk ++ concat post in
  exists s s' s'',
    u8_begin buf (length (concat pre)) = Ok s /\
    u8_incr buf s = Ok s' /\ u8_minus buf s' 1 = Ok s'' /\
    u_it s'' = u_it s /\ u_end s'' = u_end s /\ u_char s'' = u_char s /\ u_it s' <> u_it s.
Proof. exact u8_minus_undoes_incr. Qed.
Print Assumptions C27_utf8_minus_undoes_increment.

(** The encodings of code points have the shape C27 asks for. *)
Theorem C27_encodings_are_well_formed : forall c, c <= 0x10ffff ->
  u8_shape (utf8 c) /\ Forall (fun b => b < 256) (utf8 c) /\ u8_val (utf8 c) = c.
Proof. exact utf8_shape. Qed.
Print Assumptions C27_encodings_are_well_formed.

(** Same for UTF-16. *)
Theorem C27_utf16_minus : forall pre chunk post e ch,
  u16_shape chunk ->
  u16_minus (pre ++ chunk ++ post)
    {| u_it := length (pre ++ chunk); u_end := e; u_char := ch |} 1
  = Ok {| u_it := length pre; u_end := length (pre ++ chunk); u_char := u16_val chunk |}.
Proof. exact u16_minus_one. Qed.
Print Assumptions C27_utf16_minus.

(** Back over the three bytes of U+20AC, and over a pair of surrogates. *)
Definition euro : list N := concat [[0x41]] ++ [0xe2; 0x82; 0xac] ++ concat [[0xc3; 0xa9]].
Example C27_case : Forall u8_shape [[0x41]] /\ u8_shape [0xe2; 0x82; 0xac] /\ Forall u8_shape [[0xc3; 0xa9]] /\ Forall (fun b => b < 256) euro /\
  (do s <- u8_begin euro 1; do s' <- u8_incr euro s; do s'' <- u8_minus euro s' 1; Ok (u_char s, u_it s, u_char s', u_it s', u_char s'', u_it s'')) =
    Ok (0x20ac, 1%nat, 0xe9, 4%nat, 0x20ac, 1%nat) /\
  u16_shape [0xd83d; 0xde00] /\
  u16_minus ([0x41] ++ [0xd83d; 0xde00] ++ [0x42]) {| u_it := 3; u_end := 4; u_char := 0x42 |} 1 = Ok {| u_it := 1; u_end := 3; u_char := 0x1f600 |}.
Proof.
  split; [repeat constructor|]. split; [cbn; unfold cont_byte; lia|]. split; [repeat constructor; cbn; unfold cont_byte; lia|].
  split; [unfold euro; cbn; repeat constructor|]. split; [vm_compute; reflexivity|]. split; [cbn; lia|]. vm_compute. reflexivity.
Qed.

(** C45 *)
Theorem C45_flip_reverses_and_is_involutive : forall w v, v < 256 ^ N.of_nat w ->
  exists u, flip w v = Ok u /\ to_bytes w u = rev (to_bytes w v) /\ flip w u = Ok v.
Proof. exact flip_involutive. Qed.
Print Assumptions C45_flip_reverses_and_is_involutive.

Example C45_nonvacuous : flip 2 0x1234 = Ok 0x3412 /\ flip 4 0x12345678 = Ok 0x78563412.
Proof. split; vm_compute; reflexivity. Qed.
