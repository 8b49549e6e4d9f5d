(** C27, any count: + and - of the UTF input iterators move by characters. *)
From Verif Require Import Base Utf UtfSpec UtfMove.
Local Open Scope N_scope.

(** From character [i] of a text in UTF-8: + [n] gives the iterator on
    character [i + n], or at the end of the text; - [n] the one on character
    [i - n], and more than [i] steps back leave the buffer. *)
Theorem C27_utf8_moves_by_characters : forall cps n i s, Forall (fun c => c <= 0x10ffff) cps -> stands utf8 cps i s ->
  (exists s', u8_plus (concat (map utf8 cps)) s n = Ok s' /\ stands utf8 cps (Nat.min (i + n) (List.length cps)) s') /\
  ((n <= i)%nat -> exists s', u8_minus (concat (map utf8 cps)) s n = Ok s' /\ stands utf8 cps (i - n) s') /\
  ((i < n)%nat -> u8_minus (concat (map utf8 cps)) s n = UB).
Proof. exact u8_moves. Qed.
Print Assumptions C27_utf8_moves_by_characters.

(** The constructor stands on the first character. *)
Theorem C27_utf8_starts_at_the_first : forall cps, Forall (fun c => c <= 0x10ffff) cps ->
  exists s, u8_begin (concat (map utf8 cps)) 0 = Ok s /\ stands utf8 cps 0 s.
Proof. exact u8_stands_first. Qed.
Print Assumptions C27_utf8_starts_at_the_first.

(** The same for UTF-16. *)
Theorem C27_utf16_moves_by_characters : forall cps n i s, Forall scalar cps -> stands utf16 cps i s ->
  (exists s', u16_plus (concat (map utf16 cps)) s n = Ok s' /\ stands utf16 cps (Nat.min (i + n) (List.length cps)) s') /\
  ((n <= i)%nat -> exists s', u16_minus (concat (map utf16 cps)) s n = Ok s' /\ stands utf16 cps (i - n) s') /\
  ((i < n)%nat -> u16_minus (concat (map utf16 cps)) s n = UB).
Proof. exact u16_moves. Qed.
Print Assumptions C27_utf16_moves_by_characters.

Theorem C27_utf16_starts_at_the_first : forall cps, Forall scalar cps ->
  exists s, u16_begin (concat (map utf16 cps)) 0 = Ok s /\ stands utf16 cps 0 s.
Proof. exact u16_stands_first. Qed.
Print Assumptions C27_utf16_starts_at_the_first.

(** A, the euro sign, a grinning face, e acute: two on, three back, one too
    many back. *)
Definition four : list N := [0x41; 0x20ac; 0x1f600; 0xe9].
Definition show (x : res uin) : res (nat * N) := do s <- x; Ok (u_it s, u_char s).
Example C27_moves_case : Forall (fun c => c <= 0x10ffff) four /\ Forall scalar four /\
  stands utf8 four 1 {| u_it := 1; u_end := 4; u_char := 0x20ac |} /\
  show (u8_plus (concat (map utf8 four)) {| u_it := 1; u_end := 4; u_char := 0x20ac |} 2) = Ok (8%nat, 0xe9) /\
  show (u8_minus (concat (map utf8 four)) {| u_it := 8; u_end := 10; u_char := 0xe9 |} 3) = Ok (0%nat, 0x41) /\
  u8_minus (concat (map utf8 four)) {| u_it := 8; u_end := 10; u_char := 0xe9 |} 4 = UB /\
  show (u16_plus (concat (map utf16 four)) {| u_it := 1; u_end := 2; u_char := 0x20ac |} 2) = Ok (4%nat, 0xe9) /\
  show (u16_minus (concat (map utf16 four)) {| u_it := 4; u_end := 5; u_char := 0xe9 |} 2) = Ok (1%nat, 0x20ac) /\
  u16_minus (concat (map utf16 four)) {| u_it := 4; u_end := 5; u_char := 0xe9 |} 4 = UB.
Proof.
  split; [unfold four; repeat (apply Forall_cons; [lia|]); apply Forall_nil|].
  split; [unfold four, scalar; repeat (apply Forall_cons; [lia|]); apply Forall_nil|].
  split; [|repeat split; vm_compute; reflexivity].
  unfold stands. split; [cbn; lia|]. repeat split; reflexivity.
Qed.
