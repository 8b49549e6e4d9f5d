(** Model of the slicing of wide character classes into byte classes:
    include/lexertl/parser/parser.hpp:460-681. The arrays of parallel vectors
    data_[2] and data_[3] are lists of pairs and triples. *)
From Verif Require Import Base StringToken.
Local Open Scope N_scope.

(** static_cast<unsigned char>. *)
Definition uchar (n : N) : N := n mod 256.

(** Conversion to unsigned char of an int that is one less than [n]. *)
Definition uchar_pred (n : N) : N := (n + 255) mod 256.

(** The three bytes of a character (482-489, 516-527). *)
Definition msb (c : N) : N := uchar (c / 65536).
Definition mid (c : N) : N := uchar (c / 256).
Definition lsb (c : N) : N := uchar c.

(** Constructor string_token(first, second) after the swap done at 588-593 and
    627-635. *)
Definition mk_range (a b : N) : stoken :=
  [(if b <? a then b else a, if b <? a then a else b)].

Definition data2 := list (stoken * stoken).
Definition data3 := list (stoken * stoken * stoken).

(** parser.hpp:598-620: insert_range(token_, token2_, data_[2]). *)
Fixpoint insert2 (t1 t2 : stoken) (d : data2) : data2 :=
  match d with
  | [] => [(t1, t2)]
  | (u1, u2) :: d' =>
    if st_eqb t1 u1 then (u1, insert_token u2 t2) :: d'
    else (u1, u2) :: insert2 t1 t2 d'
  end.

(** parser.hpp:585-596. *)
Definition insert_range16 (a b a2 b2 : N) (d : data2) : data2 :=
  insert2 (mk_range a b) (mk_range a2 b2) d.

(** parser.hpp:482-513: slice_range, 16 bit. *)
Definition slice_range16 (r : range) (d : data2) : data2 :=
  let first_msb := uchar (fst r / 256) in
  let first_lsb := uchar (fst r) in
  let second_msb := uchar (snd r / 256) in
  let second_lsb := uchar (snd r) in
  if first_msb =? second_msb then
    insert_range16 first_msb first_msb first_lsb second_lsb d
  else
    let d1 := insert_range16 first_msb first_msb first_lsb 255 d in
    let d2 := if first_msb + 1 <? second_msb then
                insert_range16 (uchar (first_msb + 1)) (uchar_pred second_msb) 0 255 d1
              else d1 in
    insert_range16 second_msb second_msb 0 second_lsb d2.

(** parser.hpp:641-681: insert_range(token_, token2_, token3_, data_[3]). *)
Fixpoint insert3 (t1 t2 t3 : stoken) (d : data3) : data3 :=
  match d with
  | [] => [(t1, t2, t3)]
  | (u1, u2, u3) :: d' =>
    if st_eqb t1 u1 && st_eqb u2 t2 then (u1, u2, insert_token u3 t3) :: d'
    else (u1, u2, u3) :: insert3 t1 t2 t3 d'
  end.

(** parser.hpp:623-639. *)
Definition insert_range24 (a b a2 b2 a3 b3 : N) (d : data3) : data3 :=
  insert3 (mk_range a b) (mk_range a2 b2) (mk_range a3 b3) d.

(** parser.hpp:516-582: slice_range, 24 bit. *)
Definition slice_range24 (r : range) (d : data3) : data3 :=
  let first_msb := msb (fst r) in
  let first_mid := mid (fst r) in
  let first_lsb := lsb (fst r) in
  let second_msb := msb (snd r) in
  let second_mid := mid (snd r) in
  let second_lsb := lsb (snd r) in
  if first_msb =? second_msb then
    fold_left (fun d p => insert3 [(first_msb, first_msb)] (fst p) (snd p) d)
      (slice_range16 r []) d                                     (* 531-543 *)
  else
    let d1 := insert_range24 first_msb first_msb first_mid first_mid first_lsb 255 d in
    let d2 := if negb (first_mid =? 255) then
                insert_range24 first_msb first_msb (uchar (first_mid + 1)) 255 0 255 d1
              else d1 in
    let d3 := if first_msb + 1 <? second_msb then                (* 559 *)
                insert_range24 (uchar (first_mid + 1)) (uchar_pred second_mid)
                  0 255 0 255 d2                                 (* 561-563 *)
              else d2 in
    if negb (second_mid =? 0) then
      insert_range24 second_msb second_msb second_mid second_mid 0 second_lsb
        (insert_range24 second_msb second_msb 0 (uchar_pred second_mid) 0 255 d3)
    else
      insert_range24 second_msb second_msb 0 second_mid 0 second_lsb d3.

(** parser.hpp:464-470: the loop of create_sequence. *)
Definition slice16 (t : stoken) : data2 :=
  fold_left (fun d r => slice_range16 r d) t [].
Definition slice24 (t : stoken) : data3 :=
  fold_left (fun d r => slice_range24 r d) t [].

(** Specification: the byte strings accepted by the alternation of sequences
    that push_ranges (684-728) builds from the data. *)
Definition accepts2 (d : data2) (h l : N) : Prop :=
  exists t1 t2, In (t1, t2) d /\
    (exists a b, In (a, b) t1 /\ a <= h <= b) /\
    (exists a b, In (a, b) t2 /\ a <= l <= b).
Definition accepts3 (d : data3) (h m l : N) : Prop :=
  exists t1 t2 t3, In (t1, t2, t3) d /\
    (exists a b, In (a, b) t1 /\ a <= h <= b) /\
    (exists a b, In (a, b) t2 /\ a <= m <= b) /\
    (exists a b, In (a, b) t3 /\ a <= l <= b).
