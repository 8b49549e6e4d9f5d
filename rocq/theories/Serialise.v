(** Model of include/lexertl/serialise.hpp. A text stream is a list of
    character codes plus the failbit. Assumed behaviour of <iostream> (trusted
    base): [<<] writes an unsigned integer in decimal without separators (the
    classic locale) and a one byte id_type as a character; [>>] skips white
    space, reads the longest run of digits, stores the value, or the maximum
    and failbit if it is out of range, or 0 and failbit if there is no digit;
    on a failed or exhausted stream the variable is left as it was.
    Simplification: a sign in front of a number is treated as "no digit". *)
From Verif Require Import Base StateMachine.
Local Open Scope N_scope.

Record stream := { st_chars : list N; st_fail : bool }.

(** Decimal digits of [n], most significant first. *)
Fixpoint dec_loop (fuel : nat) (n : N) (acc : list N) : list N :=
  let acc' := (48 + n mod 10) :: acc in
  match fuel with
  | O => acc'
  | S f => if n / 10 =? 0 then acc' else dec_loop f (n / 10) acc'
  end.
Definition dec (n : N) : list N := dec_loop (N.size_nat n) n [].

Definition nl : N := 10.
Definition sp : N := 32.
Definition is_space (c : N) : bool := (c =? 32) || ((9 <=? c) && (c <=? 13)).
Definition is_digit (c : N) : bool := (48 <=? c) && (c <=? 57).

(** [stream_ << v] for a v of id_type with [bytes] bytes. *)
Definition put_id (bytes : N) (v : N) : list N := if bytes =? 1 then [v] else dec v.

(** serialise.hpp:30-47: the loop of output_vec. *)
Fixpoint out_loop (bytes : N) (line_len : N) (vec : list N) : list N :=
  match vec with
  | [] => []
  | l :: vec' =>
    let str := put_id bytes l in
    let size := N.of_nat (length str) in
    if 80 <? line_len + size + 1 then
      nl :: str ++ sp :: out_loop bytes (size + 1) vec'
    else str ++ sp :: out_loop bytes (line_len + (size + 1)) vec'
  end.

(** serialise.hpp:22-50: output_vec. *)
Definition output_vec (bytes : N) (vec : list N) : list N :=
  dec (N.of_nat (length vec)) ++ nl :: out_loop bytes 0 vec ++ [nl].

(** serialise.hpp:71-97: save. [csize] is sizeof(char_type), [bytes] is
    sizeof(id_type). *)
Definition save (csize bytes : N) (m : internals) : list N :=
  dec 1 ++ nl ::
  dec csize ++ nl ::
  dec bytes ++ nl ::
  put_id bytes (i_eoi m) ++ nl ::
  dec (N.of_nat (length (i_lookup m))) ++ nl ::
  concat (map (output_vec bytes) (i_lookup m)) ++
  output_vec bytes (i_alphabet m) ++
  put_id bytes (i_features m) ++ nl ::
  dec (N.of_nat (length (i_dfa m))) ++ nl ::
  concat (map (output_vec bytes) (i_dfa m)).

(** Longest run of digits and its value. *)
Fixpoint read_digits (acc : N) (s : list N) : N * list N :=
  match s with
  | c :: s' => if is_digit c then read_digits (acc * 10 + (c - 48)) s' else (acc, s)
  | [] => (acc, [])
  end.

Fixpoint skip_ws (s : list N) : list N :=
  match s with
  | c :: s' => if is_space c then skip_ws s' else s
  | [] => []
  end.

(** [stream_ >> v] for an unsigned integer below [lim]; [old] is the previous
    value of v. *)
Definition get_num (lim old : N) (st : stream) : N * stream :=
  if st_fail st then (old, st)
  else match skip_ws (st_chars st) with
       | [] => (old, {| st_chars := []; st_fail := true |})
       | c :: s =>
         if is_digit c then
           let '(v, s') := read_digits 0 (c :: s) in
           if v <? lim then (v, {| st_chars := s'; st_fail := false |})
           else (lim - 1, {| st_chars := s'; st_fail := true |})
         else (0, {| st_chars := c :: s; st_fail := true |})
       end.

(** [stream_ >> v] for a v of id_type: a number, or one non-space character for
    a one byte type. *)
Definition get_id (bytes old : N) (st : stream) : N * stream :=
  if bytes =? 1 then
    if st_fail st then (old, st)
    else match skip_ws (st_chars st) with
         | [] => (old, {| st_chars := []; st_fail := true |})
         | c :: s => (c, {| st_chars := s; st_fail := false |})
         end
  else get_num (2 ^ (8 * bytes)) old st.

Definition size_lim : N := 2 ^ 64.

(** serialise.hpp:60-66: the loop of input_vec; id_ is initialised to 0 and
    converted to id_type. *)
Fixpoint in_loop (bytes : N) (n : nat) (st : stream) : list N * stream :=
  match n with
  | O => ([], st)
  | S n' => let '(v, st1) := get_num size_lim 0 st in
            let '(l, st2) := in_loop bytes n' st1 in
            (v mod 2 ^ (8 * bytes) :: l, st2)
  end.

(** serialise.hpp:53-67: input_vec. *)
Definition input_vec (bytes : N) (st : stream) : list N * stream :=
  let '(n, st1) := get_num size_lim 0 st in in_loop bytes (N.to_nat n) st1.

(** serialise.hpp:125-129 and 136-140: reading a vector of vectors. *)
Fixpoint input_vecs (bytes : N) (n : nat) (st : stream) : list (list N) * stream :=
  match n with
  | O => ([], st)
  | S n' => let '(v, st1) := input_vec bytes st in
            let '(l, st2) := input_vecs bytes n' st1 in (v :: l, st2)
  end.

(** serialise.hpp:99-141: load. The machine passed in is cleared first (line
    106), so its previous contents [_old] play no role. *)
Definition load (csize bytes : N) (_old : internals) (st : stream)
    : res (internals * stream) :=
  let '(n0, st0) := get_num size_lim 0 st in          (* 108 *)
  let '(n1, st1) := get_num size_lim n0 st0 in        (* 110 *)
  if negb (n1 =? csize) then Throw ELoad
  else
    let '(n2, st2) := get_num size_lim n1 st1 in      (* 116 *)
    if negb (n2 =? bytes) then Throw ELoad
    else
      let '(eoi, st3) := get_id bytes 0 st2 in        (* 121 *)
      let '(n3, st4) := get_num size_lim n2 st3 in    (* 122 *)
      let '(lk, st5) := input_vecs bytes (N.to_nat n3) st4 in
      let '(al, st6) := input_vec bytes st5 in        (* 131 *)
      let '(ft, st7) := get_id bytes 0 st6 in         (* 132 *)
      let '(n4, st8) := get_num size_lim n3 st7 in    (* 133 *)
      let '(df, st9) := input_vecs bytes (N.to_nat n4) st8 in
      Ok ({| i_eoi := eoi; i_lookup := lk; i_alphabet := al; i_features := ft;
             i_dfa := df |}, st9).

(** A machine whose values fit an id_type of [bytes] bytes and whose vector
    lengths fit std::size_t. *)
Definition fits (bytes : N) (m : internals) : Prop :=
  let small v := v < 2 ^ (8 * bytes) in
  let vec l := Forall small l /\ N.of_nat (length l) < size_lim in
  small (i_eoi m) /\ small (i_features m) /\
  N.of_nat (length (i_lookup m)) < size_lim /\ Forall vec (i_lookup m) /\
  vec (i_alphabet m) /\
  N.of_nat (length (i_dfa m)) < size_lim /\ Forall vec (i_dfa m).
