(** Model of include/lexertl/lookup.hpp and match_results.hpp.
    The input is a list of character codes; iterators are positions in it and
    results_.eoi is its end, so dereferencing at or after the end is [UB].
    Table reads go through [cell] and [column], which give [UB] outside the
    vectors. Pointers into the DFA are row numbers. The template arguments
    (feature flags, sizes of the id and character types) are a record. *)
From Verif Require Import Base StateMachine.
Local Open Scope N_scope.

(** Template arguments of lookup(): flags (match_results.hpp:22-25), sizeof of
    the character type and number of bits of id_type. f_rec is the choice of
    recursive_match_results (lookup.hpp:489-503). *)
Record cfg := {
  f_bol : bool; f_eol : bool; f_multi : bool; f_rec : bool; f_adv : bool;
  c_bytes : N; c_bits : N
}.
Definition npos (k : cfg) : N := npos_of (c_bits k).
Definition skip_id (k : cfg) : N := skip_of (c_bits k).

(** match_results.hpp:37-43 and 149. *)
Record results := {
  r_id : N; r_uid : N; r_first : nat; r_second : nat; r_bol : bool;
  r_state : N; r_stack : list (N * N)
}.

(** match_results.hpp:47-55: results(start, end, bol, state). *)
Definition new_results (k : cfg) (start : nat) (bol : bool) (state : N) : results :=
  {| r_id := 0; r_uid := npos k; r_first := start; r_second := start; r_bol := bol;
     r_state := state; r_stack := [] |}.

(** The tables of one start state: lookup.hpp:112-116. *)
Record table := { t_lookup : list N; t_width : N; t_dfa : list N }.
Definition get_table (m : internals) (state : N) : option table :=
  let i := N.to_nat state in
  match nth_error (i_lookup m) i, nth_error (i_alphabet m) i, nth_error (i_dfa m) i with
  | Some l, Some a, Some d => Some {| t_lookup := l; t_width := a; t_dfa := d |}
  | _, _, _ => None
  end.

(** _dfa[row * _dfa_alphabet + col]. *)
Definition cell (t : table) (row col : N) : option N :=
  nth_error (t_dfa t) (N.to_nat (row * t_width t + col)).

(** _lookup[byte]. *)
Definition column (t : table) (b : N) : option N := nth_error (t_lookup t) (N.to_nat b).

(** lookup.hpp:97-110: lookup_state. *)
Record lstate := {
  ls_ptr : N; ls_end : bool; ls_id : N; ls_uid : N;
  ls_bol : bool; ls_end_bol : bool;     (* bol_state *)
  ls_eol : N;                           (* eol_state *)
  ls_start : N;                         (* multi_state_state *)
  ls_pop : bool; ls_push : N            (* recursive_state *)
}.

(** lookup.hpp:112-125: constructor (and 82-87 for the recursive part). The
    push cell is read even when not f_rec: the model may report UB where the
    code does not, never the converse. *)
Definition ls_init (t : table) (bol : bool) (state : N) : option lstate :=
  match cell t 1 ix_end, cell t 1 ix_id, cell t 1 ix_uid, cell t 1 ix_push with
  | Some e, Some i, Some u, Some p =>
    Some {| ls_ptr := 1; ls_end := negb (e =? 0); ls_id := i; ls_uid := u;
            ls_bol := bol; ls_end_bol := bol; ls_eol := 0; ls_start := state;
            ls_pop := negb (N.land e sb_pop =? 0); ls_push := p |}
  | _, _, _, _ => None
  end.

Definition set_ptr (s : lstate) (p : N) : lstate :=
  {| ls_ptr := p; ls_end := ls_end s; ls_id := ls_id s; ls_uid := ls_uid s;
     ls_bol := ls_bol s; ls_end_bol := ls_end_bol s; ls_eol := ls_eol s;
     ls_start := ls_start s; ls_pop := ls_pop s; ls_push := ls_push s |}.
Definition set_bol (s : lstate) (b : bool) : lstate :=
  {| ls_ptr := ls_ptr s; ls_end := ls_end s; ls_id := ls_id s; ls_uid := ls_uid s;
     ls_bol := b; ls_end_bol := ls_end_bol s; ls_eol := ls_eol s;
     ls_start := ls_start s; ls_pop := ls_pop s; ls_push := ls_push s |}.
Definition set_eol (s : lstate) (e : N) : lstate :=
  {| ls_ptr := ls_ptr s; ls_end := ls_end s; ls_id := ls_id s; ls_uid := ls_uid s;
     ls_bol := ls_bol s; ls_end_bol := ls_end_bol s; ls_eol := e;
     ls_start := ls_start s; ls_pop := ls_pop s; ls_push := ls_push s |}.

(** lookup.hpp:143-154: bol_start_state. *)
Definition bol_start (k : cfg) (t : table) (s : lstate) : option lstate :=
  if f_bol k && ls_bol s then
    match cell t 0 0 with
    | Some b => Some (if b =? 0 then s else set_ptr s b)
    | None => None
    end
  else Some s.

(** lookup.hpp:163-177: is_eol(curr_). *)
Definition is_eol (k : cfg) (t : table) (c : N) (s : lstate) : option (bool * lstate) :=
  if f_eol k then
    match cell t (ls_ptr s) ix_eol with
    | Some e =>
      let s1 := set_eol s e in
      if negb (e =? 0) && ((c =? 13) || (c =? 10)) then Some (true, set_ptr s1 e)
      else Some (false, s1)
    | None => None
    end
  else Some (false, s).

(** lookup.hpp:194-216: the loop over the bytes of a character, most
    significant first; [shift] runs from bytes_-1 down to 0. *)
Fixpoint next_bytes (t : table) (c : N) (shift : nat) (ptr state : N) : option (N * N) :=
  match column t ((c / 256 ^ N.of_nat shift) mod 256) with
  | None => None
  | Some col =>
    match cell t ptr col with
    | None => None
    | Some st =>
      if st =? 0 then Some (0, ptr)
      else match shift with
           | O => Some (st, st)
           | S sh => next_bytes t c sh st st
           end
    end
  end.

(** lookup.hpp:180-216: next_char: new state (0: none) and new _ptr. *)
Definition next_char (k : cfg) (t : table) (c : N) (ptr : N) : option (N * N) :=
  if c_bytes k =? 1 then
    match column t c with
    | None => None
    | Some col =>
      match cell t ptr col with
      | None => None
      | Some st => Some (st, if st =? 0 then ptr else st)
      end
    end
  else next_bytes t c (if c_bytes k =? 2 then 1 else 2) ptr 0.

(** lookup.hpp:262-278: end_state. [e] is the new end_token_ when the row is
    accepting. All four cells are read whatever the flags are (see ls_init). *)
Definition end_state (k : cfg) (t : table) (s : lstate) (end_token curr : nat)
    : option (lstate * nat) :=
  match cell t (ls_ptr s) ix_end with
  | None => None
  | Some e =>
    if e =? 0 then Some (s, end_token)
    else
      match cell t (ls_ptr s) ix_id, cell t (ls_ptr s) ix_uid,
            cell t (ls_ptr s) ix_push, cell t (ls_ptr s) ix_next with
      | Some i, Some u, Some p, Some n =>
        Some ({| ls_ptr := ls_ptr s; ls_end := true; ls_id := i; ls_uid := u;
                 ls_bol := ls_bol s;
                 ls_end_bol := if f_bol k then ls_bol s else ls_end_bol s;
                 ls_eol := ls_eol s;
                 ls_start := if f_multi k then n else ls_start s;
                 ls_pop := if f_rec k then negb (N.land e sb_pop =? 0) else ls_pop s;
                 ls_push := if f_rec k then p else ls_push s |}, curr)
      | _, _, _, _ => None
      end
  end.

(** lookup.hpp:407-434: the while loop: final lookup_state, end_token_ and
    curr_. *)
Fixpoint scan (fuel : nat) (k : cfg) (t : table) (inp : list N) (curr end_token : nat)
    (s : lstate) : res (lstate * nat * nat) :=
  if Nat.eqb curr (length inp) then Ok (s, end_token, curr)
  else
    match fuel with
    | O => Fuel
    | S f =>
      match nth_error inp curr with
      | None => UB
      | Some c =>
        match is_eol k t c s with
        | None => UB
        | Some (true, s1) =>                               (* 409 *)
          match end_state k t s1 end_token curr with       (* 433 *)
          | None => UB
          | Some (s2, end_token') => scan f k t inp curr end_token' s2
          end
        | Some (false, s1) =>
          match next_char k t c (ls_ptr s1) with           (* 413 *)
          | None => UB
          | Some (st, p) =>
            let s2 := set_ptr s1 p in
            let s3 := if f_bol k then set_bol s2 (c =? 10) else s2 in  (* 416 *)
            if st =? 0 then
              match is_eol k t (npos k) s3 with            (* 421-424 *)
              | None => UB
              | Some (_, s4) => Ok (s4, end_token, curr)
              end
            else
              match end_state k t s3 end_token (S curr) with
              | None => UB
              | Some (s4, end_token') => scan f k t inp (S curr) end_token' s4
              end
          end
        end
      end
    end.

(** lookup.hpp:288-302: check_eol. *)
Definition check_eol (k : cfg) (t : table) (inp : list N) (s : lstate) (end_token curr : nat)
    : option (lstate * nat) :=
  if f_eol k && negb (ls_eol s =? npos k) && Nat.eqb curr (length inp) then
    match cell t (ls_ptr s) ix_eol with
    | None => None
    | Some e =>
      let s1 := set_eol s e in
      if e =? 0 then Some (s1, end_token)
      else end_state k t (set_ptr s1 e) end_token curr
    end
  else Some (s, end_token).

(** lookup.hpp:396-440: one attempt to match from [curr]. *)
Definition attempt (fuel : nat) (k : cfg) (m : internals) (inp : list N) (bol : bool)
    (state : N) (curr : nat) : res (lstate * nat) :=
  match get_table m state with
  | None => UB
  | Some t =>
    match ls_init t bol state with
    | None => UB
    | Some s0 =>
      match bol_start k t s0 with
      | None => UB
      | Some s1 =>
        do p <- scan fuel k t inp curr curr s1;
        let '(s2, end_token, curr') := p in
        match check_eol k t inp s2 end_token curr' with
        | None => UB
        | Some r => Ok r
        end
      end
    end
  end.

(** lookup.hpp:311-327: pop: the new _start_state and stack, or the exception. *)
Definition pop (k : cfg) (s : lstate) (stack : list (N * N))
    : option (N * list (N * N)) :=
  if f_rec k then
    if ls_pop s then
      match stack with
      | [] => None
      | (st, _) :: stack' => Some (st, stack')
      end
    else if negb (ls_push s =? npos k) then Some (ls_start s, (ls_push s, ls_id s) :: stack)
    else Some (ls_start s, stack)
  else Some (ls_start s, stack).

(** lookup.hpp:330-343: is_id_eoi. *)
Definition is_id_eoi (k : cfg) (eoi : N) (s : lstate) (stack : list (N * N)) : bool :=
  (ls_id s =? eoi) ||
  (f_rec k && ls_pop s && match stack with (_, i) :: _ => i =? eoi | [] => false end).

(** What a call leaves in results_, and the exception if one was thrown. *)
Definition outcome := (results * option err)%type.

(** lookup.hpp:377-472: next, from the label "again". A jump to "skip" also
    resets results_.first. end_token_ equals [curr] at this label: initially
    both are results_.second, and both jumps happen after results_.second =
    end_token_ (449). *)
Fixpoint again (fuel : nat) (inner : nat) (k : cfg) (m : internals) (inp : list N)
    (r : results) (curr : nat) : res outcome :=
  if Nat.eqb curr (length inp) then
    Ok ({| r_id := i_eoi m; r_uid := npos k; r_first := r_first r; r_second := r_second r;
           r_bol := r_bol r; r_state := r_state r; r_stack := r_stack r |}, None)
  else
    match fuel with
    | O => Fuel
    | S f =>
      do p <- attempt inner k m inp (r_bol r) (r_state r) curr;
      let '(s, end_token) := p in
      if ls_end s then
        match pop k s (r_stack r) with
        | None => Ok (r, Some EUnderflow)
        | Some (start, stack) =>
          let r1 := {| r_id := r_id r; r_uid := r_uid r; r_first := r_first r;
                       r_second := end_token;
                       r_bol := if f_bol k then ls_end_bol s else r_bol r;
                       r_state := if f_multi k then start else r_state r;
                       r_stack := stack |} in
          if ls_id s =? skip_id k then                          (* 451 *)
            again f inner k m inp
              {| r_id := r_id r1; r_uid := r_uid r1; r_first := end_token;
                 r_second := end_token; r_bol := r_bol r1; r_state := r_state r1;
                 r_stack := stack |} end_token
          else if is_id_eoi k (i_eoi m) s stack then            (* 453-457 *)
            again f inner k m inp r1 end_token
          else
            Ok ({| r_id := ls_id s; r_uid := ls_uid s; r_first := r_first r;
                   r_second := end_token; r_bol := r_bol r1; r_state := r_state r1;
                   r_stack := stack |}, None)
        end
      else
        match nth_error inp end_token with                      (* 462 *)
        | None => UB
        | Some c =>
          Ok ({| r_id := npos k; r_uid := npos k; r_first := end_token;
                 r_second := if f_adv k then S end_token else end_token;
                 r_bol := (c =? 10); r_state := r_state r; r_stack := r_stack r |}, None)
        end
    end.

(** lookup.hpp:474-503: lookup(). *)
Definition lookup (fuel : nat) (inner : nat) (k : cfg) (m : internals) (inp : list N)
    (r : results) : res outcome :=
  again fuel inner k m inp
    {| r_id := r_id r; r_uid := r_uid r; r_first := r_second r; r_second := r_second r;
       r_bol := r_bol r; r_state := r_state r; r_stack := r_stack r |} (r_second r).
