(** lookup.hpp and iterator.hpp once more, for any type of iterator: they are
    templates. Lookup.v has the same code for iterators that are positions in a
    list. Here an iterator is a value of type [I] with the operations that the code
    uses; those can throw, and what they cannot do is [UB]. *)
From Verif Require Import Base StateMachine Lookup Utf.
Local Open Scope N_scope.

(** operator *, operator ++ and operator ==. *)
Record iops (I : Type) := { it_get : I -> res N; it_next : I -> res I; it_same : I -> I -> bool }.
Arguments it_get {I} _ _.
Arguments it_next {I} _ _.
Arguments it_same {I} _ _ _.

(** match_results.hpp:37-43 and 149. *)
Record aresults (I : Type) := {
  a_id : N; a_uid : N; a_first : I; a_second : I; a_bol : bool; a_state : N; a_stack : list (N * N)
}.
Arguments a_id {I} _.
Arguments a_uid {I} _.
Arguments a_first {I} _.
Arguments a_second {I} _.
Arguments a_bol {I} _.
Arguments a_state {I} _.
Arguments a_stack {I} _.

(** match_results.hpp:47-55. *)
Definition anew {I : Type} (k : cfg) (start : I) (bol : bool) (state : N) : aresults I :=
  {| a_id := 0; a_uid := npos k; a_first := start; a_second := start; a_bol := bol; a_state := state; a_stack := [] |}.

Section Lookup.
  Variables (I : Type) (ops : iops I) (eoi : I).

  (** lookup.hpp:262-278: end_state. *)
  Definition aend_state (k : cfg) (t : table) (s : lstate) (end_token curr : I) : option (lstate * I) :=
    match cell t (ls_ptr s) ix_end with
    | None => None
    | Some e =>
      if e =? 0 then Some (s, end_token)
      else
        match cell t (ls_ptr s) ix_id, cell t (ls_ptr s) ix_uid, cell t (ls_ptr s) ix_push, cell t (ls_ptr s) ix_next with
        | Some i, Some u, Some p, Some n =>
          Some ({| ls_ptr := ls_ptr s; ls_end := true; ls_id := i; ls_uid := u;
                   ls_bol := ls_bol s;
                   ls_end_bol := if f_bol k then ls_bol s else ls_end_bol s;
                   ls_eol := ls_eol s;
                   ls_start := if f_multi k then n else ls_start s;
                   ls_pop := if f_rec k then negb (N.land e sb_pop =? 0) else ls_pop s;
                   ls_push := if f_rec k then p else ls_push s |}, curr)
        | _, _, _, _ => None
        end
    end.

  (** lookup.hpp:407-434: the while loop. *)
  Fixpoint ascan (fuel : nat) (k : cfg) (t : table) (curr end_token : I) (s : lstate) : res (lstate * I * I) :=
    if it_same ops curr eoi then Ok (s, end_token, curr)
    else
      match fuel with
      | O => Fuel
      | S f =>
        do c <- it_get ops curr;
        match is_eol k t c s with
        | None => UB
        | Some (true, s1) =>                               (* 409 *)
          match aend_state k t s1 end_token curr with      (* 433 *)
          | None => UB
          | Some (s2, end_token') => ascan f k t curr end_token' s2
          end
        | Some (false, s1) =>
          match next_char k t c (ls_ptr s1) with           (* 413 *)
          | None => UB
          | Some (st, p) =>
            let s2 := set_ptr s1 p in
            let s3 := if f_bol k then set_bol s2 (c =? 10) else s2 in  (* 416 *)
            if st =? 0 then
              match is_eol k t (npos k) s3 with            (* 421-424 *)
              | None => UB
              | Some (_, s4) => Ok (s4, end_token, curr)
              end
            else
              do curr' <- it_next ops curr;                (* 428 *)
              match aend_state k t s3 end_token curr' with
              | None => UB
              | Some (s4, end_token') => ascan f k t curr' end_token' s4
              end
          end
        end
      end.

  (** lookup.hpp:288-302: check_eol. *)
  Definition acheck_eol (k : cfg) (t : table) (s : lstate) (end_token curr : I) : option (lstate * I) :=
    if f_eol k && negb (ls_eol s =? npos k) && it_same ops curr eoi then
      match cell t (ls_ptr s) ix_eol with
      | None => None
      | Some e =>
        let s1 := set_eol s e in
        if e =? 0 then Some (s1, end_token)
        else aend_state k t (set_ptr s1 e) end_token curr
      end
    else Some (s, end_token).

  (** lookup.hpp:396-440. *)
  Definition aattempt (fuel : nat) (k : cfg) (m : internals) (bol : bool) (state : N) (curr : I) : res (lstate * I) :=
    match get_table m state with
    | None => UB
    | Some t =>
      match ls_init t bol state with
      | None => UB
      | Some s0 =>
        match bol_start k t s0 with
        | None => UB
        | Some s1 =>
          do p <- ascan fuel k t curr curr s1;
          let '(s2, end_token, curr') := p in
          match acheck_eol k t s2 end_token curr' with
          | None => UB
          | Some r => Ok r
          end
        end
      end
    end.

  (** lookup.hpp:377-472: next, as [again] of Lookup.v. *)
  Fixpoint aagain (fuel : nat) (inner : nat) (k : cfg) (m : internals) (r : aresults I) (curr : I)
      : res (aresults I * option err) :=
    if it_same ops curr eoi then
      Ok ({| a_id := i_eoi m; a_uid := npos k; a_first := a_first r; a_second := a_second r;
             a_bol := a_bol r; a_state := a_state r; a_stack := a_stack r |}, None)
    else
      match fuel with
      | O => Fuel
      | S f =>
        do p <- aattempt inner k m (a_bol r) (a_state r) curr;
        let '(s, end_token) := p in
        if ls_end s then
          match pop k s (a_stack r) with
          | None => Ok (r, Some EUnderflow)
          | Some (start, stack) =>
            let r1 := {| a_id := a_id r; a_uid := a_uid r; a_first := a_first r;
                         a_second := end_token;
                         a_bol := if f_bol k then ls_end_bol s else a_bol r;
                         a_state := if f_multi k then start else a_state r;
                         a_stack := stack |} in
            if ls_id s =? skip_id k then                          (* 451 *)
              aagain f inner k m
                {| a_id := a_id r1; a_uid := a_uid r1; a_first := end_token;
                   a_second := end_token; a_bol := a_bol r1; a_state := a_state r1;
                   a_stack := stack |} end_token
            else if is_id_eoi k (i_eoi m) s stack then            (* 453-457 *)
              aagain f inner k m r1 end_token
            else
              Ok ({| a_id := ls_id s; a_uid := ls_uid s; a_first := a_first r;
                     a_second := end_token; a_bol := a_bol r1; a_state := a_state r1;
                     a_stack := stack |}, None)
          end
        else
          do c <- it_get ops end_token;                           (* 462 *)
          do next <- (if f_adv k then it_next ops end_token else Ok end_token);
          Ok ({| a_id := npos k; a_uid := npos k; a_first := end_token; a_second := next;
                 a_bol := (c =? 10); a_state := a_state r; a_stack := a_stack r |}, None)
      end.

  (** lookup.hpp:474-503: lookup(). *)
  Definition alookup (fuel inner : nat) (k : cfg) (m : internals) (r : aresults I) : res (aresults I * option err) :=
    aagain fuel inner k m
      {| a_id := a_id r; a_uid := a_uid r; a_first := a_second r; a_second := a_second r;
         a_bol := a_bol r; a_state := a_state r; a_stack := a_stack r |} (a_second r).

  (** for (it = begin; it != end; ++it) yield *it (iterator.hpp:33-45, 65-94); the end
      is the iterator without a machine, and [live] tells whether there is one. *)
  Fixpoint avisit (n fuel inner : nat) (k : cfg) (m : internals) (r : aresults I) (live : bool)
      : res (list (aresults I) * option err) :=
    if live then
      match n with
      | O => Fuel
      | S n' =>
        do p <- alookup fuel inner k m r;
        let '(r', o) := p in
        match o with
        | Some e => Ok ([r], Some e)
        | None =>
          do q <- avisit n' fuel inner k m r' (negb (it_same ops (a_first r') eoi));
          let '(l, o') := q in Ok (r :: l, o')
        end
      end
    else Ok ([], None).
  Definition avisit_all (n fuel inner : nat) (k : cfg) (m : internals) (start : I) (bol : bool) (state : N)
      : res (list (aresults I) * option err) :=
    do p <- alookup fuel inner k m (anew k start bol state);
    let '(r, o) := p in
    match o with
    | Some e => Ok ([], Some e)
    | None => avisit n fuel inner k m r (negb (it_same ops (a_first r) eoi))
    end.

  (** match_results.hpp:59-62: str(): string(first, second) reads until it is there. *)
  Fixpoint astr (fuel : nat) (a b : I) : res (list N) :=
    if it_same ops a b then Ok []
    else
      match fuel with
      | O => Fuel
      | S f => do c <- it_get ops a; do a' <- it_next ops a; do l <- astr f a' b; Ok (c :: l)
      end.
End Lookup.

(** ** The iterators of utf_iterators.hpp *)
(** operator * returns _char (41-44, 404-407), operator == compares _it (52-56, 409-413). *)
Definition u8_ops (buf : list N) : iops uin :=
  {| it_get := fun s => Ok (u_char s); it_next := u8_incr buf; it_same := fun a b => Nat.eqb (u_it a) (u_it b) |}.
Definition u16_ops (buf : list N) : iops uin :=
  {| it_get := fun s => Ok (u_char s); it_next := u16_incr buf; it_same := fun a b => Nat.eqb (u_it a) (u_it b) |}.
(** basic_utf8_in_iterator(end, end): nothing is read. *)
Definition u_eoi (buf : list N) : uin := {| u_it := length buf; u_end := length buf; u_char := 0 |}.
(** Positions in a list. *)
Definition list_ops (inp : list N) : iops nat :=
  {| it_get := fun p => of_opt (nth_error inp p); it_next := fun p => Ok (S p); it_same := Nat.eqb |}.

(** All tokens of a buffer through such iterators: both are made, then used. *)
Definition u8_tokens (n fuel inner : nat) (k : cfg) (m : internals) (buf : list N) (bol : bool) (state : N)
    : res (list (aresults uin) * option err) :=
  do e <- u8_begin buf (length buf); do s <- u8_begin buf 0;
  avisit_all uin (u8_ops buf) e n fuel inner k m s bol state.
Definition u16_tokens (n fuel inner : nat) (k : cfg) (m : internals) (buf : list N) (bol : bool) (state : N)
    : res (list (aresults uin) * option err) :=
  do e <- u16_begin buf (length buf); do s <- u16_begin buf 0;
  avisit_all uin (u16_ops buf) e n fuel inner k m s bol state.
(** basic_flip_iterator (624-700) on pointers: operator * flips what is there. *)
Definition flip_ops (w : nat) (buf : list N) : iops nat :=
  {| it_get := fun p => do v <- of_opt (nth_error buf p); flip w v; it_next := fun p => Ok (S p); it_same := Nat.eqb |}.
