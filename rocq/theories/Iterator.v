(** Model of include/lexertl/iterator.hpp and include/lexertl/replace.hpp.
    Iterators into the input are positions, as in Lookup.v; [inner] and [fuel]
    are the loop bounds of lookup(), [n] bounds the loop of the caller. *)
From Verif Require Import Base StateMachine Lookup.
Local Open Scope N_scope.

(** iterator.hpp:83-84: _results and whether _sm is set. *)
Record iter := { it_res : results; it_live : bool }.

(** iterator.hpp:31: iterator(), the end of every range. *)
Definition iter_end (k : cfg) : iter := {| it_res := new_results k 0 true 0; it_live := false |}.

(** iterator.hpp:86-94: lookup(). Without _sm this dereferences a null pointer.
    An exception of lookup() leaves _sm as it is. *)
Definition iter_lookup (fuel inner : nat) (k : cfg) (m : internals) (inp : list N) (it : iter)
  : res (iter * option err) :=
  if it_live it then
    do p <- lookup fuel inner k m inp (it_res it);
    let '(r, o) := p in
    match o with
    | Some e => Ok ({| it_res := r; it_live := true |}, Some e)
    | None => Ok ({| it_res := r; it_live := negb (Nat.eqb (r_first r) (length inp)) |}, None)
    end
  else UB.

(** iterator.hpp:33-39: iterator(start, end, sm, bol, state). *)
Definition iter_begin (fuel inner : nat) (k : cfg) (m : internals) (inp : list N)
    (start : nat) (bol : bool) (state : N) : res (iter * option err) :=
  iter_lookup fuel inner k m inp {| it_res := new_results k start bol state; it_live := true |}.

(** match_results.hpp:117-127: operator ==. The ends of the two inputs are not
    compared: both iterators are over the same input. The stack is not compared
    either (recursive_match_results inherits the operator). *)
Definition results_eqb (a b : results) : bool :=
  (r_id a =? r_id b) && (r_uid a =? r_uid b) && Nat.eqb (r_first a) (r_first b) &&
  Nat.eqb (r_second a) (r_second b) && Bool.eqb (r_bol a) (r_bol b) && (r_state a =? r_state b).

(** iterator.hpp:65-70: operator ==, for iterators of one machine. *)
Definition iter_eqb (a b : iter) : bool :=
  Bool.eqb (it_live a) (it_live b) && (negb (it_live a) || results_eqb (it_res a) (it_res b)).

(** for (it = begin; it != end; ++it) yield *it (41-45, 55-58, 72-75): what is
    yielded, and the exception that ended the loop if there was one. *)
Fixpoint visit (n fuel inner : nat) (k : cfg) (m : internals) (inp : list N) (it : iter)
  : res (list results * option err) :=
  if iter_eqb it (iter_end k) then Ok ([], None)
  else
    match n with
    | O => Fuel
    | S n' =>
      do p <- iter_lookup fuel inner k m inp it;
      let '(it', o) := p in
      match o with
      | Some e => Ok ([it_res it], Some e)
      | None =>
        do q <- visit n' fuel inner k m inp it';
        let '(l, o') := q in Ok (it_res it :: l, o')
      end
    end.
Definition visit_all (n fuel inner : nat) (k : cfg) (m : internals) (inp : list N)
    (start : nat) (bol : bool) (state : N) : res (list results * option err) :=
  do p <- iter_begin fuel inner k m inp start bol state;
  let '(it, o) := p in
  match o with
  | Some e => Ok ([], Some e)
  | None => visit n fuel inner k m inp it
  end.

(** std::copy(a, b, out) and append(a, b): undefined when the range is not one. *)
Definition range (inp : list N) (a b : nat) : res (list N) :=
  if Nat.leb a b && Nat.leb b (length inp) then Ok (firstn (b - a) (skipn a inp)) else UB.

(** What is written for a token: the entry of the map for its id, applied to the
    text of the token, or the text itself. A format string is a map defined
    everywhere with constant entries. Functions that change the iterators passed
    to them by reference (80-82, 292-296) are not modelled. *)
Definition format := N -> option (list N -> list N).
Definition const_format (s : list N) : format := fun _ => Some (fun _ => s).
Definition map_format (l : list (N * list N)) : format := fun id =>
  match find (fun p => fst p =? id) l with Some p => Some (fun _ => snd p) | None => None end.

(** Where the characters go. ret_.append and std::copy through an inserting
    iterator add them at the end. The overloads with an output iterator ignore
    what std::copy returns (34-40), so through any other iterator each copy
    starts where the first one did. *)
Definition sink := list N -> list N -> list N.
Definition insert : sink := fun out t => out ++ t.
Definition overwrite : sink := fun out t => t ++ skipn (length t) out.

(** replace.hpp: the loop of all the overloads, e.g. 32-40, 269-283, with [last]
    and what was written so far. It ends at id 0 (not sm.eoi()). *)
Fixpoint replace_loop (n fuel inner : nat) (k : cfg) (m : internals) (inp : list N) (f : format)
    (put : sink) (r : results) (last : nat) (out : list N) : res (list N) :=
  if r_id r =? 0 then
    do t <- range inp last (r_first r); Ok (put out t)
  else
    match n with
    | O => Fuel
    | S n' =>
      do gap <- range inp last (r_first r);
      do tok <- range inp (r_first r) (r_second r);
      let new := match f (r_id r) with Some g => g tok | None => tok end in
      do p <- lookup fuel inner k m inp r;
      let '(r', o) := p in
      match o with
      | Some e => Throw e
      | None => replace_loop n' fuel inner k m inp f put r' (r_second r) (put (put out gap) new)
      end
    end.

(** replace.hpp:26-41 and the other overloads: the results start at the first
    character, at the beginning of a line, in state 0. [out] is what the output
    holds before the call: empty for the overloads that return a string. *)
Definition replace (n fuel inner : nat) (k : cfg) (m : internals) (inp : list N) (f : format)
    (put : sink) (out : list N) : res (list N) :=
  do p <- lookup fuel inner k m inp (new_results k 0 true 0);
  let '(r, o) := p in
  match o with
  | Some e => Throw e
  | None => replace_loop n fuel inner k m inp f put r 0 out
  end.
