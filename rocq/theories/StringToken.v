(** Model of include/lexertl/string_token.hpp: character classes as vectors of
    closed ranges. Characters are [N]; the maximal character value is a
    parameter of the operations that use it (char_traits::max_val()).
    Simplification: [index_type] arithmetic is unbounded; the only additions
    and subtractions ([second + 1], [first - 1]) are done after the integral
    promotions of C++ or on values below max_val() so they cannot wrap. *)
From Verif Require Import Base.
Local Open Scope N_scope.

(** string_token.hpp:26-31: range = pair, _ranges = vector of range. *)
Definition range := (N * N)%type.
Definition stoken := list range.

(** string_token.hpp:183-199: leave the loop of insert(range) with iter_ at
    the head of [rest]. [pre] is what precedes erase_iter_ (when [erased]) or
    iter_ (otherwise). The number is the index of the returned iterator. *)
Definition ins_finish (pre : stoken) (erased : bool) (r : range)
    (rest : stoken) : stoken * nat :=
  (pre ++ r :: rest, if erased then S (length pre) else length pre).

(** string_token.hpp:115-181: the while loop of insert(range). Elements passed
    after erase_iter_ was set are the ones removed by the final erase (line
    192), so they are dropped here as soon as they are passed. *)
Fixpoint ins_loop (pre : stoken) (erased : bool) (r : range) (rest : stoken)
    : stoken * nat :=
  match rest with
  | [] => ins_finish pre erased r []
  | x :: rest' =>
    if snd x <? fst r then                             (* 118 *)
      if fst r =? snd x + 1 then                       (* 120 *)
        ins_loop pre true (fst x, snd r) rest'         (* 123 *)
      else if erased then ins_loop pre true r rest'    (* 128-129 *)
      else ins_loop (pre ++ [x]) false r rest'
    else if snd r <? fst x then                        (* 133 *)
      if snd r =? fst x - 1 then                       (* 135 *)
        ins_loop pre true (fst r, snd x) rest'         (* 138 *)
      else ins_finish pre erased r rest                (* 143 *)
    else if fst r <? fst x then                        (* 149 *)
      ins_loop pre true
        (fst r, if snd r <? snd x then snd x else snd r) rest'
    else if snd x <? snd r then                        (* 157 *)
      ins_loop pre true
        (if fst x <? fst r then fst x else fst r, snd r) rest'
    else if erased then (pre, length pre)              (* 167-169, 192 *)
    else (pre ++ rest, length (pre ++ rest))
  end.

(** string_token.hpp:108-200: insert(range), with the index of the iterator it
    returns. *)
Definition insert_idx (t : stoken) (r : range) : stoken * nat :=
  ins_loop [] false r t.
Definition insert (t : stoken) (r : range) : stoken := fst (insert_idx t r).

(** string_token.hpp:96-105: insert(const basic_string_token&). *)
Definition insert_token (t rhs : stoken) : stoken := fold_left insert rhs t.

(** string_token.hpp:211-233: the loop of negate(). *)
Fixpoint neg_loop (max next : N) (temp : stoken) (l : stoken) : stoken :=
  match l with
  | [] => insert temp (next, max)                                 (* 230-233 *)
  | x :: l' =>
    let temp' := if next <? fst x then insert temp (next, fst x - 1)
                 else temp in                                     (* 213-217 *)
    if snd x <? max then neg_loop max (snd x + 1) temp' l'        (* 219-222 *)
    else temp'                                                    (* 225-226 *)
  end.

(** string_token.hpp:202-236: negate(). *)
Definition negate (max : N) (t : stoken) : stoken := neg_loop max 0 [] t.

(** string_token.hpp:409-437: adjust(). The token is split at the iterator:
    [pre] precedes it and [x :: rest] starts at it; the result is split at the
    updated iterator. *)
Definition adjust (rg : range) (pre : stoken) (x : range) (rest : stoken)
    : stoken * stoken :=
  if fst x <? fst rg then                                         (* 413 *)
    let x' := (fst x, fst rg - 1) in                              (* 417 *)
    if snd rg <? snd x then                                       (* 419 *)
      let '(l, i) := insert_idx (pre ++ x' :: rest) (snd rg + 1, snd x) in
      (firstn i l, skipn i l)                                     (* 424-425 *)
    else (pre, x' :: rest)
  else if snd rg <? snd x then (pre, (snd rg + 1, snd x) :: rest) (* 428-431 *)
  else (pre, rest).                                               (* 434-435 *)

(** string_token.hpp:257-275 (and 303-321): the common part of two ranges. *)
Definition common (x y : range) : range :=
  (if fst x <? fst y then fst y else fst x,
   if snd y <? snd x then snd y else snd x).

(** string_token.hpp:245-281: the while loop of intersect(). *)
Fixpoint isect_loop (fuel : nat) (lpre lrest rpre rrest ov : stoken)
    : res (stoken * stoken * stoken) :=
  match lrest, rrest with
  | x :: lrest', y :: rrest' =>
    match fuel with
    | O => Fuel
    | S f =>
      if snd x <? fst y then                                      (* 247-250 *)
        isect_loop f (lpre ++ [x]) lrest' rpre rrest ov
      else if snd y <? fst x then                                 (* 251-254 *)
        isect_loop f lpre lrest (rpre ++ [y]) rrest' ov
      else
        let rg := common x y in
        let '(lpre', lrest'') := adjust rg lpre x lrest' in       (* 277 *)
        let '(rpre', rrest'') := adjust rg rpre y rrest' in       (* 278 *)
        isect_loop f lpre' lrest'' rpre' rrest'' (insert ov rg)   (* 279 *)
    end
  | _, _ => Ok (lpre ++ lrest, rpre ++ rrest, ov)
  end.

(** string_token.hpp:238-282: intersect(rhs_, overlap_): new values of *this,
    rhs_ and overlap_. *)
Definition intersect (l r ov : stoken) : res (stoken * stoken * stoken) :=
  isect_loop (2 * length l + 2 * length r + 1) [] l [] r ov.

(** string_token.hpp:291-325: the while loop of remove(). *)
Fixpoint remove_loop (fuel : nat) (lpre lrest rrest : stoken) : res stoken :=
  match lrest, rrest with
  | x :: lrest', y :: rrest' =>
    match fuel with
    | O => Fuel
    | S f =>
      if snd x <? fst y then remove_loop f (lpre ++ [x]) lrest' rrest
      else if snd y <? fst x then remove_loop f lpre lrest rrest'
      else
        let '(lpre', lrest'') := adjust (common x y) lpre x lrest' in
        remove_loop f lpre' lrest'' rrest
    end
  | _, _ => Ok (lpre ++ lrest)
  end.

(** string_token.hpp:284-326: remove(rhs_): new value of *this. *)
Definition remove (l r : stoken) : res stoken :=
  remove_loop (2 * length l + 2 * length r + 1) [] l r.

(** string_token.hpp:60-64: any(). *)
Definition any (max : N) (t : stoken) : bool :=
  match t with [(a, b)] => (a =? 0) && (b =? max) | _ => false end.

(** string_token.hpp:78-89: negatable(). *)
Definition negatable (max : N) (t : stoken) : bool :=
  max / 2 <? fold_left (fun s r => s + (snd r + 1 - fst r)) t 0.

(** string_token.hpp:66-76: operator< and operator== are those of
    std::vector<std::pair>: lexicographic. *)
Definition range_cmp (a b : range) : comparison :=
  match fst a ?= fst b with Eq => snd a ?= snd b | c => c end.
Fixpoint st_cmp (a b : stoken) : comparison :=
  match a, b with
  | [], [] => Eq
  | [], _ :: _ => Lt
  | _ :: _, [] => Gt
  | x :: a', y :: b' => match range_cmp x y with Eq => st_cmp a' b' | c => c end
  end.
Definition st_eqb (a b : stoken) : bool :=
  match st_cmp a b with Eq => true | _ => false end.
