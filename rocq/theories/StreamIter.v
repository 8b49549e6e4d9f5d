(** Model of stream_shared_iterator.hpp. The iterators are variables, numbered in
    the order of their construction; all belong to one stream or to none. Indexes
    are natural numbers, [None] stands for npos; sums are taken not to wrap. *)
From Verif Require Import Base.
Local Open Scope nat_scope.

(** stream_shared_iterator.hpp:300-303. *)
Record siter := { s_master : bool; s_live : bool; s_index : option nat; s_shared : bool }.

(** stream_shared_iterator.hpp:155-165. [sh_rest] is what the stream has not
    delivered yet; [sh_alive] is false after delete. *)
Record shared := {
  sh_ref : nat; sh_rest : list N; sh_incr : nat; sh_len : nat; sh_buf : list N;
  sh_clients : list nat; sh_alive : bool
}.

(** A destroyed variable is [None]. *)
Record world := { w_sh : shared; w_vars : list (option siter) }.

Definition with_vars (w : world) (v : list (option siter)) : world := {| w_sh := w_sh w; w_vars := v |}.
Definition with_sh (w : world) (s : shared) : world := {| w_sh := s; w_vars := w_vars w |}.
Definition set_clients (s : shared) (l : list nat) : shared :=
  {| sh_ref := sh_ref s; sh_rest := sh_rest s; sh_incr := sh_incr s; sh_len := sh_len s; sh_buf := sh_buf s;
     sh_clients := l; sh_alive := sh_alive s |}.
Definition set_ref (s : shared) (n : nat) : shared :=
  {| sh_ref := n; sh_rest := sh_rest s; sh_incr := sh_incr s; sh_len := sh_len s; sh_buf := sh_buf s;
     sh_clients := sh_clients s; sh_alive := sh_alive s |}.
Definition set_alive (s : shared) (b : bool) : shared :=
  {| sh_ref := sh_ref s; sh_rest := sh_rest s; sh_incr := sh_incr s; sh_len := sh_len s; sh_buf := sh_buf s;
     sh_clients := sh_clients s; sh_alive := b |}.
Definition set_data (s : shared) (rest : list N) (len : nat) (buf : list N) : shared :=
  {| sh_ref := sh_ref s; sh_rest := rest; sh_incr := sh_incr s; sh_len := len; sh_buf := buf;
     sh_clients := sh_clients s; sh_alive := sh_alive s |}.

Definition var (w : world) (x : nat) : option siter :=
  match nth_error (w_vars w) x with Some (Some it) => Some it | _ => None end.
Fixpoint put {A} (l : list A) (x : nat) (a : A) : list A :=
  match l, x with
  | [], _ => []
  | _ :: l', O => a :: l'
  | b :: l', S x' => b :: put l' x' a
  end.
Definition set_var (w : world) (x : nat) (it : siter) : world := with_vars w (put (w_vars w) x (Some it)).
Definition set_index (it : siter) (i : option nat) : siter :=
  {| s_master := s_master it; s_live := s_live it; s_index := i; s_shared := s_shared it |}.

(** The indexes of the clients; a destroyed client is a dangling pointer. *)
Fixpoint indexes (w : world) (l : list nat) : option (list (option nat)) :=
  match l with
  | [] => Some []
  | x :: l' =>
    match var w x, indexes w l' with
    | Some it, Some r => Some (s_index it :: r)
    | _, _ => None
    end
  end.

(** stream_shared_iterator.hpp:235-257. *)
Fixpoint low (l : list (option nat)) : option nat :=
  match l with
  | [] => None
  | None :: l' => low l'
  | Some i :: l' => match low l' with Some j => Some (Nat.min i j) | None => Some i end
  end.
Definition lowest (w : world) : res nat :=
  match indexes w (sh_clients (w_sh w)) with
  | None => UB
  | Some l => Ok (match low l with Some i => i | None => 0 end)
  end.
(** stream_shared_iterator.hpp:259-276. *)
Fixpoint high (l : list (option nat)) : nat :=
  match l with
  | [] => 0
  | None :: l' => high l'
  | Some i :: l' => Nat.max i (high l')
  end.
Definition highest (w : world) : res nat :=
  match indexes w (sh_clients (w_sh w)) with None => UB | Some l => Ok (high l) end.

(** stream_shared_iterator.hpp:278-292: once for each entry of the list. *)
Fixpoint subtract (w : world) (n : nat) (l : list nat) : res world :=
  match l with
  | [] => Ok w
  | x :: l' =>
    match var w x with
    | None => UB
    | Some it =>
      match s_index it with
      | None => subtract w n l'
      | Some i => if Nat.ltb i n then UB (* wraps *) else subtract (set_var w x (set_index it (Some (i - n)))) n l'
      end
    end
  end.

(** stream_shared_iterator.hpp:227-233. *)
Fixpoint remove_first (x : nat) (l : list nat) : list nat :=
  match l with
  | [] => []
  | y :: l' => if Nat.eqb x y then l' else y :: remove_first x l'
  end.
Definition erase (w : world) (x : nat) : world := with_sh w (set_clients (w_sh w) (remove_first x (sh_clients (w_sh w)))).

(** read(p, n) at offset [at_] of the buffer, which has room for it. *)
Definition read_at (buf : list N) (at_ : nat) (got : list N) : list N :=
  firstn at_ buf ++ got ++ skipn (at_ + length got) buf.

(** stream_shared_iterator.hpp:179-225. With [strict] a memcpy on overlapping
    ranges is undefined; without, it copies as memmove does. *)
Definition reload (strict : bool) (w : world) : res (world * bool) :=
  do lowest_ <- lowest w;
  let s := w_sh w in
  let old := length (sh_buf s) in
  if Nat.eqb lowest_ 0 then                                                      (* 184-199 *)
    let got := firstn (sh_incr s) (sh_rest s) in
    let buf := read_at (sh_buf s ++ repeat 0%N (sh_incr s)) old got in
    let n := length got in
    Ok (with_sh w (set_data s (skipn (sh_incr s) (sh_rest s)) (if Nat.eqb n 0 then sh_len s else n + old) buf),
        negb (Nat.eqb n 0))
  else if Nat.ltb old lowest_ then UB
  else
    let start := old - lowest_ in
    let len := old - start in
    if strict && Nat.ltb lowest_ start then UB                                   (* 207 *)
    else
      let moved := skipn lowest_ (sh_buf s) ++ skipn start (sh_buf s) in
      let got := firstn len (sh_rest s) in
      let buf := read_at moved start got in
      let n := length got in
      do w1 <- subtract (with_sh w (set_data s (skipn len (sh_rest s)) (sh_len s) buf)) lowest_ (sh_clients s);
      if Nat.eqb n 0 then
        do h <- highest w1;
        Ok (with_sh w1 (set_data (w_sh w1) (sh_rest (w_sh w1)) h buf), false)
      else Ok (with_sh w1 (set_data (w_sh w1) (sh_rest (w_sh w1)) (n + start) buf), true).

(** stream_shared_iterator.hpp:305-319. *)
Definition check_master (w : world) (x : nat) : res world :=
  match var w x with
  | None => UB
  | Some it =>
    if negb (s_shared it) then Throw EOther
    else if negb (sh_alive (w_sh w)) then UB
    else if s_master it then
      do l <- lowest w;
      Ok (set_var w x {| s_master := false; s_live := true; s_index := Some l; s_shared := true |})
    else Ok w
  end.

(** stream_shared_iterator.hpp:321-330. *)
Definition update_state (strict : bool) (w : world) (x : nat) : res world :=
  match var w x with
  | None => UB
  | Some it =>
    if match s_index it with None => true | Some i => Nat.leb (sh_len (w_sh w)) i end then
      do p <- reload strict w;
      let '(w1, more) := p in
      if more then Ok w1
      else
        match var w1 x with
        | None => UB
        | Some it1 =>
          Ok (set_var (erase w1 x) x {| s_master := s_master it1; s_live := false; s_index := None; s_shared := s_shared it1 |})
        end
    else Ok w
  end.

Inductive op :=
| ODefault                (* construct the end iterator, 29 *)
| OCopy (y : nat)         (* 42-56 *)
| OAssign (x y : nat)     (* 73-112 *)
| ODestroy (x : nat)      (* 58-71 *)
| ODeref (x : nat)        (* 130-134 *)
| OInc (x : nat)          (* 136-142 *)
| OEq (x y : nat).        (* 114-122 *)

Inductive out := ONone | OChar (c : N) | OBool (b : bool).

Definition opt_eqb (a b : option nat) : bool :=
  match a, b with
  | None, None => true
  | Some i, Some j => Nat.eqb i j
  | _, _ => false
  end.
Definition is_none (a : option nat) : bool := match a with None => true | Some _ => false end.

Definition the_index (w : world) (it : siter) : res (option nat) :=
  if s_master it then do l <- lowest w; Ok (Some l) else Ok (s_index it).

Definition exec (strict : bool) (w : world) (o : op) : res (world * out) :=
  match o with
  | ODefault =>
    Ok (with_vars w (w_vars w ++ [Some {| s_master := false; s_live := false; s_index := None; s_shared := false |}]), ONone)
  | OCopy y =>
    match var w y with
    | None => UB
    | Some it =>
      if s_shared it && negb (sh_alive (w_sh w)) then UB
      else
        do i <- the_index w it;
        let x := length (w_vars w) in
        let w1 := with_vars w (w_vars w ++ [Some {| s_master := false; s_live := s_shared it; s_index := i; s_shared := s_shared it |}]) in
        if s_shared it then
          Ok (with_sh w1 (set_ref (set_clients (w_sh w) (sh_clients (w_sh w) ++ [x])) (S (sh_ref (w_sh w)))), ONone)
        else Ok (w1, ONone)
    end
  | OAssign x y =>
    match var w x, var w y with
    | Some a, Some b =>
      if Nat.eqb x y then Ok (w, ONone)
      else if (s_shared a || s_shared b) && negb (sh_alive (w_sh w)) then UB
      else
        do i <- the_index w b;
        let s := w_sh w in
        let new := {| s_master := false; s_live := s_live b; s_index := i; s_shared := s_shared b |} in
        let s' :=
          if negb (s_live a) && negb (s_live b) then
            if s_shared b then set_ref s (S (sh_ref s)) else s
          else if negb (s_live a) && s_live b then
            let s1 := set_clients s (sh_clients s ++ [x]) in
            if negb (s_shared a) then set_ref s1 (S (sh_ref s1)) else s1
          else if s_live a && negb (s_live b) then
            let s1 := set_clients s (remove_first x (sh_clients s)) in
            if negb (s_shared b) then set_ref s1 (sh_ref s1 - 1) else s1
          else s in
        Ok (set_var (with_sh w s') x new, ONone)
    | _, _ => UB
    end
  | ODestroy x =>
    match var w x with
    | None => UB
    | Some it =>
      if s_shared it then
        if negb (sh_alive (w_sh w)) then UB
        else
          let w1 := erase w x in
          let r := sh_ref (w_sh w1) - 1 in
          let s1 := set_ref (w_sh w1) r in
          Ok (with_vars (with_sh w1 (if Nat.eqb r 0 then set_alive s1 false else s1)) (put (w_vars w1) x None), ONone)
      else Ok (with_vars w (put (w_vars w) x None), ONone)
    end
  | ODeref x =>
    do w1 <- check_master w x;
    match var w1 x with
    | Some it =>
      match s_index it with
      | None => UB
      | Some i => match nth_error (sh_buf (w_sh w1)) i with Some c => Ok (w1, OChar c) | None => UB end
      end
    | None => UB
    end
  | OInc x =>
    do w1 <- check_master w x;
    match var w1 x with
    | None => UB
    | Some it =>
      let i := match s_index it with None => 0 | Some i => S i end in          (* npos + 1 is 0 *)
      do w2 <- update_state strict (set_var w1 x (set_index it (Some i))) x;
      Ok (w2, ONone)
    end
  | OEq x y =>
    match var w x, var w y with
    | Some a, Some b =>
      Ok (w, OBool (opt_eqb (s_index a) (s_index b) &&
                    (Bool.eqb (s_shared a) (s_shared b) ||
                     (is_none (s_index a) || is_none (s_index b)) && (negb (s_shared a) || negb (s_shared b)))))
    | _, _ => UB
    end
  end.

(** stream_shared_iterator.hpp:31-40, 167-175: variable 0. *)
Definition start (strm : list N) (size incr : nat) : res world :=
  if Nat.eqb size 0 then UB
  else
    let got := firstn size strm in
    Ok {| w_sh := {| sh_ref := 1; sh_rest := skipn size strm; sh_incr := incr; sh_len := length got;
                     sh_buf := read_at (repeat 0%N size) 0 got; sh_clients := [0]; sh_alive := true |};
          w_vars := [Some {| s_master := true; s_live := false; s_index := None; s_shared := true |}] |}.

Fixpoint run (strict : bool) (w : world) (l : list op) : res (list out) :=
  match l with
  | [] => Ok []
  | o :: l' =>
    do p <- exec strict w o;
    let '(w1, a) := p in
    do r <- run strict w1 l';
    Ok (a :: r)
  end.
Definition session (strict : bool) (strm : list N) (size incr : nat) (l : list op) : res (list out) :=
  do w <- start strm size incr; run strict w l.
