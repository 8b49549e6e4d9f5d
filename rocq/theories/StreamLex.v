(** Model of lookup.hpp, iterator.hpp and str() used with stream_shared_iterator. The
    iterators share a buffer, so what one does moves the others: lookup() is a program
    that constructs, copies, assigns, advances, compares and destroys the variables of
    StreamIter.v, which are numbered in the order of their construction. *)
From Verif Require Import Base StateMachine Lookup Iterator StreamIter StreamSpec AnyIter.
Local Open Scope N_scope.

(** A program: one operation after the other, depending on what they return. *)
Inductive prog (A : Type) :=
| Ret (r : res A)
| Do (o : op) (f : out -> prog A).
Arguments Ret {A} r.
Arguments Do {A} o f.
Fixpoint pbind {A B} (p : prog A) (g : A -> prog B) : prog B :=
  match p with
  | Ret (Ok a) => g a
  | Ret (Throw e) => Ret (Throw e)
  | Ret UB => Ret UB
  | Ret Fuel => Ret Fuel
  | Do o f => Do o (fun b => pbind (f b) g)
  end.
Notation "'go' x <- p ; q" := (pbind p (fun x => q)) (at level 200, x pattern, p at level 100, q at level 200).
(** Running it on the shared buffer, and on places in the stream. *)
Fixpoint prun {A} (strict : bool) (w : world) (p : prog A) : res (world * A) :=
  match p with
  | Ret r => do a <- r; Ok (w, a)
  | Do o f => do q <- exec strict w o; let '(w1, b) := q in prun strict w1 (f b)
  end.
Fixpoint aprun {A} (strm : list N) (a : ideal) (p : prog A) : res (ideal * A) :=
  match p with
  | Ret r => do x <- r; Ok (a, x)
  | Do o f => match aexec strm a o with Some (a1, b) => aprun strm a1 (f b) | None => UB end
  end.

Definition pval {A} (a : A) : prog A := Ret (Ok a).
Definition pub {A} : prog A := Ret UB.
Definition peq (x y : nat) : prog bool := Do (OEq x y) (fun o => match o with OBool b => pval b | _ => pub end).
Definition pget (x : nat) : prog N := Do (ODeref x) (fun o => match o with OChar c => pval c | _ => pub end).
Definition pcmd (o : op) : prog unit := Do o (fun _ => pval tt).

(** lookup.hpp:262-278: end_state, where end_token_ and curr_ are the variables
    [et] and [c]. *)
Definition pend_state (k : cfg) (t : table) (s : lstate) (et c : nat) : prog lstate :=
  match aend_state bool k t s false true with
  | None => pub
  | Some (s', true) => go _ <- pcmd (OAssign et c); pval s'
  | Some (s', false) => pval s'
  end.
(** lookup.hpp:407-434: the while loop; [e] is results_.eoi. *)
Fixpoint pscan (fuel : nat) (k : cfg) (t : table) (c et e : nat) (s : lstate) : prog lstate :=
  go b <- peq c e;                                             (* 407 *)
  if b then pval s
  else
    match fuel with
    | O => Ret Fuel
    | S f =>
      go ch <- pget c;                                         (* 409 *)
      match is_eol k t ch s with
      | None => pub
      | Some (true, s1) => go s2 <- pend_state k t s1 et c; pscan f k t c et e s2
      | Some (false, s1) =>
        go ch2 <- pget c;                                      (* 412 *)
        match next_char k t ch2 (ls_ptr s1) with
        | None => pub
        | Some (st, p) =>
          let s2 := set_ptr s1 p in
          let s3 := if f_bol k then set_bol s2 (ch2 =? 10) else s2 in
          if st =? 0 then
            match is_eol k t (npos k) s3 with
            | None => pub
            | Some (_, s4) => pval s4
            end
          else
            go _ <- pcmd (OInc c);                             (* 428 *)
            go s4 <- pend_state k t s3 et c; pscan f k t c et e s4
        end
      end
    end.
(** lookup.hpp:280-302: check_eol; eoi_ is a copy of results_.eoi, the variable [n]. *)
Definition pcheck_eol (k : cfg) (t : table) (n et c e : nat) (s : lstate) : prog lstate :=
  go _ <- pcmd (OCopy e);
  go s' <- (if f_eol k && negb (ls_eol s =? npos k) then
              go b <- peq c n;
              if b then
                match cell t (ls_ptr s) ix_eol with
                | None => pub
                | Some v =>
                  let s1 := set_eol s v in
                  if v =? 0 then pval s1 else pend_state k t (set_ptr s1 v) et c
                end
              else pval s
            else pval s);
  go _ <- pcmd (ODestroy n);
  pval s'.
(** lookup.hpp:401-440. *)
Definition pattempt (fuel : nat) (k : cfg) (m : internals) (bol : bool) (state : N) (n c et e : nat) : prog lstate :=
  match get_table m state with
  | None => pub
  | Some t =>
    match ls_init t bol state with
    | None => pub
    | Some s0 =>
      match bol_start k t s0 with
      | None => pub
      | Some s1 => go s2 <- pscan fuel k t c et e s1; pcheck_eol k t n et c e s2
      end
    end
  end.
(** match_results.hpp:37-43, 149 without the iterators. *)
Record presults := { p_id : N; p_uid : N; p_bol : bool; p_state : N; p_stack : list (N * N) }.
(** The end of the scope of curr_ and end_token_. *)
Definition pleave {A} (c et : nat) (a : A) : prog A :=
  go _ <- pcmd (ODestroy c); go _ <- pcmd (ODestroy et); pval a.
(** lookup.hpp:391-470: from again on; skip starts with a new curr_, the variable [n].
    Returned: the results, the exception if there is one, and how many variables there were. *)
Fixpoint pagain (fuel inner : nat) (k : cfg) (m : internals) (f s e : nat) (r : presults) (n c et : nat) : prog (presults * option err * nat) :=
  go b <- peq c e;                                             (* 394 *)
  if b then pleave c et ({| p_id := i_eoi m; p_uid := npos k; p_bol := p_bol r; p_state := p_state r; p_stack := p_stack r |}, None, n)
  else
    match fuel with
    | O => Ret Fuel
    | S fu =>
      go ls <- pattempt inner k m (p_bol r) (p_state r) n c et e;
      let n := S n in
      if ls_end ls then
        match pop k ls (p_stack r) with
        | None => pleave c et (r, Some EUnderflow, n)
        | Some (start, stack) =>
          let r1 := {| p_id := p_id r; p_uid := p_uid r; p_bol := if f_bol k then ls_end_bol ls else p_bol r;
                       p_state := if f_multi k then start else p_state r; p_stack := stack |} in
          go _ <- pcmd (OAssign s et);                         (* 449 *)
          if ls_id ls =? skip_id k then                        (* 451 *)
            go _ <- pcmd (ODestroy c);
            go _ <- pcmd (OCopy s); go _ <- pcmd (OAssign f n);   (* 389-391 *)
            pagain fu inner k m f s e r1 (S n) n et
          else if is_id_eoi k (i_eoi m) ls stack then          (* 453-457 *)
            go _ <- pcmd (OAssign c et);
            pagain fu inner k m f s e r1 n c et
          else pleave c et ({| p_id := ls_id ls; p_uid := ls_uid ls; p_bol := p_bol r1; p_state := p_state r1; p_stack := stack |}, None, n)
        end
      else
        go _ <- pcmd (OAssign s et);                           (* 461 *)
        go ch <- pget s;
        go _ <- pcmd (OAssign f s);
        go _ <- (if f_adv k then pcmd (OInc s) else pval tt);
        pleave c et ({| p_id := npos k; p_uid := npos k; p_bol := ch =? 10; p_state := p_state r; p_stack := p_stack r |}, None, n)
    end.
(** lookup.hpp:379-470. *)
Definition plookup (fuel inner : nat) (k : cfg) (m : internals) (f s e : nat) (r : presults) (n : nat) : prog (presults * option err * nat) :=
  go _ <- pcmd (OCopy s);                                      (* 387: end_token_ *)
  go _ <- pcmd (OCopy s);                                      (* 389: curr_ *)
  go _ <- pcmd (OAssign f (S n));                              (* 391 *)
  pagain fuel inner k m f s e r (S (S n)) (S n) n.

(** match_results.hpp:59-62: str(): string(first, second), whose arguments are copies. *)
Fixpoint pread (fuel x y : nat) : prog (list N) :=
  go b <- peq x y;
  if b then pval []
  else match fuel with
       | O => Ret Fuel
       | S fu => go ch <- pget x; go _ <- pcmd (OInc x); go l <- pread fu x y; pval (ch :: l)
       end.
Definition pstr (fuel f s n : nat) : prog (list N) :=
  go _ <- pcmd (OCopy f); go _ <- pcmd (OCopy s);
  go l <- pread fuel n (S n);
  go _ <- pcmd (ODestroy n); go _ <- pcmd (ODestroy (S n)); pval l.

(** for (; iter != end; ++iter) use iter->id, iter->user_id and iter->str(). *)
Definition word := (N * N * list N)%type.
Fixpoint pvisit (cnt fuel inner : nat) (k : cfg) (m : internals) (f s e : nat) (r : presults) (live : bool) (n : nat) : prog (list word * option err) :=
  if live then
    match cnt with
    | O => Ret Fuel
    | S cnt' =>
      go text <- pstr fuel f s n;
      go p <- plookup fuel inner k m f s e r (S (S n));
      let '(r', o, n') := p in
      match o with
      | Some er => pval ([(p_id r, p_uid r, text)], Some er)
      | None =>
        go b <- peq f e;                                       (* iterator.hpp:90 *)
        go q <- pvisit cnt' fuel inner k m f s e r' (negb b) n';
        let '(l, o') := q in pval ((p_id r, p_uid r, text) :: l, o')
      end
    end
  else pval ([], None).
(** The iterator over the stream is the variable 0, the end the variable 1; first,
    second and eoi of the results are the variables 2, 3 and 4 (match_results.hpp:47-55). *)
Definition pvisit_all (cnt fuel inner : nat) (k : cfg) (m : internals) (bol : bool) (state : N) : prog (list word * option err) :=
  go _ <- pcmd ODefault;
  go _ <- pcmd (OCopy 0); go _ <- pcmd (OCopy 0); go _ <- pcmd (OCopy 1);
  go p <- plookup fuel inner k m 2 3 4 {| p_id := 0; p_uid := npos k; p_bol := bol; p_state := state; p_stack := [] |} 5;
  let '(r, o, n) := p in
  match o with
  | Some er => pval ([], Some er)
  | None => go b <- peq 2 4; pvisit cnt fuel inner k m 2 3 4 r (negb b) n
  end.
(** All of it, from the construction of the iterator with a buffer of [size]
    characters that grows by [incr]. *)
Definition stream_words (strict : bool) (strm : list N) (size incr cnt fuel inner : nat) (k : cfg) (m : internals) : res (list word * option err) :=
  do w <- start strm size incr; do p <- prun strict w (pvisit_all cnt fuel inner k m true 0); Ok (snd p).
