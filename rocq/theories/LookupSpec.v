(** What one token is, in terms of walks over the tables (TableSpec). *)
From Verif Require Import Base StateMachine Lookup TableSpec.
Local Open Scope N_scope.

(** From position [p] the longest walk over an accepting row ends at [q] in
    row [row]. *)
Definition matches (k : cfg) (t : table) (inp : list N) (bol : bool) (p : nat)
    (row : N) (q : nat) : Prop :=
  exists start b, start_row k t bol start /\
    last_match k t inp (start, p, false) b /\ crow b = row /\ cpos b = q.

(** No accepting row is reached from position [p]. *)
Definition unmatched (k : cfg) (t : table) (inp : list N) (bol : bool) (p : nat) : Prop :=
  exists start, start_row k t bol start /\ no_match k t inp (start, p, false).

(** Effect of an accepted row with flags [e], push value [push], next state
    [next] and id [id] on start state and stack. *)
Definition stack_step (k : cfg) (e push next id : N) (st st' : N)
    (stack stack' : list (N * N)) : Prop :=
  if f_rec k then
    if negb (N.land e sb_pop =? 0) then
      exists s i, stack = (s, i) :: stack' /\ st' = if f_multi k then s else st
    else (stack' = if push =? npos k then stack else (push, id) :: stack) /\
         st' = (if f_multi k then next else st)
  else stack' = stack /\ st' = (if f_multi k then next else st).

(** Popping is asked for on an empty stack. *)
Definition underflows (k : cfg) (e : N) (stack : list (N * N)) : Prop :=
  f_rec k = true /\ N.land e sb_pop <> 0 /\ stack = [].

(** [hits r e push next id uid q]: at the position of [r] the machine matches
    up to [q] with the given row contents. A row 1 that accepts (empty match) is
    used if nothing else matches; it keeps the start state. *)
Definition hits (k : cfg) (m : internals) (inp : list N) (r : results)
    (e push next id uid : N) (q : nat) : Prop :=
  exists t, get_table m (r_state r) = Some t /\
    ((exists row, matches k t inp (r_bol r) (r_second r) row q /\
        cell t row ix_end = Some e /\ cell t row ix_push = Some push /\
        cell t row ix_next = Some next /\ cell t row ix_id = Some id /\
        cell t row ix_uid = Some uid)
     \/
     (unmatched k t inp (r_bol r) (r_second r) /\ q = r_second r /\ e <> 0 /\
        cell t 1 ix_end = Some e /\ cell t 1 ix_push = Some push /\
        next = r_state r /\ cell t 1 ix_id = Some id /\ cell t 1 ix_uid = Some uid)).

(** Nothing matches at the position of [r]. *)
Definition misses (k : cfg) (m : internals) (inp : list N) (r : results) : Prop :=
  exists t, get_table m (r_state r) = Some t /\
    unmatched k t inp (r_bol r) (r_second r) /\ cell t 1 ix_end = Some 0.

(** One accepted piece of text: from the position and environment of [r] to
    those of [r']; id, user id and first of the results are not looked at. *)
Definition eats (k : cfg) (m : internals) (inp : list N) (r : results)
    (e id uid : N) (r' : results) : Prop :=
  exists push next q, hits k m inp r e push next id uid q /\
    stack_step k e push next id (r_state r) (r_state r') (r_stack r) (r_stack r') /\
    r_second r' = q /\
    r_bol r' = (if f_bol k then bol_at inp (r_bol r) (r_second r) q else r_bol r).

(** The text is joined to the next token: its id is the eoi id, or it pops and
    the entry below was pushed by a rule with that id. *)
Definition joins (k : cfg) (m : internals) (e id : N) (stack : list (N * N)) : Prop :=
  id = i_eoi m \/
  (f_rec k = true /\ N.land e sb_pop <> 0 /\ exists s rest, stack = (s, i_eoi m) :: rest).

(** A whole call of lookup: [looks first r r' thrown]. *)
Inductive looks (k : cfg) (m : internals) (inp : list N)
  : nat -> results -> results -> option err -> Prop :=
| looks_eoi first r r' :
    r_second r = length inp ->
    r' = {| r_id := i_eoi m; r_uid := npos k; r_first := first; r_second := r_second r;
            r_bol := r_bol r; r_state := r_state r; r_stack := r_stack r |} ->
    looks k m inp first r r' None
| looks_token first r e id uid r' :
    (r_second r < length inp)%nat ->
    eats k m inp r e id uid r' -> id <> skip_id k -> ~ joins k m e id (r_stack r') ->
    r_id r' = id -> r_uid r' = uid -> r_first r' = first ->
    looks k m inp first r r' None
| looks_skip first r e uid r1 r' o :
    (r_second r < length inp)%nat ->
    eats k m inp r e (skip_id k) uid r1 -> looks k m inp (r_second r1) r1 r' o ->
    looks k m inp first r r' o
| looks_join first r e id uid r1 r' o :
    (r_second r < length inp)%nat ->
    eats k m inp r e id uid r1 -> id <> skip_id k -> joins k m e id (r_stack r1) ->
    looks k m inp first r1 r' o -> looks k m inp first r r' o
| looks_none first r c r' :
    nth_error inp (r_second r) = Some c -> misses k m inp r ->
    r' = {| r_id := npos k; r_uid := npos k; r_first := r_second r;
            r_second := if f_adv k then S (r_second r) else r_second r;
            r_bol := (c =? 10); r_state := r_state r; r_stack := r_stack r |} ->
    looks k m inp first r r' None
| looks_throw first r e push next id uid q r' :
    (r_second r < length inp)%nat ->
    hits k m inp r e push next id uid q -> underflows k e (r_stack r) ->
    r_first r' = first -> r_second r' = r_second r -> r_bol r' = r_bol r ->
    r_state r' = r_state r -> r_stack r' = r_stack r ->
    looks k m inp first r r' (Some EUnderflow).

(** Well formed machines and results. A row that pops names no next state. *)
Definition mwf (k : cfg) (m : internals) : Prop :=
  forall st, st < N.of_nat (length (i_dfa m)) ->
    exists t n, get_table m st = Some t /\ twf k t n /\
      (forall row, row < n -> accepting t row ->
        (exists v, cell t row ix_next = Some v /\
           (v < N.of_nat (length (i_dfa m)) \/
            (row <> 0 /\ f_rec k = true /\ exists e, cell t row ix_end = Some e /\ N.land e sb_pop <> 0))) /\
        (exists v, cell t row ix_push = Some v /\
           (v = npos k \/ v < N.of_nat (length (i_dfa m))))).

Definition rwf (m : internals) (inp : list N) (r : results) : Prop :=
  r_state r < N.of_nat (length (i_dfa m)) /\
  Forall (fun p => fst p < N.of_nat (length (i_dfa m))) (r_stack r) /\
  (r_second r <= length inp)%nat.

(** No end of line transition leads back to itself, in any start state. *)
Definition eol_acyclic (m : internals) (b : nat) : Prop :=
  forall st t, get_table m st = Some t -> eol_ranked t b.

(** One or more end of line transitions. *)
Inductive eol_chain (k : cfg) (t : table) : N -> N -> Prop :=
| ec_one a b : eol_to k t a b -> eol_chain k t a b
| ec_more a b c : eol_to k t a b -> eol_chain k t b c -> eol_chain k t a c.

(** The empty string is not accepted: neither by row 1 nor after taking an end
    of line without consuming anything. *)
Definition no_empty_match (k : cfg) (m : internals) : Prop :=
  forall st t, get_table m st = Some t ->
    ~ accepting t 1 /\
    forall bol row row', start_row k t bol row -> eol_chain k t row row' -> ~ accepting t row'.

(** Ids: no accepted row is a skip rule / has the eoi id. (Row 0 is never
    entered; its cell 0 is the row for the beginning of a line.) *)
Definition no_row_id (m : internals) (id : N) : Prop :=
  forall st t row, get_table m st = Some t -> row <> 0 -> accepting t row ->
    cell t row ix_id <> Some id.

(** Repeated calls: the results after [n] calls, all of which returned. *)
Inductive calls (k : cfg) (m : internals) (inp : list N) : nat -> results -> results -> Prop :=
| calls_0 r : calls k m inp 0 r r
| calls_S n r r1 r2 fuel inner :
    lookup fuel inner k m inp r = Ok (r1, None) -> calls k m inp n r1 r2 ->
    calls k m inp (S n) r r2.
