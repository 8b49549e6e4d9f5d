(** What a transition table means, independently of the lookup loop: a
    character by character walk over configurations. *)
From Verif Require Import Base StateMachine Lookup.
Local Open Scope N_scope.

(** The bytes of a character, most significant first. *)
Definition char_bytes (k : cfg) (c : N) : list N :=
  if c_bytes k =? 1 then [c]
  else if c_bytes k =? 2 then [(c / 256) mod 256; c mod 256]
  else [(c / 65536) mod 256; (c / 256) mod 256; c mod 256].

(** [walk t row bs row']: reading the bytes [bs] leads from [row] to [row'],
    never through the dead row 0. *)
Inductive walk (t : table) : N -> list N -> N -> Prop :=
| walk_nil row : walk t row [] row
| walk_cons row b col row1 bs row2 :
    column t b = Some col -> cell t row col = Some row1 -> row1 <> 0 ->
    walk t row1 bs row2 -> walk t row (b :: bs) row2.

(** A configuration: row, position in the input, and whether the end of input
    was already taken as an end of line. *)
Definition config := (N * nat * bool)%type.

(** Row [row] has an end of line transition to [e]. *)
Definition eol_to (k : cfg) (t : table) (row e : N) : Prop :=
  f_eol k = true /\ cell t row ix_eol = Some e /\ e <> 0.

Inductive vstep (k : cfg) (t : table) (inp : list N) : config -> config -> Prop :=
| vs_char row p c row' :
    nth_error inp p = Some c ->
    (c = 13 \/ c = 10 -> forall e, ~ eol_to k t row e) ->
    walk t row (char_bytes k c) row' ->
    vstep k t inp (row, p, false) (row', S p, false)
| vs_eol row p c e :
    nth_error inp p = Some c -> c = 13 \/ c = 10 -> eol_to k t row e ->
    vstep k t inp (row, p, false) (e, p, false)
| vs_end row e :
    eol_to k t row e ->
    vstep k t inp (row, length inp, false) (e, length inp, true).

(** One or more steps. *)
Inductive vplus (k : cfg) (t : table) (inp : list N) : config -> config -> Prop :=
| vp_one a b : vstep k t inp a b -> vplus k t inp a b
| vp_more a b c : vstep k t inp a b -> vplus k t inp b c -> vplus k t inp a c.

Definition crow (c : config) : N := fst (fst c).
Definition cpos (c : config) : nat := snd (fst c).

Definition accepting (t : table) (row : N) : Prop :=
  exists e, cell t row ix_end = Some e /\ e <> 0.

(** [last_match a b]: [b] is the last accepting configuration after [a]. *)
Definition last_match (k : cfg) (t : table) (inp : list N) (a b : config) : Prop :=
  vplus k t inp a b /\ accepting t (crow b) /\
  forall c, vplus k t inp b c -> ~ accepting t (crow c).

Definition no_match (k : cfg) (t : table) (inp : list N) (a : config) : Prop :=
  forall c, vplus k t inp a c -> ~ accepting t (crow c).

(** Well formed tables: complete rows, targets inside the table. *)
Definition twf (k : cfg) (t : table) (n : N) : Prop :=
  2 <= n /\ n <= npos k /\ ix_trans <= t_width t /\
  N.of_nat (length (t_dfa t)) = n * t_width t /\
  length (t_lookup t) = 256%nat /\
  Forall (fun col => ix_dead <= col < t_width t) (t_lookup t) /\
  (forall row col v, row < n -> ix_eol <= col < t_width t -> cell t row col = Some v -> v < n) /\
  (forall v, cell t 0 0 = Some v -> v < n).

(** Characters representable by a character type of [c_bytes] bytes; for 1 byte
    types this is what makes [_lookup[c]] legal. *)
Definition chars_ok (k : cfg) (inp : list N) : Prop :=
  c_bytes k = 1 -> Forall (fun c => c < 256) inp.

(** End of line transitions do not form cycles: a rank decreases along them. *)
Definition eol_ranked (t : table) (b : nat) : Prop :=
  exists rank : N -> nat, forall row, (rank row <= b)%nat /\
    forall e, cell t row ix_eol = Some e -> e <> 0 -> (rank e < rank row)%nat.

(** Row from which an attempt starts (row 0, cell 0 is the row to use at the
    beginning of a line, if any). *)
Definition start_row (k : cfg) (t : table) (bol : bool) (row : N) : Prop :=
  if f_bol k && bol then
    exists b, cell t 0 0 = Some b /\ row = (if b =? 0 then 1 else b)
  else row = 1.

(** The bol flag after reading from [p] to [q]. *)
Definition bol_at (inp : list N) (bol : bool) (p q : nat) : bool :=
  if Nat.eqb p q then bol
  else match nth_error inp (q - 1) with Some c => c =? 10 | None => false end.

(** The contents of an accepting row, as kept by lookup_state. *)
Definition row_info (k : cfg) (t : table) (row : N) (s : lstate) : Prop :=
  cell t row ix_id = Some (ls_id s) /\ cell t row ix_uid = Some (ls_uid s) /\
  (f_multi k = true -> cell t row ix_next = Some (ls_start s)) /\
  (f_rec k = true -> exists e, cell t row ix_end = Some e /\
      ls_pop s = negb (N.land e sb_pop =? 0) /\ cell t row ix_push = Some (ls_push s)).
