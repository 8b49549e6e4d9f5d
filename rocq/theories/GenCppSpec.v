(** What the generated function has to do: the same as lookup(). *)
From Verif Require Import Base StateMachine Lookup TableSpec LookupSpec GenCpp.
Local Open Scope N_scope.

(** The same results; results_.bol counts only if a rule uses ^. *)
Definition same (k : cfg) (a b : results) : Prop :=
  r_id a = r_id b /\ r_uid a = r_uid b /\ r_first a = r_first b /\ r_second a = r_second b /\
  r_state a = r_state b /\ r_stack a = r_stack b /\ (f_bol k = true -> r_bol a = r_bol b).

(** lookup() is used with the features of the machine, and the machine
    announces what its rows do (C47). *)
Record suits (k : cfg) (m : internals) : Prop := {
  su_bol : f_bol k = has (i_features m) fb_bol;
  su_eol : f_eol k = has (i_features m) fb_eol;
  su_rec : f_rec k = has (i_features m) fb_rec;
  su_multi : f_multi k = Nat.ltb 1 (length (i_dfa m));
  su_adv : f_adv k = true;
  su_bytes : 1 <= c_bytes k;
  su_skip : has (i_features m) fb_skip = false -> no_row_id m (skip_id k);
  su_again : has (i_features m) fb_again = false -> no_row_id m (i_eoi m)
}.
(** Nothing on the stack was pushed by a rule joined to the next token, unless
    the machine announces such rules. *)
Definition stack_suits (m : internals) (r : results) : Prop :=
  has (i_features m) fb_again = false -> Forall (fun p => snd p <> i_eoi m) (r_stack r).

(** With pointers: every start state has a row for the beginning of a line, if
    any has, and the column of unused characters is empty. *)
Definition pointers_suit (k : cfg) (m : internals) : Prop :=
  forall st t, get_table m st = Some t ->
    (f_bol k = true -> cell t 0 0 <> Some 0) /\ forall row v, cell t row ix_dead = Some v -> v = 0.

(** With $: narrow characters, only \n ends a line, and the last line has one. *)
Definition lines_suit (k : cfg) (inp : list N) : Prop :=
  c_bytes k = 1 /\ ~ In 13 inp /\ last inp 10 = 10.
