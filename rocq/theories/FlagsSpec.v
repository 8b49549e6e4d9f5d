(** Feature flags of match_results that a machine has no use for. *)
From Verif Require Import Base StateMachine Lookup TableSpec LookupSpec.
Local Open Scope N_scope.

(** No start state has a row for the beginning of a line. *)
Definition bol_free (m : internals) : Prop := forall st t, get_table m st = Some t -> cell t 0 0 = Some 0.
(** No row has an end of line transition. *)
Definition eol_free (m : internals) : Prop := forall st t row v, get_table m st = Some t -> cell t row ix_eol = Some v -> v = 0.
(** No row pushes or pops. *)
Definition stack_free (k : cfg) (m : internals) : Prop := forall st t row, get_table m st = Some t -> row <> 0 -> accepting t row ->
  (exists e, cell t row ix_end = Some e /\ N.land e sb_pop = 0) /\ cell t row ix_push = Some (npos k).
(** There is one start state. *)
Definition one_state (m : internals) : Prop := length (i_dfa m) = 1%nat.

(** The flags differ only in features that the machine does not use. *)
Record idle_flags (k k' : cfg) (m : internals) : Prop := {
  id_bytes : c_bytes k = c_bytes k';
  id_bits : c_bits k = c_bits k';
  id_adv : f_adv k = f_adv k';
  id_bol : f_bol k = f_bol k' \/ bol_free m;
  id_eol : f_eol k = f_eol k' \/ eol_free m;
  id_rec : f_rec k = f_rec k' \/ stack_free k m;
  id_multi : f_multi k = f_multi k' \/ one_state m
}.
(** The same results; bol counts if both use it. *)
Definition alike (k k' : cfg) (a b : results) : Prop :=
  r_id a = r_id b /\ r_uid a = r_uid b /\ r_first a = r_first b /\ r_second a = r_second b /\
  r_state a = r_state b /\ r_stack a = r_stack b /\ (f_bol k = true -> f_bol k' = true -> r_bol a = r_bol b).
