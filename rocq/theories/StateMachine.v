(** The data of a state machine: include/lexertl/internals.hpp and enums.hpp. *)
From Verif Require Import Base.
Local Open Scope N_scope.

(** internals.hpp:22-26. Values of id_type are [N]; the width of id_type is a
    parameter where it matters. *)
Record internals := {
  i_eoi : N;
  i_lookup : list (list N);      (* one 256 entry map per start state *)
  i_alphabet : list N;           (* row width per start state *)
  i_features : N;
  i_dfa : list (list N)          (* flattened rows per start state *)
}.

(** internals.hpp:28-35: clear(). *)
Definition empty_internals : internals :=
  {| i_eoi := 0; i_lookup := []; i_alphabet := []; i_features := 0; i_dfa := [] |}.

(** enums.hpp: state_index. *)
Definition ix_end : N := 0.
Definition ix_id : N := 1.
Definition ix_uid : N := 2.
Definition ix_push : N := 3.
Definition ix_next : N := 4.
Definition ix_eol : N := 5.
Definition ix_dead : N := 6.
Definition ix_trans : N := 7.

(** enums.hpp: state_bit. *)
Definition sb_end : N := 1.
Definition sb_greedy : N := 2.
Definition sb_pop : N := 4.

(** enums.hpp: feature_bit. *)
Definition fb_bol : N := 1.
Definition fb_eol : N := 2.
Definition fb_skip : N := 4.
Definition fb_again : N := 8.
Definition fb_multi : N := 16.
Definition fb_rec : N := 32.
Definition fb_adv : N := 64.

(** static_cast<id_type>(~0) and (~1), for an id_type of [bits] bits
    (match_results.hpp:107-115). *)
Definition npos_of (bits : N) : N := 2 ^ bits - 1.
Definition skip_of (bits : N) : N := 2 ^ bits - 2.
