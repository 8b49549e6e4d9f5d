(** What a dump of a machine shows of it. *)
From Verif Require Import Base StringToken StringTokenSpec CharMachine DebugSpec.
Local Open Scope N_scope.

(** Two states that look the same: ids, the next state and the stack operation
    count in end states only. *)
Record looks_like (s s' : cstate) : Prop := {
  ll_end : cs_end s = cs_end s';
  ll_what : cs_end s = true -> cs_kind s = cs_kind s' /\ cs_id s = cs_id s' /\ cs_uid s = cs_uid s' /\ cs_next s = cs_next s';
  ll_push : cs_end s = true -> cs_kind s = KPush -> cs_push s = cs_push s';
  ll_eol : cs_eol s = cs_eol s';
  ll_trans : cs_trans s = cs_trans s'
}.
Record dfa_like (d d' : cdfa) : Prop := {
  dl_states : Forall2 looks_like (cd_states d) (cd_states d');
  dl_bol : cd_states d <> [] -> cd_bol d = cd_bol d'
}.
(** The classes of the moves are classes of characters, and can be read where
    they are written: a blank follows. *)
Definition clear_class (max : N) (t : stoken) : Prop := wf t /\ t <> [] /\ bounded max t /\ legible max t [32].
Definition clear_moves (max : N) (d : cdfa) : Prop :=
  forall s q t, In s (cd_states d) -> In (q, t) (cs_trans s) -> clear_class max t.
