(** Rules with $: what they should do, in terms of the characters their regular
    expressions match. *)
From Verif Require Import Base StringToken StringTokenSpec StateMachine Slice ReToken Grammar Tree Parser
  Generator Build ParserKeys RuleSpec ParserRule DfaSpec Lookup TableSpec LookupSpec ParserTree BuildSpec TokeniseSpec.
Local Open Scope N_scope.

(** A rule matches the characters [cs] and then the end of a line; the beginning
    of a line as in [rmatch]. *)
Definition ematch (r : grule) (bol : bool) (cs : list N) : Prop :=
  if bol then rule_lang r (CBol :: map CChar cs ++ [CEol]) \/ (~ has_anchor r /\ rule_lang r (map CChar cs ++ [CEol]))
  else rule_lang r (map CChar cs ++ [CEol]).
(** The rule matches the place alone, the end of a line. *)
Definition only_place (r : grule) : Prop := rule_lang r [CEol] \/ rule_lang r [CBol; CEol].

(** All words of the rule end with $. *)
Definition ends_line (r : grule) : Prop := forall w, rule_lang r w -> exists v, w = v ++ [CEol].
(** At most [b] times $ in a row. *)
Definition eol_bounded (b : nat) (r : grule) : Prop :=
  forall u v j, rule_lang r (u ++ repeat CEol j ++ v) -> (j <= b)%nat.
(** The rule cannot match without consuming something: neither the empty string
    nor, at an end of line, only $ or ^$. *)
Definition consumes (r : grule) : Prop :=
  forall j, ~ rule_lang r (repeat CEol j) /\ ~ rule_lang r (CBol :: repeat CEol (S j)).

(** Position [p] stands at the end of a line. *)
Definition at_line_end (inp : list N) (p : nat) : Prop :=
  nth_error inp p = Some 13 \/ nth_error inp p = Some 10 \/ p = length inp.

(** What rules.hpp guarantees about the rules handed to the generator: tokens as
    the tokeniser makes them, balanced parentheses; nothing about ^ and $. *)
Definition rule_fair (b : N) (r : grule) : Prop :=
  exists ts, rule_tokens r ts /\ Forall (tok_ok b) ts /\ balanced ts.
Definition state_fair (k : gcfg) (g : gstate) : Prop :=
  Forall (rule_fair (g_bytes k)) (gs_rules g) /\
  exists A, N.of_nat (length A) < eol_tok k /\
    forall r t, In r (gs_rules g) -> In t (gr_tokens r) -> incl (tok_sets (g_bytes k) t) A.
Definition rules_fair (k : gcfg) (R : grules) : Prop := Forall (state_fair k) (gr_states R).

(** As [setting], for any rules. *)
Record fair_setting (f : nat) (k : cfg) (g : gcfg) (R : grules) (m : internals) (inp : list N) (r : results)
    : Prop := {
  fs_agree : agree k g;
  fs_wide : wide_ok g;
  fs_rules : rules_fair g R;
  fs_targets : targets_ok g R;
  fs_pop : forall gs x, In gs (gr_states R) -> In x (gs_rules gs) -> gr_pop x = true -> f_rec k = true;
  fs_build : build f g R = Ok m;
  fs_input : Forall (fits (c_bytes k)) inp;
  fs_results : in_range R inp r
}.
Definition each_rule (R : grules) (P : grule -> Prop) : Prop :=
  forall gs x, In gs (gr_states R) -> In x (gs_rules gs) -> P x.

(** As the tokeniser emits it (C45): $ is the last token or absent. *)
Definition dollar_last (r : grule) : Prop := exists ts, rule_tokens r ts /\ eol_last ts.
(** The rule matches something, not only the place. *)
Definition substantial (r : grule) : Prop := ~ rmatch r false [] /\ ~ only_place r.
