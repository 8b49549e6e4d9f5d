(** What rules.hpp guarantees about the rules handed to the generator, and the
    restriction to rules without $ (see DESIGN.md). *)
From Verif Require Import Base StringToken StringTokenSpec StateMachine Slice ReToken Grammar Tree Parser
  Generator Build ParserKeys RuleSpec ParserRule DfaSpec Lookup TableSpec LookupSpec ParserTree.
Local Open Scope N_scope.

(** Rules without ^, and rules all of whose words begin with ^. *)
Definition plain_rule (r : grule) : Prop := forall w, rule_lang r w -> ~ In CBol w.
Definition anchored_rule (r : grule) : Prop :=
  forall w, rule_lang r w -> exists v, w = CBol :: v /\ ~ In CBol v.

(** ^ at most at the beginning of a word, and announced by the feature bit of the
    state. *)
Definition bol_rule (seen : bool) (r : grule) : Prop :=
  forall u v, rule_lang r (u ++ CBol :: v) -> u = [] /\ seen = true.

(** Tokens as the tokeniser makes them, balanced parentheses, no $, and ^ only
    at the beginning, announced by the feature bit of the state. *)
Record rule_wf (b : N) (seen : bool) (r : grule) : Prop := {
  rw_tokens : exists ts, rule_tokens r ts /\ Forall (tok_ok b) ts /\ balanced ts /\ no_eol ts;
  rw_bol : bol_rule seen r
}.
(** The distinct byte sets of a state, listed in [A], can be numbered below the
    two marker tokens. *)
Definition state_wf (k : gcfg) (g : gstate) : Prop :=
  Forall (rule_wf (g_bytes k) (has_bol (gs_features g))) (gs_rules g) /\
  exists A, N.of_nat (length A) < eol_tok k /\
    forall r t, In r (gs_rules g) -> In t (gr_tokens r) -> incl (tok_sets (g_bytes k) t) A.
Definition rules_wf (k : gcfg) (R : grules) : Prop := Forall (state_wf k) (gr_states R).

(** Start states named by the rules exist; a rule that pops names none. *)
Definition targets_ok (k : gcfg) (R : grules) : Prop :=
  forall g r, In g (gr_states R) -> In r (gs_rules g) ->
    (gr_next r < N.of_nat (length (gr_states R)) \/ gr_pop r = true) /\
    (gr_push r = gnpos k \/ gr_push r < N.of_nat (length (gr_states R))).

(** A rule is well formed text of the grammar. *)
Definition parses (r : grule) : Prop := exists ts o, rule_tokens r ts /\ ogram o ts.

(** No abstemious operator. *)
Definition eager (r : grule) : Prop := has_lazy (gr_tokens r) = false.

(** Rule number [j] of [rs] is the one returned for some text. *)
Definition returnable (rs : list grule) (j : nat) : Prop :=
  exists r bol cs, nth_error rs j = Some r /\ rmatch r bol cs /\
    forall j' r', (j' < j)%nat -> nth_error rs j' = Some r' -> ~ rmatch r' bol cs.
(** Number of rules. *)
Definition rule_count (R : grules) : nat := length (concat (map gs_rules (gr_states R))).

(** ** A lexer at work *)
(** The same id type and character width on both sides. *)
Definition agree (k : cfg) (g : gcfg) : Prop := npos k = gnpos g /\ c_bytes k = g_bytes g.

(** Results that name an existing start state, now and on the stack. *)
Definition in_range (R : grules) (inp : list N) (r : results) : Prop :=
  r_state r < N.of_nat (length (gr_states R)) /\
  Forall (fun p => fst p < N.of_nat (length (gr_states R))) (r_stack r) /\
  (r_second r <= length inp)%nat.
(** [m] was built from the rules [R]; lookup() is called on results [r] in [inp].
    Rules that pop need results with a stack (recursive_match_results). *)
Record setting (f : nat) (k : cfg) (g : gcfg) (R : grules) (m : internals) (inp : list N) (r : results) : Prop := {
  se_agree : agree k g;
  se_wide : wide_ok g;
  se_rules : rules_wf g R;
  se_targets : targets_ok g R;
  se_pop : forall gs x, In gs (gr_states R) -> In x (gs_rules gs) -> gr_pop x = true -> f_rec k = true;
  se_build : build f g R = Ok m;
  se_input : Forall (fits (c_bytes k)) inp;
  se_results : in_range R inp r
}.
(** No rule is skipped or joined to the next token. *)
Definition ids_plain (k : cfg) (R : grules) : Prop :=
  forall gs x, In gs (gr_states R) -> In x (gs_rules gs) -> gr_id x <> gr_eoi R /\ gr_id x <> skip_id k.
