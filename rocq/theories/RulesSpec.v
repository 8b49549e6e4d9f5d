(** What the public members of rules keep true. *)
From Verif Require Import Base StringToken StateMachine Tree Generator ReToken Parser Build ReTokeniser ReTokeniserNext Rules
  TokeniseSpec PruneProofs TokeniseAll.
Local Open Scope N_scope.

(** Any sequence of calls on a new object, failing or not. *)
Inductive history (k : rcfg) : list op -> rules -> Prop :=
| hi_new flags : history k [] (make_rules k flags)
| hi_call os o r : history k os r -> history k (os ++ [o]) (fst (apply k o r)).

(** One entry per start state in every table, one start state per name, and the
    tables of a start state have the same length. *)
Record aligned (k : rcfg) (r : rules) : Prop := {
  al_states : length (ru_regexes r) = length (ru_map r) /\ length (ru_strings r) = length (ru_map r) /\
    length (ru_features r) = length (ru_map r) /\ length (ru_ids r) = length (ru_map r) /\
    length (ru_uids r) = length (ru_map r) /\ length (ru_nexts r) = length (ru_map r) /\
    length (ru_pushes r) = length (ru_map r) /\ length (ru_pops r) = length (ru_map r);
  al_rows : forall i, let n := length (nth i (ru_regexes r) []) in
    length (nth i (ru_strings r) []) = n /\ length (nth i (ru_ids r) []) = n /\
    length (nth i (ru_uids r) []) = n /\ length (nth i (ru_nexts r) []) = n /\
    length (nth i (ru_pushes r) []) = n /\ length (nth i (ru_pops r) []) = n;
  al_once : NoDup (map fst (ru_map r));
  al_index : forall j name i, nth_error (ru_map r) j = Some (name, i) -> i = N.of_nat j mod 2 ^ r_bits k;
  al_first : exists m, ru_map r = (initial, 0) :: m /\ ru_names r = map fst m;
  al_names : Forall (fun e => validate (fst e) = true) (ru_map r)
}.

(** Nothing but the start states, or nothing at all, was changed. *)
Definition grows (r r' : rules) : Prop := exists m, ru_map r' = ru_map r ++ m.

(** The rules of start state [i]. *)
Definition rules_at (r : rules) (i : nat) : list grule :=
  zip_rules (nth i (ru_regexes r) []) (nth i (ru_ids r) []) (nth i (ru_uids r) [])
            (nth i (ru_nexts r) []) (nth i (ru_pushes r) []) (nth i (ru_pops r) []).

(** A rule with a token vector as the tokeniser makes it, that names existing
    start states ([n] of them). *)
Definition good_rule (k : rcfg) (n : nat) (x : grule) : Prop :=
  mvec (chars (r_bytes k)) (gr_tokens x) /\
  (gr_next x < N.of_nat n \/ gr_pop x = true) /\
  (gr_push x = rnpos k \/ gr_push x < N.of_nat n) /\ gr_id x <> rnpos k.
Record content (k : rcfg) (r : rules) : Prop := {
  co_macros : macros_ok (chars (r_bytes k)) (ru_macros r);
  co_rules : forall i, Forall (good_rule k (length (ru_map r))) (rules_at r i)
}.

(** Texts: the characters exist, numbers fit a size_t and a count of zero is
    written 0 (findings 8 and 34). *)
Definition text_ok (k : rcfg) (r : rules) (ms : macros) (regex : list N) (rule : bool) : Prop :=
  small (r_bytes k) regex /\ numbers_fit regex /\
  (rule = true -> forall w, tok_loop (S (length regex)) (r_bytes k) ms (start_state (ru_flags r) regex) [tok BEGIN] [] None = Ok (between w) ->
     Forall zero_plain w).
Definition op_ok (k : rcfg) (r : rules) (o : op) : Prop :=
  match o with
  | OMacro name x => text_ok k r (ru_macros r ++ [(name, [])]) x false
  | OPush x _ _ | OPushIn _ x _ _ _ | OPushNoId _ x _ => text_ok k r (ru_macros r) x true
  | OReverse => False
  | _ => True
  end.
(** Calls with such texts; reverse() is looked at on its own. *)
Inductive proper (k : rcfg) : rules -> Prop :=
| pr_new flags : proper k (make_rules k flags)
| pr_call o r : proper k r -> op_ok k r o -> proper k (fst (apply k o r)).

(** The feature bits of a start state tell what its rules need. *)
Definition bit (f b : N) : Prop := N.land f b <> 0.
Definition announced (k : rcfg) (f : N) (x : grule) : Prop :=
  (starts BOL (tl (gr_tokens x)) = true -> bit f fb_bol) /\
  (ends EOL (removelast (gr_tokens x)) = true -> bit f fb_eol) /\
  (gr_id x = rskip k -> bit f fb_skip) /\
  (gr_id x = 0 -> bit f fb_again) /\
  (gr_pop x = true \/ gr_push x <> rnpos k -> bit f fb_rec).
(** With push to named states the ^ of a rule that is split into several is looked
    for in the last one (rules.hpp:1205, finding 12). *)
Definition op_unsplit (k : rcfg) (r : rules) (o : op) : Prop :=
  match o with
  | OPushIn _ x _ _ _ | OPushNoId _ x _ => forall v, tokenise (r_bytes k) (ru_flags r) (ru_macros r) x true = Ok v ->
      starts BOL (tl (hd [] v)) = true -> length v = 1%nat
  | _ => True
  end.
Inductive proper_unsplit (k : rcfg) : rules -> Prop :=
| pu_new flags : proper_unsplit k (make_rules k flags)
| pu_call o r : proper_unsplit k r -> op_ok k r o -> op_unsplit k r o -> proper_unsplit k (fst (apply k o r)).
