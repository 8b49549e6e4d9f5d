(** Model of the rest of include/lexertl/generator.hpp: build, build_tree,
    check_suppressed and create. The parallel vectors of rules.hpp (regexes,
    ids, user_ids, next_dfas, pushes, pops) are one list of records per start
    state. *)
From Verif Require Import Base StringToken StateMachine Tree Partition Generator ReToken Parser.
Local Open Scope N_scope.

Record grule := { gr_tokens : list token; gr_id : N; gr_uid : N; gr_next : N; gr_push : N;
                  gr_pop : bool }.
Record gstate := { gs_rules : list grule; gs_features : N }.
Record grules := { gr_eoi : N; gr_states : list gstate; gr_flags : gflags }.

(** generator.hpp:125-127: the arguments of parse(); e_greedy is set by it. *)
Definition rule_info (r : grule) (uniq : N) : einfo :=
  {| e_id := gr_id r; e_uid := gr_uid r; e_unique := uniq; e_next := gr_next r; e_push := gr_push r;
     e_pop := gr_pop r; e_greedy := GYes |}.

(** ++unique_id_ of type id_type. *)
Definition next_uniq (k : gcfg) (u : N) : N := (u + 1) mod 2 ^ g_bits k.

(** generator.hpp:136-156: the loop over the remaining rules. *)
Fixpoint build_rest (k : gcfg) (seen : bool) (rs : list grule) (root : node) (uniq : N) (s : pstate)
    : res (node * N * pstate) :=
  match rs with
  | [] => Ok (root, uniq, s)
  | r :: rs' =>
    let u := next_uniq k uniq in
    do p <- parse k (gr_tokens r) (rule_info r u) seen s;
    build_rest k seen rs' (NSel root (fst p)) u (snd p)
  end.

(** generator.hpp:104-159: build_tree, with the parser and per DFA variables
    made at 76-85. [UB]: no rules (the caller checks). *)
Definition has_bol (f : N) : bool := negb (N.land f fb_bol =? 0).
Definition build_tree (k : gcfg) (g : gstate) (uniq : N) (st : store) : res (node * N * pstate) :=
  let seen := has_bol (gs_features g) in
  match gs_rules g with
  | [] => UB
  | r :: rs =>
    let u := next_uniq k uniq in
    do p <- parse k (gr_tokens r) (rule_info r u) seen
              {| ps_stack := []; ps_tree := ([], st); ps_map := []; ps_cr := gnpos k; ps_nl := gnpos k |};
    build_rest k seen rs (fst p) u (snd p)
  end.

(** generator.hpp:60-93: the loop over the start states; the body first. The
    tables are those of internals_, in order. *)
Definition build_one (fuel : nat) (k : gcfg) (fl : gflags) (g : gstate) (uniq : N) (st : store)
    (used : list N) : res (dfa_out * N * store) :=
  match gs_rules g with
  | [] => Throw EEmptyState
  | _ =>
    do t <- build_tree k g uniq st;
    let '(root, u, s) := t in
    do z <- check_zero_len fl (snd (ps_tree s)) root;
    do o <- build_dfa fuel k fl (snd (ps_tree s)) root (ps_map s) (ps_cr s) (ps_nl s) used;
    if gnpos k <=? N.of_nat (length (concat (o_rows o))) / o_width o then Throw EOverflow
    else Ok (o, u, snd (ps_tree s))
  end.
Fixpoint build_states (fuel : nat) (k : gcfg) (fl : gflags) (gs : list gstate) (uniq : N) (st : store)
    (used : list N) : res (list dfa_out * N * list N) :=
  match gs with
  | [] => Ok ([], uniq, used)
  | g :: gs' =>
    do y <- build_one fuel k fl g uniq st used;
    let '(o, u, st') := y in
    do x <- build_states fuel k fl gs' u st' (o_used o);
    let '(os, u', used') := x in Ok (o :: os, u', used')
  end.

(** generator.hpp:563-582: check_suppressed. *)
Definition check_suppressed (fl : gflags) (uniq : N) (used : list N) : res unit :=
  if suppressed_ok fl then Ok tt
  else if forallb (fun i => existsb (N.eqb (N.of_nat i + 1)) used) (seq 0 (N.to_nat uniq)) then Ok tt
  else Throw ESuppressed.

(** generator.hpp:747-768: create, after the tables were filled in. *)
Definition create (eoi : N) (os : list dfa_out) (features : list N) : internals :=
  {| i_eoi := eoi;
     i_lookup := map o_lookup os;
     i_alphabet := map o_width os;
     i_features := N.lor (fold_left N.lor features 0)
                         (if Nat.ltb 1 (length os) then fb_multi else 0);
     i_dfa := map (fun o => concat (o_rows o)) os |}.

(** generator.hpp:45-102: build. The result is what is swapped into sm_. *)
Definition build (fuel : nat) (k : gcfg) (r : grules) : res internals :=
  do x <- build_states fuel k (gr_flags r) (gr_states r) 0 [] [];
  let '(os, uniq, used) := x in
  do z <- check_suppressed (gr_flags r) uniq used;
  Ok (create (gr_eoi r) os (map gs_features (gr_states r))).

(** The state machine object after a call of build (the swap is the last
    statement, 101). *)
Definition build_into (fuel : nat) (k : gcfg) (r : grules) (sm : internals) : internals * res unit :=
  match build fuel k r with
  | Ok m => (m, Ok tt)
  | Throw e => (sm, Throw e)
  | UB => (sm, UB)
  | Fuel => (sm, Fuel)
  end.
