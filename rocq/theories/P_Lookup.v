(** Properties C05-C08 and C33: lookup() on arbitrary tables. *)
From Verif Require Import Base StateMachine Lookup TableSpec LookupSpec LookupThms LookupTile LookupCheck.
Local Open Scope N_scope.

(** A machine used as witness: rules a+ (id 1), b (id 2, push INITIAL),
    c (id 3, pop), space (skip), a$ (id 4) over 16 bit ids. *)
Definition kx : cfg := {| f_bol := true; f_eol := true; f_multi := true; f_rec := true;
                          f_adv := true; c_bytes := 1; c_bits := 16 |}.
Definition lkx : list N :=
  map (fun i => if Nat.eqb i 97 then 7 else if Nat.eqb i 32 then 8 else if Nat.eqb i 98 then 9
                else if Nat.eqb i 99 then 10 else 6) (seq 0 256).
Definition mx : internals :=
  {| i_eoi := 0; i_lookup := [lkx]; i_alphabet := [11]; i_features := 0;
     i_dfa := [[0;0;0;0;0;0;0; 0;0;0;0;
                0;0;0;0;0;0;0; 2;3;4;5;
                1;1;7;65535;0;6;0; 7;0;0;0;
                1;65534;65535;65535;0;0;0; 0;0;0;0;
                1;2;65535;0;0;0;0; 0;0;0;0;
                5;3;65535;65535;0;0;0; 0;0;0;0;
                1;4;65535;65535;0;0;0; 0;0;0;0;
                1;1;7;65535;0;0;0; 7;0;0;0]] |}.
Definition r0 : results := new_results kx 0 true 0.

Lemma kx_mwf : mwf kx mx.
Proof. apply mwfb_ok. vm_compute. reflexivity. Qed.
Lemma kx_ne : no_empty_match kx mx /\ eol_acyclic mx 1.
Proof. apply no_emptyb_ok. vm_compute. reflexivity. Qed.
Lemma kx_r0 : forall inp, rwf mx inp r0.
Proof. intros inp. unfold rwf; split; [vm_compute; reflexivity|split; [constructor|cbn; lia]]. Qed.

(** C05: one call terminates, whatever the input, with the given loop bounds;
    it moves forward unless it reports the end of input. *)
Theorem C05_lookup_terminates : forall k m inp r b fuel inner,
  mwf k m -> chars_ok k inp -> no_empty_match k m -> eol_acyclic m b -> rwf m inp r ->
  (length inp < fuel)%nat -> (length inp * S b + b < inner)%nat ->
  exists r' o, lookup fuel inner k m inp r = Ok (r', o).
Proof. exact lookup_terminates. Qed.
Print Assumptions C05_lookup_terminates.

Theorem C05_lookup_progress : forall k m inp r fuel inner r',
  mwf k m -> chars_ok k inp -> no_empty_match k m -> f_adv k = true -> rwf m inp r ->
  lookup fuel inner k m inp r = Ok (r', None) -> r_id r' <> i_eoi m ->
  (r_second r < r_second r' <= length inp)%nat.
Proof. exact lookup_progress. Qed.
Print Assumptions C05_lookup_progress.

Theorem C05_lexing_loop_ends : forall k m inp b, mwf k m -> chars_ok k inp -> no_empty_match k m ->
  eol_acyclic m b -> f_adv k = true -> f_rec k = false ->
  forall r, rwf m inp r ->
  exists j r', (j <= length inp - r_second r + 1)%nat /\ calls k m inp j r r' /\ r_id r' = i_eoi m.
Proof. exact lex_loop_ends. Qed.
Print Assumptions C05_lexing_loop_ends.

Example C05_nonvacuous : mwf kx mx /\ no_empty_match kx mx /\ eol_acyclic mx 1 /\
  (exists r', lookup 9 99 kx mx [97; 97; 98; 32; 97; 10] r0 = Ok (r', None) /\
     r_second r' = 2%nat /\ r_id r' = 1).
Proof.
  split; [exact kx_mwf|]. split; [exact (proj1 kx_ne)|]. split; [exact (proj2 kx_ne)|].
  eexists. split; [vm_compute; reflexivity|]. split; reflexivity.
Qed.

(** C06 *)
Theorem C06_tokens_tile : forall k m inp r l,
  mwf k m -> chars_ok k inp -> rwf m inp r -> f_adv k = true ->
  no_row_id m (i_eoi m) -> no_row_id m (skip_id k) -> no_join_stack m r -> i_eoi m <> npos k ->
  lexes k m inp r l -> concat (map (text inp) l) = skipn (r_second r) inp.
Proof. exact lexes_tile. Qed.
Print Assumptions C06_tokens_tile.

(** With skip rules: what lies between the end of the previous token and the
    start of this one was consumed by skip rules, piece by piece. *)
Theorem C06_gaps_are_skipped : forall fuel inner k m inp r r',
  mwf k m -> chars_ok k inp -> rwf m inp r ->
  no_row_id m (i_eoi m) -> no_join_stack m r ->
  lookup fuel inner k m inp r = Ok (r', None) ->
  exists r1, skipped k m inp r r1 /\ r_second r1 = r_first r' /\ no_join_stack m r' /\
    ((r_second r1 = length inp /\ r_id r' = i_eoi m /\ r_uid r' = npos k /\ r_second r' = r_second r1) \/
     (exists e, eats k m inp r1 e (r_id r') (r_uid r') r' /\ r_id r' <> skip_id k /\ r_id r' <> i_eoi m) \/
     (misses k m inp r1 /\ r_id r' = npos k /\ r_uid r' = npos k /\
      (r_second r1 < length inp)%nat /\
      r_second r' = if f_adv k then S (r_second r1) else r_second r1)).
Proof. exact lookup_shape. Qed.
Print Assumptions C06_gaps_are_skipped.

Lemma no_row_id_check m id :
  forallb (fun st => match get_table m st with
    | None => true
    | Some t => forallb (fun row => negb (acceptb t row) ||
        match cell t row ix_id with Some i => negb (i =? id) | None => true end) (upto (rows_of t))
        && (N.of_nat (length (t_dfa t)) =? rows_of t * t_width t)
    end) (upto (N.of_nat (length (i_dfa m)))) = true -> no_row_id m id.
Proof.
  rewrite forallb_forall. intros H st t row Ht _ Ha E.
  specialize (H st (in_upto _ _ (get_table_lt _ _ _ Ht))). rewrite Ht in H.
  apply andb_true_iff in H as [H1 H2]. apply N.eqb_eq in H2. rewrite forallb_forall in H1.
  specialize (H1 row (in_upto _ _ (cell_row_lt _ _ _ _ _ H2 E))).
  apply acceptb_ok in Ha. rewrite Ha, E in H1. cbn in H1. rewrite N.eqb_refl in H1. discriminate.
Qed.

(** The machine without its skip rule. *)
Definition my : internals :=
  {| i_eoi := 0; i_lookup := [lkx]; i_alphabet := [11]; i_features := 0;
     i_dfa := [[0;0;0;0;0;0;0; 0;0;0;0;
                0;0;0;0;0;0;0; 2;0;0;0;
                1;1;7;65535;0;0;0; 2;0;0;0]] |}.
Example C06_nonvacuous :
  mwf kx my /\ no_row_id my 0 /\ no_row_id my (skip_id kx) /\ rwf my [97; 97; 98] r0 /\
  (exists l, lexes kx my [97; 97; 98] r0 l /\ map (text [97; 97; 98]) l = [[97; 97]; [98]]) /\
  no_row_id mx 0 /\
  (exists r', lookup 9 99 kx mx [32; 32; 97] r0 = Ok (r', None) /\ r_first r' = 2%nat).
Proof.
  split; [apply mwfb_ok; vm_compute; reflexivity|].
  split; [apply no_row_id_check; vm_compute; reflexivity|].
  split; [apply no_row_id_check; vm_compute; reflexivity|].
  split; [unfold rwf; split; [vm_compute; reflexivity|split; [constructor|cbn; lia]]|].
  split.
  - eexists. split.
    + eapply (lexes_tok _ _ _ 9 99); [vm_compute; reflexivity|discriminate|].
      eapply (lexes_tok _ _ _ 9 99); [vm_compute; reflexivity|discriminate|].
      eapply (lexes_end _ _ _ 9 99); [vm_compute; reflexivity|reflexivity].
    + vm_compute; reflexivity.
  - split; [apply no_row_id_check; vm_compute; reflexivity|].
    eexists; split; [vm_compute; reflexivity|reflexivity].
Qed.

(** C07: for every machine, even one without tables. *)
Theorem C07_end_of_input : forall fuel inner k m inp r, r_second r = length inp ->
  exists r', lookup fuel inner k m inp r = Ok (r', None) /\
    r_id r' = i_eoi m /\ r_uid r' = npos k /\ r_first r' = length inp /\ r_second r' = length inp /\
    r_bol r' = r_bol r /\ r_state r' = r_state r /\ r_stack r' = r_stack r /\
    forall fuel' inner', lookup fuel' inner' k m inp r' = Ok (r', None).
Proof. exact lookup_end_stable. Qed.
Print Assumptions C07_end_of_input.

Example C07_nonvacuous : exists r', lookup 0 0 kx mx [97] (new_results kx 1 true 0) = Ok (r', None) /\ r_id r' = 0.
Proof. eexists; split; [vm_compute; reflexivity|reflexivity]. Qed.

(** C08, table part: a lookup never leaves the input or the tables, and keeps
    the results usable for the next call. *)
Theorem C08_lookup_safe : forall fuel inner k m inp r,
  mwf k m -> chars_ok k inp -> rwf m inp r ->
  match lookup fuel inner k m inp r with
  | Ok (r', o) => looks k m inp (r_second r) r r' o /\ rwf m inp r'
  | Fuel => True
  | _ => False
  end.
Proof. exact lookup_looks. Qed.
Print Assumptions C08_lookup_safe.

Example C08_nonvacuous : mwf kx mx /\ rwf mx [1; 2; 255] r0.
Proof. split; [exact kx_mwf|apply kx_r0]. Qed.

(** C33 *)
Theorem C33_pieces_push_or_pop_one : forall k m inp r e push id r', f_rec k = true ->
  piece k m inp r e push id r' ->
  (N.land e sb_pop = 0 -> push = npos k -> r_stack r' = r_stack r) /\
  (N.land e sb_pop = 0 -> push <> npos k -> r_stack r' = (push, id) :: r_stack r) /\
  (N.land e sb_pop <> 0 -> exists s i, r_stack r = (s, i) :: r_stack r' /\ (f_multi k = true -> r_state r' = s)).
Proof. exact piece_plain. Qed.
Print Assumptions C33_pieces_push_or_pop_one.

Theorem C33_lookup_is_pieces : forall fuel inner k m inp r r' o,
  mwf k m -> chars_ok k inp -> rwf m inp r ->
  lookup fuel inner k m inp r = Ok (r', o) ->
  match o with
  | None => exists r1, trail k m inp r r1 /\ r_stack r' = r_stack r1 /\ r_state r' = r_state r1
  | Some e => e = EUnderflow /\ r_stack r' = [] /\
     exists r1 f push next id uid q, r_second r1 = r_second r' /\ r_state r1 = r_state r' /\
       r_bol r1 = r_bol r' /\ r_stack r1 = [] /\ hits k m inp r1 f push next id uid q /\
       N.land f sb_pop <> 0
  end.
Proof. exact lookup_trail. Qed.
Print Assumptions C33_lookup_is_pieces.

Theorem C33_pop_returns_to_matching_push : forall k m inp r e push id r1 r2 e' push' id' r3,
  f_rec k = true -> f_multi k = true ->
  piece k m inp r e push id r1 -> N.land e sb_pop = 0 -> push <> npos k ->
  balanced k m inp r1 r2 ->
  piece k m inp r2 e' push' id' r3 -> N.land e' sb_pop <> 0 ->
  r_state r3 = push /\ r_stack r3 = r_stack r.
Proof. exact pop_returns. Qed.
Print Assumptions C33_pop_returns_to_matching_push.

Example C33_nonvacuous :
  (exists r', lookup 9 99 kx mx [98; 97; 99] r0 = Ok (r', None) /\ r_stack r' = [(0, 2)]) /\
  (exists r', lookup 9 99 kx mx [99] {| r_id := 1; r_uid := 0; r_first := 0; r_second := 0; r_bol := false;
                 r_state := 0; r_stack := [(0, 2)] |} = Ok (r', None) /\ r_stack r' = [] /\ r_id r' = 3) /\
  (exists r', lookup 9 99 kx mx [99] r0 = Ok (r', Some EUnderflow)).
Proof.
  split; [|split]; eexists; (split; [vm_compute; reflexivity|]) || (vm_compute; reflexivity);
    try split; reflexivity.
Qed.
