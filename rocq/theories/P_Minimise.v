(** Property C20: minimise preserves behaviour. *)
From Verif Require Import Base StateMachine Lookup TableSpec LookupSpec LookupCheck Minimise TableSim MinimiseProofs.
Local Open Scope N_scope.

(** minimise() ends, gives the same answer to every lookup, never enlarges a
    table, leaves no two equal rows, and a second call changes nothing. [mclean]
    holds of what build makes: the jam row and the dead column are zero. *)
Theorem C20_minimise_preserves_lookup : forall k m, mwf k m -> mclean k m ->
  exists m', minimise (c_bits k) m = Ok m' /\
    (forall fuel inner inp r, chars_ok k inp ->
       lookup fuel inner k m' inp r = lookup fuel inner k m inp r) /\
    (forall i d, nth_error (i_dfa m) i = Some d ->
       exists d', nth_error (i_dfa m') i = Some d' /\ (length d' <= length d)%nat) /\
    mdistinct m' /\
    minimise (c_bits k) m' = Ok m' /\
    i_eoi m' = i_eoi m /\ i_lookup m' = i_lookup m /\ i_alphabet m' = i_alphabet m /\
    i_features m' = i_features m /\ mwf k m' /\ mclean k m'.
Proof. exact minimise_correct. Qed.
Print Assumptions C20_minimise_preserves_lookup.

(** a(x|y), b(x|y) with the ids 1 and 2; built with one row per position. *)
Definition kz : cfg := {| f_bol := true; f_eol := true; f_multi := true; f_rec := true;
                          f_adv := true; c_bytes := 1; c_bits := 16 |}.
Definition mz : internals :=
  {| i_eoi := 0;
     i_lookup := [map (fun i => if Nat.eqb i 97 then 7 else if Nat.eqb i 98 then 8
                                else if Nat.eqb i 120 then 9 else if Nat.eqb i 121 then 10 else 6) (seq 0 256)];
     i_alphabet := [11]; i_features := 0;
     i_dfa := [[5;0;0;0;0;0;0; 0;0;0;0;
                0;0;0;0;0;0;0; 2;3;0;0;
                0;0;0;0;0;0;0; 0;0;4;5;
                0;0;0;0;0;0;0; 0;0;6;7;
                1;1;65535;65535;0;0;0; 0;0;0;0;
                1;1;65535;65535;0;4;0; 0;0;0;0;
                1;1;65535;65535;0;0;0; 0;0;0;0;
                1;1;65535;65535;0;6;0; 0;0;0;0]] |}.
Example C20_nonvacuous : mwf kz mz /\ mclean kz mz /\
  exists m', minimise 16 mz = Ok m' /\
    i_dfa m' = [[4;0;0;0;0;0;0; 0;0;0;0;
                 0;0;0;0;0;0;0; 2;2;0;0;
                 0;0;0;0;0;0;0; 0;0;3;4;
                 1;1;65535;65535;0;0;0; 0;0;0;0;
                 1;1;65535;65535;0;3;0; 0;0;0;0]] /\
    exists r', lookup 9 99 kz m' [98; 121; 10] (new_results kz 0 false 0) = Ok (r', None) /\
      r_id r' = 1 /\ r_second r' = 2%nat.
Proof.
  split; [apply mwfb_ok; vm_compute; reflexivity|].
  split; [apply mcleanb_ok; vm_compute; reflexivity|].
  eexists. split; [vm_compute; reflexivity|]. split; [reflexivity|].
  eexists. split; [vm_compute; reflexivity|]. split; reflexivity.
Qed.

(** Outside [mclean]: a table whose dead column is not zero is not preserved
    (build never makes one, a loaded file may). *)
Definition mbad : internals :=
  {| i_eoi := 0; i_lookup := [repeat 6 256]; i_alphabet := [7]; i_features := 0;
     i_dfa := [[0;0;0;0;0;0;0; 0;0;0;0;0;0;2; 1;1;65535;65535;0;0;0; 0;0;0;0;0;0;3; 0;0;0;0;0;0;3]] |}.
Theorem C20_nonzero_dead_column_refuted :
  mwf kz mbad /\
  exists m', minimise 16 mbad = Ok m' /\
    lookup 9 99 kz m' [97] (new_results kz 0 false 0) <> lookup 9 99 kz mbad [97] (new_results kz 0 false 0).
Proof.
  split; [apply mwfb_ok; vm_compute; reflexivity|].
  eexists. split; [vm_compute; reflexivity|]. vm_compute. discriminate.
Qed.
Print Assumptions C20_nonzero_dead_column_refuted.
