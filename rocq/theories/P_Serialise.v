(** Property C23: save / load. *)
From Verif Require Import Base StateMachine Serialise SerialiseProofs.
Local Open Scope N_scope.

(** [at_ws st rest]: the stream is good and holds white space then [rest]. So
    machines can be preceded and followed by anything, in particular by other
    saved machines. *)
Theorem C23_load_inverts_save : forall csize bytes m old st rest,
  csize < size_lim -> 2 <= bytes <= 8 -> fits bytes m ->
  at_ws st (save csize bytes m ++ rest) ->
  exists st', load csize bytes old st = Ok (m, st') /\ at_ws st' rest.
Proof. exact load_save. Qed.
Print Assumptions C23_load_inverts_save.

Definition sample : internals :=
  {| i_eoi := 0; i_lookup := [[6; 7; 8]; []]; i_alphabet := [9; 10]; i_features := 65535;
     i_dfa := [[0; 0; 12; 345]; [1; 65534; 65535; 0; 10; 9; 100]] |}.

Example C23_nonvacuous : fits 2 sample /\
  (exists st', load 1 2 empty_internals {| st_chars := save 1 2 sample; st_fail := false |} = Ok (sample, st')).
Proof.
  split.
  - unfold fits, size_lim; cbn [sample i_eoi i_lookup i_alphabet i_features i_dfa].
    repeat match goal with
      | |- _ /\ _ => split
      | |- Forall _ (_ :: _) => apply Forall_cons
      | |- Forall _ [] => apply Forall_nil
      | |- _ => reflexivity
      end.
  - eexists. vm_compute. reflexivity.
Qed.

(** Not part of C23 (which asks for an id_type wider than one byte): with a one
    byte id_type the round trip fails, because save writes ids as characters
    and load reads numbers. *)
Theorem C23_one_byte_ids_refuted : exists m, fits 1 m /\
  forall st', load 1 1 empty_internals {| st_chars := save 1 1 m; st_fail := false |} <> Ok (m, st').
Proof.
  exists {| i_eoi := 65; i_lookup := []; i_alphabet := [65]; i_features := 0; i_dfa := [] |}.
  split.
  - unfold fits, size_lim; cbn [i_eoi i_lookup i_alphabet i_features i_dfa].
    repeat match goal with
      | |- _ /\ _ => split
      | |- Forall _ (_ :: _) => apply Forall_cons
      | |- Forall _ [] => apply Forall_nil
      | |- _ => reflexivity
      end.
  - intros st' H. vm_compute in H. discriminate.
Qed.
Print Assumptions C23_one_byte_ids_refuted.
