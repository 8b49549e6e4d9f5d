(** Property C44: stream iterators. *)
From Verif Require Import Base StreamIter StreamSpec StreamProofs.
Local Open Scope nat_scope.

(** Whatever the stream, the buffer size and the increment: a sequence of
    constructions, copies, assignments, destructions, dereferences, increments and
    comparisons that is proper for places in the stream ([arun]) gives exactly the
    characters and comparisons that the places in the stream give. The buffer is
    moved by a memcpy whose ranges may overlap; [partial]: this takes it as memmove,
    and masters that were not used yet are not assigned from or to. *)
Theorem C44_stream_iterators_partial : forall strm size incr l r, 1 <= size -> 1 <= incr ->
  arun strm ideal_start l = Some r -> session false strm size incr l = Ok r.
Proof. exact session_ok. Qed.
Print Assumptions C44_stream_iterators_partial.

(** If overlap is taken as undefined, nothing else can go wrong. *)
Theorem C44_only_the_overlap_partial : forall strm size incr l r, 1 <= size -> 1 <= incr ->
  arun strm ideal_start l = Some r ->
  session true strm size incr l = Ok r \/ session true strm size incr l = UB.
Proof.
  intros strm size incr l r H1 H2 H. rewrite <- (C44_stream_iterators_partial strm size incr l r H1 H2 H). apply session_strict.
Qed.
Print Assumptions C44_only_the_overlap_partial.

(** A copy of the master reads the whole stream, then equals the end. *)
Definition read_all (strm : list N) : list op :=
  ODefault :: OCopy 0 :: flat_map (fun _ => [OEq 2 1; ODeref 2; OInc 2]) strm ++ [OEq 2 1].
Definition all_read (strm : list N) : list out :=
  ONone :: ONone :: flat_map (fun c => [OBool false; OChar c; ONone]) strm ++ [OBool true].
Lemma read_rest pre rest m : forall c l, rest = c :: l ->
  arun (pre ++ rest) {| a_vars := [Some AMaster; Some AEnd; Some (AAt (length pre))]; a_moved := m |}
    (flat_map (fun _ => [OEq 2 1; ODeref 2; OInc 2]) rest ++ [OEq 2 1]) =
  Some (flat_map (fun c => [OBool false; OChar c; ONone]) rest ++ [OBool true]).
Proof.
  revert pre m. induction rest as [|d rest IH]; intros pre m c l E; [discriminate|]. clear E c l.
  assert (Hn : nth_error (pre ++ d :: rest) (length pre) = Some d).
  { rewrite nth_error_app2 by lia. now rewrite Nat.sub_diag. }
  set (st := {| a_vars := [Some AMaster; Some AEnd; Some (AAt (length pre))]; a_moved := m |}).
  assert (E1 : aexec (pre ++ d :: rest) st (OEq 2 1) = Some (st, OBool false)) by reflexivity.
  assert (E2 : aexec (pre ++ d :: rest) st (ODeref 2) = Some (st, OChar d)) by (cbn; rewrite Hn; reflexivity).
  assert (E3 : aexec (pre ++ d :: rest) st (OInc 2) =
     Some ({| a_vars := [Some AMaster; Some AEnd; Some (if Nat.ltb (S (length pre)) (length (pre ++ d :: rest)) then AAt (S (length pre)) else AEnd)];
              a_moved := true |}, ONone)) by reflexivity.
  cbn [flat_map app arun]. rewrite E1, E2, E3. rewrite app_length. cbn [length].
  destruct rest as [|e rest].
  - rewrite (proj2 (Nat.ltb_ge _ _)) by (cbn [length]; lia). reflexivity.
  - rewrite (proj2 (Nat.ltb_lt _ _)) by (cbn [length]; lia).
    specialize (IH (pre ++ [d]) true e rest eq_refl). rewrite app_length in IH. cbn [length] in IH.
    rewrite <- app_assoc in IH. cbn [app] in IH. replace (length pre + 1) with (S (length pre)) in IH by lia.
    rewrite IH. reflexivity.
Qed.
Theorem C44_reads_everything_partial : forall strm size incr, 1 <= size -> 1 <= incr -> strm <> [] ->
  session false strm size incr (read_all strm) = Ok (all_read strm).
Proof.
  intros strm size incr H1 H2 Hn. apply session_ok; [exact H1|exact H2|]. destruct strm as [|c strm]; [congruence|].
  unfold read_all, all_read. pose proof (read_rest [] (c :: strm) false c strm eq_refl) as R. cbn [length] in R.
  revert R. change ([] ++ c :: strm) with (c :: strm). generalize (flat_map (fun _ : N => [OEq 2 1; ODeref 2; OInc 2]) (c :: strm) ++ [OEq 2 1]).
  intros ops R. cbn [arun aexec]. unfold place_of, avar, aadd, ideal_start. cbn [app a_vars a_moved nth_error first_place alow]. rewrite R. reflexivity.
Qed.
Print Assumptions C44_reads_everything_partial.

(** Two copies at different places, an assignment and a destruction, with the
    buffer growing and moving. *)
Definition S8 : list N := [97; 98; 99; 100; 101; 102; 103; 104]%N.
Definition ops8 : list op :=
  [OCopy 0; OInc 1; OCopy 1; OInc 2; OInc 2; OInc 2; ODeref 1; ODeref 2; OInc 2; OInc 2; OAssign 1 2; OInc 1;
   ODeref 1; ODeref 2; ODestroy 0; OInc 1; ODefault; OEq 1 3; OEq 2 3].
Example C44_nonvacuous : arun S8 ideal_start ops8 = Some
    [ONone; ONone; ONone; ONone; ONone; ONone; OChar 98; OChar 101; ONone; ONone; ONone; ONone;
     OChar 104; OChar 103; ONone; ONone; ONone; OBool true; OBool false] /\
  session false S8 2 1 ops8 = Ok
    [ONone; ONone; ONone; ONone; ONone; ONone; OChar 98; OChar 101; ONone; ONone; ONone; ONone;
     OChar 104; OChar 103; ONone; ONone; ONone; OBool true; OBool false].
Proof. split; vm_compute; reflexivity. Qed.

(** ** Where the statement fails *)
(** Reading a short stream to its end already copies overlapping ranges. *)
Theorem C44_overlap_refuted : exists strm size incr l r, 1 <= size /\ 1 <= incr /\
  arun strm ideal_start l = Some r /\ session true strm size incr l = UB.
Proof.
  exists [97; 98]%N, 16, 16, [OInc 0; OInc 0], [ONone; ONone]. split; [lia|]. split; [lia|]. split; reflexivity.
Qed.
Print Assumptions C44_overlap_refuted.

(** What the places in the stream would give if a use of the master were proper:
    after the assignment variable 0 is at place 1, so three steps take it to 'e'.
    Assigning a copy to an unused master registers it twice; when the buffer moves
    its index is reduced twice. *)
Theorem C44_assign_to_master_refuted :
  nth_error S8 4 = Some 101%N /\
  session false S8 4 4 [OCopy 0; OInc 1; OAssign 0 1; OInc 0; OInc 0; OInc 0; ODeref 0] =
  Ok [ONone; ONone; ONone; ONone; ONone; ONone; OChar 100].
Proof. split; vm_compute; reflexivity. Qed.
Print Assumptions C44_assign_to_master_refuted.

(** Assigning an unused master: the copy is at 'a' but is not registered; it is at
    'e' after the master has moved. *)
Theorem C44_assign_from_master_refuted :
  session false S8 4 4 [ODefault; OAssign 1 0; ODeref 1; OInc 0; OInc 0; OInc 0; OInc 0; ODeref 1] =
  Ok [ONone; ONone; OChar 97; ONone; ONone; ONone; ONone; OChar 101].
Proof. vm_compute; reflexivity. Qed.
Print Assumptions C44_assign_from_master_refuted.

(** Assigning the end to an unused master leaves its address among the clients. *)
Theorem C44_dangling_client_refuted :
  session false S8 4 4 [ODefault; OCopy 0; OAssign 0 1; ODestroy 0; OInc 2; OInc 2; OInc 2; OInc 2] = UB.
Proof. vm_compute; reflexivity. Qed.
Print Assumptions C44_dangling_client_refuted.

(** An iterator over an empty stream has a character and is not the end; an unused
    master over any stream is the end. *)
Theorem C44_empty_stream_refuted :
  session false [] 4 4 [OCopy 0; ODefault; OEq 1 2; ODeref 1] = Ok [ONone; ONone; OBool false; OChar 0] /\
  forall size incr, 1 <= size -> forall strm, session false strm size incr [ODefault; OEq 0 1] = Ok [ONone; OBool true].
Proof.
  split; [vm_compute; reflexivity|]. intros size incr H strm. unfold session, start. destruct size; [lia|]. reflexivity.
Qed.
Print Assumptions C44_empty_stream_refuted.

(** A master first used after its copies have reached the end is somewhere in the
    last buffer. *)
Theorem C44_late_master_refuted :
  session false S8 4 4 (OCopy 0 :: repeat (OInc 1) 8 ++ [ODeref 0]) = Ok (ONone :: repeat ONone 8 ++ [OChar 101]).
Proof. vm_compute; reflexivity. Qed.
Print Assumptions C44_late_master_refuted.

(** Increment 0 ends early; buffer size 0 is undefined. *)
Theorem C44_zero_sizes_refuted :
  session false S8 4 0 ([ODefault; OCopy 0; OCopy 0] ++ repeat (OInc 2) 4 ++ [OEq 1 2]) = Ok ([ONone; ONone; ONone] ++ repeat ONone 4 ++ [OBool true]) /\
  forall strm incr l, session false strm 0 incr l = UB.
Proof. split; [vm_compute; reflexivity|]. reflexivity. Qed.
Print Assumptions C44_zero_sizes_refuted.
