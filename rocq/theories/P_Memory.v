(* C65: memory_file shows the file that was opened last and gives back what it took. *)
From Verif Require Import Base MemoryFile MemorySpec MemoryProofs.

Theorem C65_contents : forall o sz w ps x, os_ok o -> 0 < sz ->
  let s := mrun o sz w ps in shows_bytes o sz (fst s) (snd s x) (showing x ps).
Proof. exact contents. Qed.
Print Assumptions C65_contents.

Theorem C65_foreign : forall o sz w ps, os_ok o -> 0 < sz ->
  let s := mrun o sz w ps in
  (forall d, In d (w_fds w) -> In d (w_fds (fst s))) /\
  (forall p bs, find_page p (w_mem w) = Some bs -> find_page p (w_mem (fst s)) = Some bs).
Proof. exact foreign. Qed.
Print Assumptions C65_foreign.

Theorem C65_released : forall o w ps, os_ok o -> In 0 (w_fds w) -> Forall all_or_none ps ->
  (forall x, showing x ps = None) -> fst (mrun o 1 w ps) = w.
Proof. exact released. Qed.
Print Assumptions C65_released.

Theorem C65_left_behind : forall o sz w r x bs, os_ok o -> 0 < sz -> offered r = Some bs ->
  length (w_mem (fst (mrun o sz w [MOpen x r; MClose x]))) =
  length (w_mem w) + (pages o (length bs) - pages o (length bs / sz)).
Proof. exact left_behind. Qed.
Print Assumptions C65_left_behind.

(* A system with pages of four bytes; descriptor 0 is given first if it is free. *)
Definition ox : os := {|
  os_page := 4;
  os_fd := fun used => if existsb (Nat.eqb 0) used then S (list_max used) else 0;
  os_place := fun used _ => S (list_max used) |}.

Lemma above used i : ~ In (S (list_max used) + i) used.
Proof.
  intros H. assert (K : Forall (fun k => k <= list_max used) used) by (apply list_max_le; auto).
  rewrite Forall_forall in K. apply K in H. lia.
Qed.

Example ox_ok : os_ok ox.
Proof.
  constructor; [simpl; lia| |].
  - intros used. cbv beta iota delta [os_fd ox]. destruct (existsb (Nat.eqb 0) used) eqn:E.
    + pose proof (above used 0) as A. rewrite Nat.add_0_r in A. exact A.
    + intros H. assert (existsb (Nat.eqb 0) used = true) by (apply existsb_exists; exists 0; auto). congruence.
  - intros used n. split; [simpl; lia|]. intros i _. apply above.
Qed.

Definition yes bs := {| re_open := true; re_stat := true; re_map := true; re_bytes := bs |}.
Definition no_file := {| re_open := false; re_stat := false; re_map := false; re_bytes := [] |}.
Definition w3 : world := {| w_fds := [0; 1; 2]; w_mem := [(7, [1; 2; 3; 4]%N)] |}.
Definition six : list N := [97; 98; 99; 100; 101; 102]%N.
Definition two : list N := [120; 121]%N.

(* Two objects; the first is opened again while it shows a file, an open fails. *)
Definition prog := [MOpen 0 (yes six); MOpen 1 (yes two); MOpen 0 (yes two); MOpen 2 no_file; MOpen 1 (yes six)].

Example C65_case :
  showing 0 prog = Some two /\ showing 1 prog = Some six /\ showing 2 prog = None /\
  (let s := mrun ox 1 w3 prog in
   mf_size (snd s 1) = 6 /\
   match mf_data (snd s 1) with
   | Some a => map (read_byte ox (fst s) a) (seq 0 6) = map Some six
   | None => False
   end) /\
  Forall all_or_none (prog ++ [MClose 0; MClose 1; MClose 2]) /\
  fst (mrun ox 1 w3 (prog ++ [MClose 0; MClose 1; MClose 2])) = w3.
Proof.
  repeat split; try (vm_compute; reflexivity).
  repeat (apply Forall_cons; [first [exact I|left; reflexivity|right; discriminate]|]). apply Forall_nil.
Qed.

(* close() passes the number of characters to munmap, not that of bytes: a page
   of a file of characters of four bytes stays mapped. *)
Theorem C65_wide_refuted : exists o w r,
  os_ok o /\ In 0 (w_fds w) /\ offered r <> None /\
  w_mem (fst (mrun o 4 w [MOpen 0 r; MClose 0])) <> w_mem w.
Proof.
  exists ox, w3, (yes (repeat 0%N 8)). split; [apply ox_ok|]. split; [simpl; auto|].
  split; vm_compute; discriminate.
Qed.
Print Assumptions C65_wide_refuted.

(* An empty file cannot be mapped; its descriptor is forgotten when the object
   is opened again. *)
Theorem C65_empty_refuted : exists o w r r',
  os_ok o /\ In 0 (w_fds w) /\ re_open r = true /\ re_bytes r = [] /\ offered r' <> None /\
  w_fds (fst (mrun o 1 w [MOpen 0 r; MOpen 0 r'; MClose 0])) <> w_fds w.
Proof.
  exists ox, w3, (yes []), (yes two). split; [apply ox_ok|]. split; [simpl; auto|].
  repeat split; vm_compute; discriminate.
Qed.
Print Assumptions C65_empty_refuted.

(* Descriptor 0 is taken to mean that there is none. *)
Theorem C65_zero_refuted : exists o w r,
  os_ok o /\ offered r <> None /\
  w_fds (fst (mrun o 1 w [MOpen 0 r; MClose 0])) <> w_fds w.
Proof.
  exists ox, {| w_fds := [1; 2]; w_mem := [] |}, (yes two). split; [apply ox_ok|].
  split; vm_compute; discriminate.
Qed.
Print Assumptions C65_zero_refuted.
