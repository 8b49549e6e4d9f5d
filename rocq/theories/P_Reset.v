(** C71: a match_results object can be used again. *)
From Verif Require Import Base StateMachine Lookup Reset.
From Verif Require P_Comment.
Local Open Scope N_scope.

(** What a call of lookup() returns does not depend on the token of the call before:
    only the end of that token, the bol flag, the start state and the stack count. *)
Theorem C71_forgets fuel inner k m inp r r' : r_second r' = r_second r -> r_bol r' = r_bol r -> r_state r' = r_state r -> r_stack r' = r_stack r ->
  (forall x, lookup fuel inner k m inp r = Ok (x, None) -> lookup fuel inner k m inp r' = Ok (x, None)) /\
  (forall x e, lookup fuel inner k m inp r = Ok (x, Some e) -> exists x', lookup fuel inner k m inp r' = Ok (x', Some e) /\
     r_id x' = r_id r' /\ r_uid x' = r_uid r' /\ r_first x' = r_first x /\ r_second x' = r_second x /\ r_bol x' = r_bol x /\ r_state x' = r_state x /\ r_stack x' = r_stack x).
Proof.
  intros E1 E2 E3 E4. rewrite (lookup_ids fuel inner k m inp r r' E1 E2 E3 E4). split; [intros x ->; reflexivity|]. intros x e ->.
  eexists. repeat split.
Qed.
(** reset() makes the object of the constructor, whatever was read before. *)
Theorem C71_reset k start r : f_rec k = true \/ r_stack r = [] -> reset_results k start r = new_results k start true 0.
Proof. intros H. unfold reset_results, new_results. destruct (f_rec k); [now rewrite drain_nil|]. destruct H as [H|H]; [discriminate|now rewrite H]. Qed.
(** clear() makes the object of the constructor for the empty rest of the input. *)
Theorem C71_cleared k inp r : f_rec k = true \/ r_stack r = [] -> clear_results k inp r = new_results k (length inp) true 0.
Proof. intros H. unfold clear_results, new_results. destruct (f_rec k); [now rewrite drain_nil|]. destruct H as [H|H]; [discriminate|now rewrite H]. Qed.
(** A new object: no text, id 0 and no user id. *)
Theorem C71_new k start bol state : let r := new_results k start bol state in
  r_id r = 0 /\ r_uid r = 2 ^ c_bits k - 1 /\ r_first r = start /\ results_length r = 0%nat /\ r_bol r = bol /\ r_state r = state /\ r_stack r = [].
Proof. cbn. unfold npos, npos_of, results_length. cbn. rewrite Nat.sub_diag. repeat split. Qed.
(** After clear() nothing is left to read: every call says so, in the first start state
    and with an empty stack. *)
Theorem C71_clear fuel inner k m inp r : f_rec k = true \/ r_stack r = [] ->
  lookup fuel inner k m inp (clear_results k inp r) =
    Ok ({| r_id := i_eoi m; r_uid := 2 ^ c_bits k - 1; r_first := length inp; r_second := length inp; r_bol := true; r_state := 0; r_stack := [] |}, None).
Proof.
  intros H. unfold lookup, clear_results. cbn [r_id r_uid r_first r_second r_bol r_state r_stack].
  assert (S : (if f_rec k then drain (r_stack r) else r_stack r) = []) by (destruct (f_rec k); [apply drain_nil|destruct H as [H|H]; [discriminate|exact H]]).
  rewrite S. destruct fuel; cbn [again]; rewrite Nat.eqb_refl; reflexivity.
Qed.
Print Assumptions C71_forgets.
Print Assumptions C71_reset.
Print Assumptions C71_cleared.
Print Assumptions C71_new.
Print Assumptions C71_clear.

(** An object in the middle of a text, with the lexer of C62: the second token does not
    depend on the id of the first, and after reset() the first token comes again. *)
Definition inp1 : list N := [47; 42; 120; 42; 47; 47; 47].
Definition before : results := {| r_id := 7; r_uid := 9; r_first := 2; r_second := 6; r_bol := false; r_state := 0; r_stack := [(1, 2)] |}.
Definition other : results := {| r_id := 3; r_uid := 4; r_first := 0; r_second := 6; r_bol := false; r_state := 0; r_stack := [(1, 2)] |}.
Example C71_case : exists x y,
  lookup 20 20 P_Comment.kl P_Comment.mm inp1 before = Ok (x, None) /\ lookup 20 20 P_Comment.kl P_Comment.mm inp1 other = Ok (x, None) /\ r_first x = 6%nat /\ r_second x = 7%nat /\
  lookup 20 20 P_Comment.kl P_Comment.mm inp1 (new_results P_Comment.kl 0 true 0) = Ok (y, None) /\ r_first y = 5%nat /\
  before <> other.
Proof. do 2 eexists. repeat (split; [vm_compute; reflexivity|]). discriminate. Qed.
(** The stack of a recursive lexer is emptied. *)
Definition krec : cfg := {| f_bol := true; f_eol := true; f_multi := true; f_rec := true; f_adv := true; c_bytes := 1; c_bits := 16 |}.
Example C71_stack_case : r_stack before <> [] /\ reset_results krec 3 before = new_results krec 3 true 0 /\ r_uid (reset_results krec 3 before) = 65535.
Proof. repeat split. discriminate. Qed.
