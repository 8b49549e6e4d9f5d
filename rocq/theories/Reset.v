(** Using a match_results object again: clear() and reset(). *)
From Verif Require Import Base StateMachine Lookup.
Local Open Scope N_scope.

(** match_results.hpp:160 and 167: while (!stack.empty()) stack.pop(); *)
Fixpoint drain (st : list (N * N)) : list (N * N) := match st with [] => [] | _ :: st' => drain st' end.
(** match_results.hpp:81-89, and 156-161 for recursive_match_results. eoi is the
    length of the input; plain match_results have no stack, so that what the model
    keeps there is left alone. *)
Definition clear_results (k : cfg) (inp : list N) (r : results) : results :=
  {| r_id := 0; r_uid := npos k; r_first := length inp; r_second := length inp; r_bol := true; r_state := 0;
     r_stack := if f_rec k then drain (r_stack r) else r_stack r |}.
(** match_results.hpp:91-100, and 163-168 for recursive_match_results: the new end is
    the end of the input that the following calls are given. *)
Definition reset_results (k : cfg) (start : nat) (r : results) : results :=
  {| r_id := 0; r_uid := npos k; r_first := start; r_second := start; r_bol := true; r_state := 0;
     r_stack := if f_rec k then drain (r_stack r) else r_stack r |}.
(** match_results.hpp:102-105: length(). *)
Definition results_length (r : results) : nat := (r_second r - r_first r)%nat.

Lemma drain_nil st : drain st = [].
Proof. induction st; [reflexivity|assumption]. Qed.

(** The two fields that are only written. *)
Definition with_ids (i u : N) (r : results) : results :=
  {| r_id := i; r_uid := u; r_first := r_first r; r_second := r_second r; r_bol := r_bol r; r_state := r_state r; r_stack := r_stack r |}.
Definition same_but_ids (i u : N) (o : res outcome) : res outcome :=
  match o with Ok (r, Some e) => Ok (with_ids i u r, Some e) | _ => o end.
Lemma again_ids k m inp inner i u : forall fuel r curr,
  again fuel inner k m inp (with_ids i u r) curr = same_but_ids i u (again fuel inner k m inp r curr).
Proof.
  induction fuel as [|f IH]; intros r curr; cbn [again].
  - destruct (Nat.eqb curr (length inp)); reflexivity.
  - destruct (Nat.eqb curr (length inp)); [reflexivity|].
    cbn [with_ids r_bol r_state r_stack r_first r_second r_id r_uid].
    destruct (attempt inner k m inp (r_bol r) (r_state r) curr) as [[s e]| | |]; cbn [bind]; try reflexivity.
    destruct (ls_end s); [|destruct (nth_error inp e); reflexivity].
    destruct (pop k s (r_stack r)) as [[start stack]|]; [|reflexivity].
    destruct (ls_id s =? skip_id k); [rewrite <- IH; reflexivity|].
    destruct (is_id_eoi k (i_eoi m) s stack); [rewrite <- IH; reflexivity|reflexivity].
Qed.
Lemma lookup_ids fuel inner k m inp r r' : r_second r' = r_second r -> r_bol r' = r_bol r -> r_state r' = r_state r -> r_stack r' = r_stack r ->
  lookup fuel inner k m inp r' = same_but_ids (r_id r') (r_uid r') (lookup fuel inner k m inp r).
Proof. intros E1 E2 E3 E4. unfold lookup. rewrite <- again_ids. cbn [with_ids r_first r_second r_bol r_state r_stack]. now rewrite E1, E2, E3, E4. Qed.
