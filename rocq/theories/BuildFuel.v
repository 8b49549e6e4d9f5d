(** More fuel does not change a result of build. *)
From Verif Require Import Base StringToken StateMachine Tree Partition Generator ReToken Parser Build.
Local Open Scope N_scope.

Lemma state_loop_mono k fl s sm cr nl w : forall f f' i d r, (f <= f')%nat ->
  state_loop f k fl s sm cr nl w i d = r -> r <> Fuel -> state_loop f' k fl s sm cr nl w i d = r.
Proof.
  induction f as [|f IH]; intros f' i d r Hf E NF; cbn [state_loop] in E; [congruence|].
  destruct f' as [|f']; [lia|]. cbn [state_loop]. destruct (nth_error (d_seen d) i) as [v|]; [|auto].
  destruct (build_equiv_list k s sm v) as [qs| | |]; cbn [bind] in *; auto.
  destruct (do_equivs k fl s sm cr nl w (S i) d qs) as [d'| | |]; cbn [bind] in *; auto.
  apply IH with (r := r); auto. lia.
Qed.
Lemma build_dfa_mono f f' k fl s root m cr nl used r : (f <= f')%nat ->
  build_dfa f k fl s root m cr nl used = r -> r <> Fuel -> build_dfa f' k fl s root m cr nl used = r.
Proof.
  intros Hf E NF. unfold build_dfa in *.
  destruct (partition_charsets m) as [cl| | |]; cbn [bind] in *; auto.
  destruct (build_set_mapping _ _ _ _) as [x| | |]; cbn [bind] in *; auto.
  destruct (if cr =? gnpos k then _ else _) as [cr'| | |]; cbn [bind] in *; auto.
  destruct (if nl =? gnpos k then _ else _) as [nl'| | |]; cbn [bind] in *; auto.
  destruct (if negb _ && _ then _ else _) as [z| | |]; cbn [bind] in *; auto.
  set (w := (_ + _ + _)%nat) in *.
  destruct (gnpos k <? N.of_nat w); auto.
  destruct (closure _ _ _ _ _) as [c| | |]; cbn [bind] in *; auto.
  destruct (state_loop f _ _ _ _ _ _ _ _ _) as [d|e| |] eqn:El; cbn [bind] in *.
  4: congruence.
  all: rewrite (state_loop_mono _ _ _ _ _ _ _ f f' _ _ _ Hf El) by discriminate; cbn [bind]; auto.
Qed.
Lemma build_one_mono f f' k fl g u st used r : (f <= f')%nat ->
  build_one f k fl g u st used = r -> r <> Fuel -> build_one f' k fl g u st used = r.
Proof.
  intros Hf E NF. unfold build_one in *. destruct (gs_rules g); auto.
  destruct (build_tree k g u st) as [[[root u'] s]| | |]; cbn [bind] in *; auto.
  destruct (check_zero_len _ _ _); cbn [bind] in *; auto.
  destruct (build_dfa f _ _ _ _ _ _ _ _) as [o|e| |] eqn:Ed; cbn [bind] in *.
  4: congruence.
  all: rewrite (build_dfa_mono f f' _ _ _ _ _ _ _ _ _ Hf Ed) by discriminate; cbn [bind]; auto.
Qed.
Lemma build_states_mono f f' k fl : (f <= f')%nat -> forall gs u st used r,
  build_states f k fl gs u st used = r -> r <> Fuel -> build_states f' k fl gs u st used = r.
Proof.
  intros Hf. induction gs as [|g gs IH]; intros u st used r E NF; cbn [build_states] in *; auto.
  destruct (build_one f k fl g u st used) as [[[o u'] st']|e| |] eqn:E1; cbn [bind] in *.
  4: congruence.
  all: rewrite (build_one_mono f f' _ _ _ _ _ _ _ Hf E1) by discriminate; cbn [bind]; auto.
  destruct (build_states f k fl gs u' st' (o_used o)) as [x|e| |] eqn:E2; cbn [bind] in *.
  4: congruence.
  all: rewrite (IH u' st' (o_used o) _ E2) by discriminate; cbn [bind]; auto.
Qed.
Theorem build_mono f f' k R r : (f <= f')%nat -> build f k R = r -> r <> Fuel -> build f' k R = r.
Proof.
  intros Hf E NF. unfold build in *.
  destruct (build_states f _ _ _ _ _ _) as [x|e| |] eqn:E2; cbn [bind] in *.
  4: congruence.
  all: rewrite (build_states_mono f f' _ _ Hf _ _ _ _ _ E2) by discriminate; cbn [bind]; auto.
Qed.
