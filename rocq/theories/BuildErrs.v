(** When build throws. *)
From Verif Require Import Base StringToken StateMachine ReToken DfaSpec Grammar Tree Parser Generator Build
  ParserTree RuleSpec BuildSpec BuildTree BuildState BuildFuel BuildMachine BuildThms.
Local Open Scope N_scope.

Lemma first_at_returnable rs j : (exists bol cs, first_at rs bol cs j) <-> returnable rs j.
Proof.
  split.
  - intros (bol & cs & (r & E & M) & H). exists r, bol, cs. auto.
  - intros (r & bol & cs & E & M & H). exists bol, cs. split; [eauto|auto].
Qed.
Lemma total_count R : total (gr_states R) = rule_count R.
Proof.
  unfold rule_count. induction (gr_states R) as [|g gs IH]; cbn; [auto|]. rewrite app_length. unfold total in IH. now rewrite IH.
Qed.

(** C18 *)
Theorem zero_len_sound f k R : wide_ok k -> rules_wf k R -> build f k R = Throw EZeroLen ->
  zero_len_ok (gr_flags R) = false /\ exists g r, In g (gr_states R) /\ In r (gs_rules g) /\ rmatch r false [].
Proof.
  intros WO RW E. destruct (build_throw f k R _ WO RW E) as [(g & Hg & [(Q & _)|[([Q|Q] & _)|[(_ & Z & r & Hr & M)|Q]]])|(Q & _)];
    try discriminate. split; [auto|]. exists g, r. auto.
Qed.
Lemma state_of f k R m g : wide_ok k -> rules_wf k R -> build f k R = Ok m -> In g (gr_states R) ->
  exists o, state_ok k (gr_flags R) g o.
Proof.
  intros WO RW E Hg. destruct (build_machine f k R m WO RW E) as (_ & os & _ & F & _).
  clear - F Hg. induction F as [|a b c d H F IH]; [destruct Hg|]. destruct Hg as [<-|Hg]; eauto.
Qed.
Theorem zero_len_complete f k R m : wide_ok k -> rules_wf k R -> zero_len_ok (gr_flags R) = false ->
  build f k R = Ok m -> forall g r, In g (gr_states R) -> In r (gs_rules g) -> ~ rmatch r false [].
Proof.
  intros WO RW Z E g r Hg Hr M. destruct (state_of f k R m g WO RW E Hg) as (o & [_ _ _ [S|S]]); [congruence|].
  eapply S; eauto.
Qed.

(** C19 *)
Lemma useful_none k gs : forall u v, u + N.of_nat (total gs) < 2 ^ g_bits k -> u < v <= u + N.of_nat (total gs) ->
  ~ useful_in k gs u v -> exists g j, In g gs /\ (j < length (gs_rules g))%nat /\ ~ returnable (gs_rules g) j.
Proof.
  induction gs as [|g gs IH]; intros u v H Hv; cbn [total fold_right] in *; [cbn in Hv; lia|]. fold (total gs) in *.
  cbn [useful_in]. rewrite after_small by lia. intros NU.
  destruct (N.le_gt_cases v (u + N.of_nat (length (gs_rules g)))) as [L|L].
  - exists g, (N.to_nat (v - u - 1)). split; [now left|]. split; [lia|]. intros HR. apply NU. left.
    exists (N.to_nat (v - u - 1)). split; [rewrite uniqs_nth by lia; f_equal; lia|]. now apply first_at_returnable.
  - destruct (IH (u + N.of_nat (length (gs_rules g))) v) as (g' & j & Hg & Hj & NR); [lia|lia|tauto|].
    exists g', j. split; [now right|auto].
Qed.
Theorem suppressed_sound f k R : wide_ok k -> rules_wf k R -> N.of_nat (rule_count R) < 2 ^ g_bits k ->
  Forall (fun g => Forall eager (gs_rules g)) (gr_states R) -> build f k R = Throw ESuppressed ->
  suppressed_ok (gr_flags R) = false /\
  exists g j, In g (gr_states R) /\ (j < length (gs_rules g))%nat /\ ~ returnable (gs_rules g) j.
Proof.
  intros WO RW HC EA E.
  destruct (build_throw f k R _ WO RW E) as [(g & Hg & [(Q & _)|[([Q|Q] & _)|[(Q & _)|Q]]])|(_ & SP & v & Hv & NU)];
    try discriminate. split; [auto|]. specialize (NU EA). rewrite <- total_count in HC.
  rewrite after_small in Hv by lia. eapply useful_none; eauto; lia.
Qed.
Theorem suppressed_complete f k R m : wide_ok k -> rules_wf k R -> N.of_nat (rule_count R) < 2 ^ g_bits k ->
  suppressed_ok (gr_flags R) = false -> build f k R = Ok m ->
  forall g j, In g (gr_states R) -> (j < length (gs_rules g))%nat -> returnable (gs_rules g) j.
Proof.
  intros WO RW HC SP E g j Hg Hj. rewrite <- total_count in HC.
  destruct (build_machine f k R m WO RW E) as (_ & os & _ & _ & [U|U]); [congruence|].
  rewrite after_small in U by lia. apply first_at_returnable.
  apply (proj1 (useful_all k (gr_states R) 0 ltac:(lia))) with (g := g); auto.
Qed.

(** C17 *)
Theorem build_all_or_nothing f k R sm : wide_ok k -> rules_wf k R ->
  match build_into f k R sm with
  | (sm', Ok _) => build f k R = Ok sm' /\ forall other, fst (build_into f k R other) = sm'
  | (sm', Throw e) => sm' = sm /\ why_not k R e
  | (_, UB) => False
  | (_, Fuel) => True
  end.
Proof.
  intros WO RW. unfold build_into. pose proof (build_defined f k R WO RW) as D.
  pose proof (fun e => build_throw f k R e WO RW) as T. destruct (build f k R); auto.
Qed.
(** The syntax of every rule is fine in what build accepts. *)
Theorem built_parses f k R m g r : wide_ok k -> rules_wf k R -> build f k R = Ok m ->
  In g (gr_states R) -> In r (gs_rules g) -> parses r.
Proof.
  intros WO RW E Hg Hr. destruct (state_of f k R m g WO RW E Hg) as (o & SO).
  pose proof (so_parses _ _ _ _ SO) as F. rewrite Forall_forall in F. auto.
Qed.
Theorem syntax_sound f k R e : wide_ok k -> rules_wf k R -> build f k R = Throw e ->
  e = ESyntax \/ e = EInternal -> exists g r, In g (gr_states R) /\ In r (gs_rules g) /\ ~ parses r.
Proof.
  intros WO RW E He.
  destruct (build_throw f k R _ WO RW E) as [(g & Hg & [(Q & _)|[(_ & r & Hr & NP)|[(Q & _)|Q]]])|(Q & _)];
    try (destruct He; congruence). eauto.
Qed.
