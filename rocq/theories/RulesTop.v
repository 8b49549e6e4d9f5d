(** The machine of a rules object: its feature bits, and lookup() on it. *)
From Verif Require Import Base StringToken StateMachine Slice ReToken DfaSpec ParserTree Grammar Tree Parser Generator Build Lookup TableSpec LookupSpec
  RuleSpec RuleWords BuildSpec BuildLookup BuildErrs BuildThms ReTokeniser ReTokeniserNext Rules TokeniseSpec PruneProofs TokeniseAll
  RulesSpec RulesInv RulesContent RulesFeat RulesBuild.
Local Open Scope N_scope.

Lemma build_states_length f k fl gs : forall u st used os u' used', build_states f k fl gs u st used = Ok (os, u', used') -> length os = length gs.
Proof.
  induction gs as [|g gs IH]; intros u st used os u' used' H; cbn in H; [injection H as <- _ _; reflexivity|].
  destruct (build_one _ _ _ _ _ _ _) as [[[o v] st']| | |]; cbn [bind] in H; try discriminate.
  destruct (build_states f k fl gs v st' (o_used o)) as [[[os1 u1] us1]| | |] eqn:E; cbn [bind] in H; try discriminate.
  injection H as <- _ _. cbn. now rewrite (IH _ _ _ _ _ _ E).
Qed.
Lemma fold_lor_bit l b : forall a, bit (fold_left N.lor l a) b <-> bit a b \/ exists f, In f l /\ bit f b.
Proof.
  induction l as [|x l IH]; intros a; cbn.
  - split; [auto|]. intros [H|(f & [] & _)]. exact H.
  - rewrite IH, bit_lor. split.
    + intros [[H|H]|(f & H1 & H2)]; eauto.
    + intros [H|(f & [->|H1] & H2)]; eauto.
Qed.
(** generator.hpp:745-760: the features of the machine are those of its start
    states, and multi_state exactly from two start states on. *)
Theorem machine_features f g R m : build f g R = Ok m -> forall b,
  bit (i_features m) b <-> (exists s, In s (gr_states R) /\ bit (gs_features s) b) \/ (1 < length (gr_states R))%nat /\ bit fb_multi b.
Proof.
  unfold build. destruct (build_states _ _ _ _ _ _ _) as [[[os u] us]| | |] eqn:E; cbn [bind]; try discriminate.
  destruct (check_suppressed _ _ _); cbn [bind]; try discriminate. intros H. injection H as <-. intros b. cbn [i_features create].
  rewrite bit_lor, fold_lor_bit, (build_states_length _ _ _ _ _ _ _ _ _ _ E).
  assert (Z : forall x, bit 0 x <-> False) by (intros x; unfold bit; rewrite N.land_0_l; tauto). rewrite Z.
  destruct (Nat.ltb_spec 1 (length (gr_states R))) as [L|L]; rewrite ?Z.
  - split.
    + intros [[[]|(x & H1 & H2)]|H]; [|auto]. apply in_map_iff in H1. destruct H1 as (s & <- & Hs). eauto.
    + intros [(s & H1 & H2)|[_ H]]; [|auto]. left. right. exists (gs_features s). split; [now apply in_map|auto].
  - split.
    + intros [[[]|(x & H1 & H2)]|[]]. apply in_map_iff in H1. destruct H1 as (s & <- & Hs). eauto.
    + intros [(s & H1 & H2)|[H _]]; [|lia]. left. right. exists (gs_features s). split; [now apply in_map|auto].
Qed.

Section Top.
  Variables (k : rcfg) (g : gcfg) (r : rules).
  Hypothesis NPOS : 1 < rnpos k.
  Hypothesis P : proper_unsplit k r.
  Theorem made_features f m : build f g (grules_of r) = Ok m ->
    (forall i x, In x (rules_at r i) -> announced k (i_features m) x) /\
    (bit (i_features m) fb_multi <-> (1 < length (ru_map r))%nat \/ exists i, bit (nth i (ru_features r) 0) fb_multi).
  Proof.
    intros HB. destruct (unsplit_feats k NPOS r P) as (A & C & F). destruct (al_states _ _ A) as (A1 & _ & A3 & _).
    assert (L : length (gr_states (grules_of r)) = length (ru_map r)) by (cbn; now rewrite map_length, seq_length).
    assert (UP : forall i b, bit (nth i (ru_features r) 0) b -> bit (i_features m) b).
    { intros i b H. apply (machine_features f g _ m HB). left.
      destruct (Nat.lt_ge_cases i (length (ru_map r))) as [LT|GE].
      - exists {| gs_rules := rules_at r i; gs_features := nth i (ru_features r) 0 |}. split; [|exact H]. cbn. apply in_map_iff. exists i. split; [reflexivity|apply in_seq; lia].
      - rewrite nth_overflow in H by lia. destruct H. apply N.land_0_l. }
    split.
    - intros i x Hx. specialize (F i). rewrite Forall_forall in F. destruct (F x Hx) as (F1 & F2 & F3 & F4 & F5).
      repeat split; eauto.
    - rewrite (machine_features f g _ m HB), L. split.
      + intros [(s & Hs & H)|[H _]]; [|auto]. right. cbn in Hs. apply in_map_iff in Hs. destruct Hs as (i & <- & _). exists i. exact H.
      + intros [H|(i & H)]; [right; split; [auto|discriminate]|]. left. destruct (Nat.lt_ge_cases i (length (ru_map r))) as [LT|GE].
        * exists {| gs_rules := rules_at r i; gs_features := nth i (ru_features r) 0 |}. split; [|exact H]. cbn. apply in_map_iff. exists i. split; [reflexivity|apply in_seq; lia].
        * rewrite nth_overflow in H by lia. destruct H. apply N.land_0_l.
  Qed.

  Hypothesis Hbits : g_bits g = r_bits k.
  Hypothesis Hbytes : g_bytes g = r_bytes k.
  Hypothesis Hb : 0 < g_bytes g.
  Hypothesis SI : simple g r.
  Theorem made_builds f sm : match build_into f g (grules_of r) sm with
    | (sm', Ok _) => build f g (grules_of r) = Ok sm'
    | (sm', Throw e) => sm' = sm /\ why_not g (grules_of r) e
    | (_, UB) => False
    | (_, Fuel) => True
    end.
  Proof.
    assert (W : wide_ok g) by (unfold wide_ok; lia). pose proof (made_wf k g r NPOS Hbits Hbytes Hb P SI) as WF.
    pose proof (build_all_or_nothing f g (grules_of r) sm W WF) as H. destruct (build_into _ _ _ _) as [sm' [x|e| |]]; auto. apply H.
  Qed.
  Theorem made_lookup f kc m inp res fuel inner : agree kc g -> build f g (grules_of r) = Ok m -> covers kc m ->
    Forall (fits (c_bytes kc)) inp -> in_range (grules_of r) inp res ->
    Forall (fun gs => Forall eager (gs_rules gs)) (gr_states (grules_of r)) ->
    match lookup fuel inner kc m inp res with
    | Ok (res', o) => rlex kc (grules_of r) inp (r_second res) res res' o /\ in_range (grules_of r) inp res'
    | Fuel => True
    | _ => False
    end.
  Proof.
    intros HA HB HC HI HR HE. apply (lookup_rlex f kc g (grules_of r) m inp res); auto.
    now apply (made_setting k g r NPOS Hbits Hbytes Hb P SI).
  Qed.
End Top.
