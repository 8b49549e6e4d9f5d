(** Machines of rules with $, built, saved and loaded. *)
From Verif Require Import Base Serialise SerialiseProofs StringToken StateMachine ReToken DfaSpec Grammar Tree Parser
  Generator Build Lookup TableSpec LookupSpec RuleSpec BuildSpec ParserTree BuildState BuildMachine BuildLookup BuildErrs BuildThms Minimise TableSim MinimiseProofs Iterator GenCpp GenCppSpec GenBuilt GenMade FlagsSpec
  EolSpec EolBuild EolLookup EolLex ReTokeniser ReTokeniserNext Rules TokeniseSpec RulesSpec RulesInv RulesFeat RulesBuild RulesTop
  BuildCheck SaveBuilt SourceSpec SourceLexer SourceTop TokenList LineSpec LineTop LineRoutes SaveTexts.
Local Open Scope N_scope.

Section Fits.
  Variables (g : gcfg) (gs : gstate) (o : dfa_out) (B n : N).
  Hypothesis HB : B = 2 ^ g_bits g.
  Hypothesis B8 : 8 <= B.
  Hypothesis TB : line_table g (gs_rules gs) (out_table o) n.
  Hypothesis BL : blank (N.to_nat (o_width o)) (o_rows o).
  Hypothesis RI : Forall (rule_in B) (gs_rules gs).
  Lemma cells_fit : Forall (fun v => v < B) (concat (o_rows o)).
  Proof.
    assert (NS : gnpos g < B) by (unfold gnpos, npos_of; rewrite <- HB; lia).
    pose proof (lt_width _ _ _ _ TB) as W. pose proof (lt_len _ _ _ _ TB) as L. pose proof (lt_n _ _ _ _ TB) as Hn. cbn [out_table t_width t_dfa] in W, L. unfold ix_trans in W.
    apply Forall_forall. intros v Hv. apply In_nth_error in Hv as (i & Ei).
    assert (Hi : (i < length (concat (o_rows o)))%nat) by (apply nth_error_Some; congruence).
    remember (N.of_nat i / o_width o) as row eqn:Er. remember (N.of_nat i mod o_width o) as col eqn:Ec.
    assert (D : N.of_nat i = row * o_width o + col) by (subst; rewrite N.mul_comm; apply N.div_mod; lia).
    assert (Hc : col < o_width o) by (subst col; apply N.mod_lt; lia). clear Er Ec.
    assert (Hr : row < n) by nia.
    assert (EC : cell (out_table o) row col = Some v).
    { unfold cell, out_table. cbn [t_dfa t_width]. rewrite <- D, Nat2N.id. exact Ei. }
    destruct (N.lt_ge_cases col 5) as [C5|C5].
    2:{ assert (v < n); [|lia]. apply (lt_cell _ _ _ _ TB row col v Hr); [|exact EC]. unfold ix_eol. cbn [out_table t_width]. lia. }
    destruct (N.eq_dec row 0) as [->|R0].
    { destruct (N.eq_dec col 0) as [->|C0].
      - destruct (lt_cell0 _ _ _ _ TB) as (v' & E' & H). assert (v' = v) by congruence. lia.
      - rewrite (lt_row0 _ _ _ _ TB) in EC by (unfold ix_trans; lia). injection EC as <-. lia. }
    destruct (lt_info _ _ _ _ TB row ltac:(lia)) as [E0|(x & Hx & (u & gr & D1 & D2 & D3 & D4 & D5))].
    - change ix_end with (N.of_nat 0) in E0. replace col with (N.of_nat (N.to_nat col)) in EC by apply N2Nat.id.
      rewrite (cell_rows o BL) in E0, EC by lia. destruct (nth_error (o_rows o) (N.to_nat row)) as [r|] eqn:Q; [|discriminate].
      destruct (N.to_nat row) as [|j] eqn:J; [lia|]. destruct BL as [_ BR]. rewrite (BR j r Q E0) in EC by lia. injection EC as <-. lia.
    - rewrite Forall_forall in RI. destruct (RI x Hx) as (I1 & I2 & I3 & I4).
      cbn in D2, D3, D4, D5. pose proof (end_bits_8 (end_info (rule_info x u) gr)) as EB.
      assert (CC : col = ix_end \/ col = ix_id \/ col = ix_uid \/ col = ix_push \/ col = ix_next) by (unfold ix_end, ix_id, ix_uid, ix_push, ix_next; lia).
      destruct CC as [->|[->|[->|[->| ->]]]]; [rewrite D1 in EC|rewrite D2 in EC|rewrite D3 in EC|rewrite D4 in EC|rewrite D5 in EC]; injection EC as <-; auto. lia.
  Qed.
End Fits.
(** As [built_fits], for all rules. *)
Theorem built_fits_all f g R m bytes : wide_ok g -> rules_fair g R -> build f g R = Ok m -> g_bits g = 8 * bytes -> 1 <= bytes ->
  typed (2 ^ (8 * bytes)) R -> in_memory m -> Serialise.fits bytes m.
Proof.
  intros WO RW HB Hbits Hby (T1 & T2) (M1 & M2). unfold build in HB. step HB. destruct a as [[os u] used]. step HB. injection HB as <-.
  assert (BL := blank_states _ _ _ _ _ _ _ _ _ _ E).
  pose proof (build_states_line g (gr_flags R) WO _ _ _ _ _ _ _ _ RW E) as SO.
  assert (B8 : 8 <= 2 ^ (8 * bytes)).
  { change 8 with (2 ^ 3) at 1. apply N.pow_le_mono_r; lia. }
  assert (SM : size_lim > 256) by reflexivity.
  cbn [create i_dfa] in M1, M2. rewrite map_length in M1.
  assert (ALL : Forall (fun o => Forall (fun v => v < 2 ^ (8 * bytes)) (o_lookup o) /\ length (o_lookup o) = 256%nat /\ o_width o < 2 ^ (8 * bytes) /\
     Forall (fun v => v < 2 ^ (8 * bytes)) (concat (o_rows o))) os).
  { clear - SO BL T2 Hbits B8. induction SO as [|gs o gss os (n & TB & _) SO IH]; [constructor|]. inversion BL; subst. inversion T2 as [|? ? (F1 & F2) T2']; subst.
    constructor; [|now apply IH]. assert (Q : 2 ^ (8 * bytes) = 2 ^ g_bits g) by now rewrite Hbits.
    assert (NS : gnpos g < 2 ^ (8 * bytes)) by (unfold gnpos, npos_of; rewrite <- Q; lia).
    pose proof (lt_width _ _ _ _ TB) as W. pose proof (lt_cols _ _ _ _ TB) as C. pose proof (lt_lk _ _ _ _ TB) as L. cbn [out_table t_width t_lookup] in W, C, L.
    split; [eapply Forall_impl; [|exact C]; cbv beta; intros a Ha; lia|]. split; [exact L|]. split; [lia|]. eapply cells_fit; eauto. }
  unfold Serialise.fits, create; cbn [i_eoi i_features i_lookup i_alphabet i_dfa]. rewrite !map_length.
  split; [exact T1|]. split.
  { apply lor_small; [apply lors_small; [lia|]|].
    - rewrite Forall_map. eapply Forall_impl; [|exact T2]. now intros z (A & _).
    - destruct (Nat.ltb _ _); [|lia]. unfold fb_multi. apply N.lt_le_trans with (2 ^ 8); [reflexivity|]. apply N.pow_le_mono_r; lia. }
  split; [exact M1|]. split.
  { rewrite Forall_map. eapply Forall_impl; [|exact ALL]. intros o (A1 & A2 & _). split; [exact A1|]. rewrite A2. reflexivity. }
  split; [split; [|exact M1]|split; [exact M1|]].
  - rewrite Forall_map. eapply Forall_impl; [|exact ALL]. now intros o (_ & _ & A & _).
  - rewrite Forall_map in *. rewrite Forall_forall in *. intros o Ho. split; [apply (ALL o Ho)|apply (M2 o Ho)].
Qed.
Theorem built_in_memory_all f g R m bytes : wide_ok g -> rules_fair g R -> build f g R = Ok m -> g_bits g = 8 * bytes -> bytes <= 4 ->
  N.of_nat (length (gr_states R)) < size_lim -> in_memory m.
Proof.
  intros WO RW HB Hbits H4 HL. destruct (build_line f g R m WO RW HB) as (_ & L & MT & _). split; [now rewrite L|].
  apply Forall_forall. intros d Hd. apply In_nth_error in Hd as (i & Ed). assert (Hi : (i < length (i_dfa m))%nat) by (apply nth_error_Some; congruence).
  destruct (nth_error (gr_states R) i) as [gs|] eqn:Eg; [|apply nth_error_None in Eg; lia].
  destruct (MT (N.of_nat i) gs) as (t & n & Et & LT); [now rewrite Nat2N.id|]. unfold get_table in Et. rewrite Nat2N.id, Ed in Et.
  destruct (nth_error (i_lookup m) i); [|discriminate]. destruct (nth_error (i_alphabet m) i); [|discriminate]. injection Et as <-.
  pose proof (lt_len _ _ _ _ LT) as LL. pose proof (lt_width _ _ _ _ LT) as W. pose proof (lt_n _ _ _ _ LT) as Hn. cbn [t_dfa t_width] in *. rewrite LL.
  assert (G : gnpos g < 2 ^ 32).
  { unfold gnpos, npos_of. rewrite Hbits. assert (2 ^ (8 * bytes) <= 2 ^ 32) by (apply N.pow_le_mono_r; lia). assert (2 ^ (8 * bytes) <> 0) by (apply N.pow_nonzero; lia). lia. }
  change size_lim with (2 ^ 32 * 2 ^ 32). nia.
Qed.

Lemma bits_same kc g bytes : agree kc g -> g_bits g = 8 * bytes -> c_bits kc = 8 * bytes.
Proof.
  intros (A & _) H. unfold npos, gnpos, npos_of in A. rewrite H in A.
  assert (X : 2 ^ c_bits kc <> 0) by (apply N.pow_nonzero; lia). assert (Y : 2 ^ (8 * bytes) <> 0) by (apply N.pow_nonzero; lia).
  assert (E : 2 ^ c_bits kc = 2 ^ (8 * bytes)) by lia. apply N.pow_inj_r in E; [exact E|lia].
Qed.
Theorem lines_saved k g kc fl mds xs f m inp csize bytes : 1 < rnpos k -> g_bits g = r_bits k -> g_bytes g = r_bytes k -> r_bytes k = 1 \/ r_bytes k = 2 ->
  agree kc g -> smacros_ok k fl mds -> Forall (lrule_ok k fl mds) xs -> Forall (ids_typed k) xs -> sapart (r_bytes k) xs ->
  (forall s, In s (gr_states (grules_of (push_all k fl mds xs))) -> N.of_nat (length (all_sets (g_bytes g) s)) < eol_tok g) ->
  build f g (grules_of (push_all k fl mds xs)) = Ok m -> f_adv kc = true -> Forall (fits (c_bytes kc)) inp ->
  r_bits k = 8 * bytes -> 2 <= bytes <= 8 -> csize < size_lim -> in_memory m \/ bytes <= 4 ->
  exists l, tokens (dreads (npos kc) (skip_id kc) (f_bol kc) (f_eol kc) xs inp) true 0 l /\
    comes_back csize bytes m (fun m' => lines_routes kc m' inp l) /\
    exists mini, minimise (c_bits kc) m = Ok mini /\ comes_back csize bytes mini (fun m' => lines_iterate kc m' inp l).
Proof.
  intros NP Hbits Hbytes Hb AG MO Hx Tx AP Sets HB Adv HI Ids Two Cs Mem.
  destruct (lines_all_routes k g kc fl mds xs f m inp NP Hbits Hbytes Hb AG MO Hx AP Sets HB Adv HI) as (l & T & _ & EV).
  assert (R0 : ready inp (new_results kc 0 true 0)) by (apply ready_new; lia).
  assert (SE : fair_setting f kc g (grules_of (push_all k fl mds xs)) m inp (new_results kc 0 true 0)) by (eapply lines_setting; eauto).
  pose proof (fs_mwf _ _ _ _ _ _ _ SE) as MW. destruct SE as [_ WO RF _ _ _ _ _].
  assert (TY := kept_typed k ltac:(lia) _ (kept_all k ltac:(lia) fl mds xs Tx)). rewrite Ids in TY.
  assert (FI : Serialise.fits bytes m).
  { apply (built_fits_all f g _ m bytes WO RF HB); [congruence|lia|exact TY|]. destruct Mem as [M|M]; [exact M|].
    eapply built_in_memory_all; eauto; [congruence|]. assert (Hs : Forall (text_says k fl mds) xs) by (eapply Forall_impl; [|exact Hx]; now intros a []).
    destruct (push_all_said k fl NP mds xs MO Hs) as (_ & _ & E & _). cbn [grules_of gr_states]. rewrite E. reflexivity. }
  exists l. split; [exact T|]. split; [apply saved_back; auto|].
  destruct EV as (_ & (mini & E & I) & _). exists mini. split; [exact E|]. apply saved_back; auto.
  eapply minimised_fits; [exact MW|exact FI|eapply bits_same; eauto; congruence|exact E].
Qed.
