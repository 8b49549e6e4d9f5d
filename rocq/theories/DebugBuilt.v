(** The dump of a built machine: no class is empty, so it is defined. *)
From Verif Require Import Base StringToken StringTokenSpec StringTokenProofs RegexSpec StateMachine Slice
  ReToken DfaSpec Grammar Tree TreeSpec Glushkov TreeProofs Partition Parser Generator GenMap Build ParserTree
  ParserKeys ParserSound ParserLoop TreeWords ParserRule Lookup TableSpec LookupSpec RuleSpec RuleWords
  BuildSpec BuildTree GenDfa GenRules GenTable GenWalk GenBuild BuildState BuildFuel ParserErrs BuildMachine
  BuildThms BuildLookup BuildClean EolFix MinimiseProofs CharMachine CharProofs Debug SourceSpec DebugSpec DumpSpec DebugText DebugClass.
Local Open Scope N_scope.

(** Every column behind the fixed ones belongs to a character. *)
Definition every_column (t : table) : Prop :=
  forall col, ix_trans <= col < t_width t -> exists c, c < 256 /\ nth_error (t_lookup t) (N.to_nat c) = Some col.
Lemma build_dfa_columns f k fl s root m used o : GenMap.map_wf m -> build_dfa f k fl s root m (gnpos k) (gnpos k) used = Ok o -> every_column (out_table o).
Proof.
  intros HM. unfold build_dfa. rewrite N.eqb_refl. cbn [andb negb bind].
  destruct (alphabet_spec m HM) as (cl & lk & sm & -> & E2 & _ & _ & S & _). cbn [bind]. rewrite E2. cbn [bind fst snd]. rewrite N.eqb_refl. cbn [andb]. rewrite Nat.add_0_r.
  destruct (_ <? _); [discriminate|]. intros E. apply bind_ok in E as (c & _ & E). apply bind_ok in E as (d & _ & E). apply bind_ok in E as (rows & _ & E).
  injection E as <-. intros col H. cbn in H |- *. apply S. unfold ix_trans in *. lia.
Qed.
Theorem build_one_columns k fl g u st used f o u' st' : wide_ok k -> state_wf k g ->
  build_one f k fl g u st used = Ok (o, u', st') -> every_column (out_table o).
Proof.
  intros WO [RW (A & HA & KA)] E. set (seen := has_bol (gs_features g)) in *.
  assert (NE : gs_rules g <> []) by (intros E0; unfold build_one in E; rewrite E0 in E; discriminate).
  assert (GR : Forall (good_rule k seen A) (gs_rules g)).
  { apply Forall_forall. intros r Hr. split; [rewrite Forall_forall in RW; apply RW; auto|]. intros t Ht. eauto. }
  assert (FR : Forall (fair_rule k A) (gs_rules g)) by (eapply Forall_impl; [|exact GR]; apply good_fair).
  unfold build_one in E.
  replace (match gs_rules g with [] => Throw EEmptyState | _ :: _ => _ end) with
    (do t <- build_tree k g u st;
     let '(root, u, s) := t in
     do z <- check_zero_len fl (snd (ps_tree s)) root;
     do o <- build_dfa f k fl (snd (ps_tree s)) root (ps_map s) (ps_cr s) (ps_nl s) used;
     if gnpos k <=? N.of_nat (length (concat (o_rows o))) / o_width o then Throw EOverflow
     else Ok (o, u, snd (ps_tree s))) in E by (destruct (gs_rules g); [congruence|reflexivity]).
  destruct (build_tree_ok k A g u st WO HA NE FR) as [(root & u1 & s & ds & ET & BT)|(e & r & ET & _)];
    rewrite ET in E; [|discriminate]. cbn [bind] in E.
  apply bind_ok in E as (z & _ & E). apply bind_ok in E as (o1 & ED & E).
  assert (NL : ps_cr s = gnpos k /\ ps_nl s = gnpos k).
  { assert (Q : nls s = (gnpos k, gnpos k)).
    { apply (bt_nls _ _ _ _ _ _ _ _ _ _ BT). eapply Forall_impl; [|exact GR]. apply good_line_free. } unfold nls in Q. now injection Q. }
  destruct NL as [N1 N2]. rewrite N1, N2 in ED.
  pose proof (built_fine _ _ _ _ _ HA _ _ _ _ _ BT) as FM.
  destruct (gnpos k <=? _) eqn:LE in E; [discriminate|]. injection E as <- <- <-.
  eapply build_dfa_columns; [exact (proj1 FM)|exact ED].
Qed.
Lemma build_states_columns k fl : wide_ok k -> forall gs f u st used os u' used', Forall (state_wf k) gs ->
  build_states f k fl gs u st used = Ok (os, u', used') -> Forall (fun o => every_column (out_table o)) os.
Proof.
  intros WO. induction gs as [|g gs IH]; intros f u st used os u' used' F E; cbn [build_states] in E.
  - injection E as <- <- <-. constructor.
  - inversion F; subst. apply bind_ok in E as (((o & u1) & st1) & E1 & E).
    apply bind_ok in E as (((os1 & u2) & used2) & E2 & E). injection E as <- <- <-. constructor.
    + eapply build_one_columns; eauto.
    + eapply IH; eauto.
Qed.
Theorem build_columns f k R m : wide_ok k -> rules_wf k R -> build f k R = Ok m -> forall st t, get_table m st = Some t -> every_column t.
Proof.
  intros WO RF E. unfold build in E. apply bind_ok in E as (((os & u) & used) & E1 & E).
  apply bind_ok in E as (z & _ & E). injection E as <-.
  pose proof (build_states_columns k (gr_flags R) WO _ _ _ _ _ _ _ _ RF E1) as F.
  intros st t. unfold get_table, create. cbn [i_lookup i_alphabet i_dfa]. rewrite !nth_error_map.
  destruct (nth_error os (N.to_nat st)) as [o|] eqn:Eo; [|discriminate]. cbn. intros [= <-].
  rewrite Forall_forall in F. exact (F o (nth_error_In _ _ Eo)).
Qed.

(** ** Classes of converted machines *)
Lemma map_wf_key l : forall lo q t t', CharProofs.map_wf lo l -> In (q, t) l -> In (q, t') l -> t = t'.
Proof.
  assert (G : forall l lo q t, CharProofs.map_wf lo l -> In (q, t) l -> lo <= q).
  { induction l0 as [|[p u] l0 IH]; intros lo q t W I; [destruct I|]. destruct W as (W1 & _ & W3). destruct I as [[= -> ->]|I]; [exact W1|]. specialize (IH _ _ _ W3 I). lia. }
  induction l as [|[p u] l IH]; intros lo q t t' W I I'; [destruct I|]. destruct W as (_ & _ & W3).
  destruct I as [[= -> ->]|I], I' as [E|I'].
  - congruence.
  - specialize (G _ _ _ _ W3 I'). lia.
  - injection E as -> ->. specialize (G _ _ _ _ W3 I). lia.
  - eauto.
Qed.
Lemma map_wf_set l : forall lo q t, CharProofs.map_wf lo l -> In (q, t) l -> wf t.
Proof. induction l as [|[p u] l IH]; intros lo q t W I; [destruct I|]. destruct W as (_ & W2 & W3). destruct I as [[= -> ->]|I]; eauto. Qed.

(** A class that can be dumped: a set of characters that is not empty. *)
Definition dumpable (max : N) (t : stoken) : Prop := wf t /\ t <> [] /\ bounded max t.
Lemma state_classes k t n row s : twf k t n -> every_column t -> row < n -> same_state (npos k) t row s ->
  forall q tok, In (q, tok) (cs_trans s) -> dumpable 255 tok.
Proof.
  intros TW EC HR (_ & _ & _ & _ & _ & MV & BD & MW & KC) q tok I.
  pose proof (map_wf_set _ _ _ _ MW I) as W. split; [exact W|]. split.
  - destruct (KC q tok I) as (col & Hc & Ec). destruct (EC col Hc) as (c & C1 & C2).
    assert (M : cmoves s c q).
    { apply MV; [exact C1|]. eapply walk_cons; [exact C2|exact Ec|lia|constructor]. }
    destruct M as (tok' & I' & M). rewrite <- (map_wf_key _ _ _ _ _ MW I I') in M. intros ->. now apply mem_nil in M.
  - intros c M. assert (c < 256) by (apply (BD c q); exists tok; auto). lia.
Qed.

(** ** The dump is defined *)
Lemma charset_ok b base t : dumpable (top b) t -> exists x, dump_charset (top b) base t = Ok x.
Proof.
  intros (W & NE & B). unfold dump_charset.
  assert (O : exists o, opening t = Ok o).
  { destruct t as [|[x y] t]; [contradiction|]. cbn [opening]. destruct t; [|eauto]. destruct (x =? y); eauto. }
  destruct O as (o & ->). cbn [bind]. set (neg := negb (any (top b) t) && negatable (top b) t).
  assert (C : exists c, closing neg (if neg then negate (top b) t else t) = Ok c).
  { destruct neg.
    - destruct (negate (top b) t) as [|[x y] [|? ?]]; cbn [closing orb]; eauto.
    - destruct t as [|[x y] [|? ?]]; [contradiction| |]; cbn [closing orb]; [destruct (negb (x =? y))|]; eauto. }
  destruct C as (c & ->). cbn [bind]. eauto.
Qed.
Lemma moves_ok b base l : (forall q t, In (q, t) l -> dumpable (top b) t) -> exists x, dump_transitions (top b) base l = Ok x.
Proof.
  induction l as [|[q t] l IH]; intros H; [eexists; reflexivity|]. cbn [dump_transitions]. unfold dump_transition. cbn [fst snd].
  destruct (charset_ok b base t (H q t (or_introl eq_refl))) as (x & ->). cbn [bind]. destruct IH as (y & ->); [intros; eapply H; right; eauto|]. cbn [bind]. eauto.
Qed.
Lemma states_ok npos b base bol l : forall i, (forall s q t, In s l -> In (q, t) (cs_trans s) -> dumpable (top b) t) ->
  exists x, dump_states npos (top b) base bol i l = Ok x.
Proof.
  induction l as [|s l IH]; intros i H; [eexists; reflexivity|]. cbn [dump_states]. unfold dump_state.
  destruct (moves_ok b base (cs_trans s)) as (x & ->); [intros q t; apply H; now left|]. cbn [bind].
  destruct (IH (i + 1)) as (y & ->); [intros s0 q t I; apply H; now right|]. cbn [bind]. eauto.
Qed.
Theorem dump_defined npos b base name l : forall i, (forall d s q t, In d l -> In s (cd_states d) -> In (q, t) (cs_trans s) -> dumpable (top b) t) ->
  (forall j, i <= j < i + N.of_nat (length l) -> name j <> None) -> exists x, dump_csm npos (top b) base name i l = Ok x.
Proof.
  induction l as [|d l IH]; intros i H NM; [eexists; reflexivity|]. cbn [dump_csm length] in *.
  destruct (name i) as [n|] eqn:En; [|exfalso; apply (NM i); [lia|exact En]]. unfold dump_ex.
  destruct (states_ok npos b base (cd_bol d) (cd_states d) 0) as (x & ->); [intros s q t; apply H; now left|]. cbn [bind].
  destruct (IH (i + 1)) as (y & ->); [intros d0 s q t I; apply H; now right|intros j Hj; apply NM; lia|]. cbn [bind]. eauto.
Qed.

(** ** Built machines *)
Lemma get_table_in m d : (length (i_dfa m) <= length (i_alphabet m))%nat -> (length (i_dfa m) <= length (i_lookup m))%nat -> (d < length (i_dfa m))%nat ->
  exists t, get_table m (N.of_nat d) = Some t.
Proof.
  intros H1 H2 H. unfold get_table. rewrite Nat2N.id. destruct (nth_error (i_lookup m) d) eqn:E1; [|apply nth_error_None in E1; lia].
  destruct (nth_error (i_alphabet m) d) eqn:E2; [|apply nth_error_None in E2; lia]. destruct (nth_error (i_dfa m) d) eqn:E3; [|apply nth_error_None in E3; lia]. eauto.
Qed.
Theorem built_classes f k g R m inp r l : setting f k g R m inp r -> sm_to_csm (npos k) m = Some l ->
  length l = length (gr_states R) /\ forall d s q t, In d l -> In s (cd_states d) -> In (q, t) (cs_trans s) -> dumpable 255 t.
Proof.
  intros SE EL. pose proof (se_mwf _ _ _ _ _ _ _ SE) as MW. pose proof (se_machine _ _ _ _ _ _ _ SE) as MO.
  assert (MC : mclean k m) by (destruct SE; eapply built_mclean; eauto).
  destruct (sm_to_csm_ok k m MW MC) as (l' & E' & LN & H). rewrite EL in E'. injection E' as <-.
  split; [rewrite LN; apply MO|]. intros d s q t Id Is It. apply In_nth_error in Id as (j & Ed).
  assert (Hj : (j < length (i_dfa m))%nat) by (rewrite <- LN; apply nth_error_Some; congruence).
  destruct (MW (N.of_nat j) ltac:(lia)) as (tb & n & Et & TW & _).
  destruct (H (N.of_nat j) tb n Et TW) as (d' & Ed' & LS & SD). rewrite Nat2N.id, Ed in Ed'. injection Ed' as <-.
  apply In_nth_error in Is as (i & Ei). assert (Hi : (i < length (cd_states d))%nat) by (apply nth_error_Some; congruence).
  destruct SE as [AG WO RW _ _ BU _ _].
  eapply (state_classes k tb n (N.of_nat i + 1) s); eauto; [exact (build_columns f g R m WO RW BU (N.of_nat j) tb Et)|lia|].
  exact (proj2 SD i s Ei).
Qed.
Theorem built_dump f k g R m inp r : setting f k g R m inp r ->
  exists l x, sm_to_csm (npos k) m = Some l /\ dump_numbered (npos k) 255 16 l = Ok x.
Proof.
  intros SE. pose proof (se_mwf _ _ _ _ _ _ _ SE) as MW. pose proof (se_machine _ _ _ _ _ _ _ SE) as MO.
  assert (MC : mclean k m) by (destruct SE; eapply built_mclean; eauto).
  destruct (sm_to_csm_ok k m MW MC) as (l & E & _). destruct (built_classes _ _ _ _ _ _ _ _ SE E) as (_ & D).
  destruct (dump_defined (npos k) 1 16 (fun i => Some (GenCpp.print 10 i)) l 0) as (x & X); [exact D|discriminate|].
  exists l, x. split; [exact E|exact X].
Qed.
