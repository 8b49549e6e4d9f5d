(** Machines built from any rules: shape of the tables and end of line
    transitions, in terms of the rules. *)
From Verif Require Import Base StringToken StringTokenSpec StringTokenProofs RegexSpec StateMachine Slice
  ReToken DfaSpec Grammar Tree TreeSpec Glushkov TreeProofs Partition Parser Generator GenMap GenPrune GenDfa
  GenBuild Build ParserTree ParserKeys ParserNl ParserSound ParserLoop TreeWords ParserRule Lookup TableSpec
  LookupSpec RuleSpec RuleWords BuildSpec BuildTree GenRules GenTable GenWalk BuildState BuildFuel BuildMachine
  BuildThms EolFix EolWords EolTable EolSpec.
Local Open Scope N_scope.

Lemma prf_sub k s sm cr nl f x : In x (prf k s sm cr nl f) -> In x f.
Proof.
  unfold prf. destruct (prune_clashes _ _ _ _ _ _ _ _) as [f'| | |] eqn:E; [|easy|easy|easy].
  apply prune_clashes_ok in E as [[SB _] _]. now apply subl_In.
Qed.

Theorem build_dfa_shaped fuel k fl s root m cr nl used rules o :
  map_wf m -> N.of_nat (length m) < eol_tok k -> rules_ok k m s rules -> root_ok rules root ->
  cr = gnpos k \/ (exists tk, In (tk, cr) m) -> nl = gnpos k \/ (exists tk, In (tk, nl) m) ->
  build_dfa fuel k fl s root m cr nl used = Ok o ->
  shaped k m rules (out_table o) (N.of_nat (length (o_rows o))) /\
  Forall (fun r => length r = N.to_nat (o_width o)) (o_rows o).
Proof.
  intros HM HL RO RT Hcr Hnl E.
  set (f' := (fuel + S (2 ^ length s))%nat).
  assert (E' : build_dfa f' k fl s root m cr nl used = Ok o).
  { apply (build_dfa_mono fuel); [unfold f'; lia|auto|discriminate]. }
  destruct (build_dfa_gen k fl s root m used (rV rules) (rrk rules) HM HL
     (h_lt k s m rules RO) (h_tok k s m rules RO)
     (h_follow k s m rules RO) (h_inj k s m rules HL RO) (h_root_ne k s root m rules RO RT)
     (h_root_V k s root m rules RO RT) (h_root_sorted k s root m rules HL RO RT) f' cr nl ltac:(unfold f'; lia) Hcr Hnl)
    as (cl & lk & sm & _ & AL & _ & _ & cr' & nl' & _ & _ & H).
  cbv zeta in H. destruct H as [(zero & _ & [[_ H]|[(_ & _ & H)|(Hw & d & GI & _ & H)]])|[_ H]].
  - congruence.
  - exfalso. eapply H; eauto.
  - rewrite E' in H. symmetry in H. apply bind_ok in H as (rows & HF & H). injection H as <-.
    set (w := gen_width k (length cl) cr' nl') in *.
    assert (Hnw : (length cl + 7 <= w)%nat) by (unfold w, gen_width; lia).
    assert (FX : ffixed w (d_rows d) rows).
    { eapply fix_clashes_fixed; [lia| |exact HF]. apply fixed_refl.
      apply (b_shape _ _ _ _ _ _ _ (i_b _ _ _ _ _ _ _ _ _ _ _ _ _ GI)). }
    split.
    + apply (shaped_ok k fl s root m used rules HM HL RO RT lk sm (length cl) w d AL Hnw Hw
        (prf k s sm cr' nl') (prf_sub k s sm cr' nl') GI rows FX).
    + cbn [o_rows o_width]. rewrite Nat2N.id. apply (fx_shape _ _ _ _ FX).
  - exfalso. eapply H; eauto.
Qed.

(** ** In terms of rules *)
Definition rdata (r : grule) (t : table) (row : N) : Prop :=
  exists u g, row_data t row (end_info (rule_info r u) g).
Record line_table (k : gcfg) (rs : list grule) (t : table) (n : N) : Prop := {
  lt_width : ix_trans <= t_width t <= gnpos k;
  lt_n : 2 <= n < gnpos k;
  lt_len : N.of_nat (length (t_dfa t)) = n * t_width t;
  lt_lk : length (t_lookup t) = 256%nat;
  lt_cols : Forall (fun col => ix_dead <= col < t_width t) (t_lookup t);
  lt_cell : forall row col v, row < n -> ix_eol <= col < t_width t -> cell t row col = Some v -> v < n;
  lt_cell0 : exists v, cell t 0 0 = Some v /\ v < n;
  lt_row0 : forall col, 0 < col < ix_trans -> cell t 0 col = Some 0;
  lt_dead : forall row, row < n -> cell t row ix_dead = Some 0;
  lt_info : forall row, 0 < row < n -> cell t row ix_end = Some 0 \/ exists r, In r rs /\ rdata r t row;
  lt_one : accepting t 1 -> exists r, In r rs /\ rdata r t 1 /\ rmatch r false [];
  lt_char : forall row col v, row < n -> ix_trans <= col < t_width t -> cell t row col = Some v ->
    v <> 0 -> accepting t v -> exists r, In r rs /\ rdata r t v /\ ~ ends_line r;
  lt_run : forall b, Forall (eol_bounded b) rs -> forall j row e, row < n -> eol_run t j row e -> (j <= b)%nat;
  lt_blank : forall row0 w0 j e, from_row t row0 w0 -> eol_run t j row0 e -> accepting t e ->
    exists r, In r rs /\ (rule_lang r (repeat CEol j) \/ (w0 = [SBol] /\ rule_lang r (CBol :: repeat CEol j)))
}.

Section Rule.
Variables (k : gcfg) (seen : bool) (A : list stoken) (lo : nat) (u0 : N).
Hypothesis HA : N.of_nat (length A) < eol_tok k.
Variables (rs : list grule) (ds : list drule) (root : node) (u : N) (s : pstate).
Hypothesis BT : built k seen A lo u0 rs ds root u s.
Hypothesis GR : Forall (fair_rule k A) rs.
Let m := ps_map s.
Let b := g_bytes k.

Lemma encw_app x y : encw b (x ++ y) = encw b x ++ encw b y.
Proof. unfold encw. now rewrite flat_map_app. Qed.
Lemma encw_last x y a : encw b x = y ++ [a] -> a <> SEol -> ~ exists v, x = v ++ [CEol].
Proof.
  intros E Ha (v & ->). rewrite encw_app in E. cbn in E. apply app_inj_tail in E as [_ E]. congruence.
Qed.
Lemma encw_eol_split w : forall u0 v0, encw b w = u0 ++ SEol :: v0 ->
  exists x y, w = x ++ CEol :: y /\ u0 = encw b x /\ v0 = encw b y.
Proof.
  induction w as [|a w IH]; intros x y E; [destruct x; discriminate|]. cbn [encw flat_map] in E.
  destruct a as [c| |]; cbn [enc1] in E.
  - assert (Q : exists u', x = map SByte (enc b c) ++ u' /\ encw b w = u' ++ SEol :: y).
    { revert E. generalize (enc b c). intros l. clear. revert x. induction l as [|n l IH]; intros q E; [exists q; auto|].
      destruct q as [|z q]; [discriminate|]. cbn in E. injection E as <- E.
      destruct (IH q E) as (u' & -> & H). exists u'. auto. }
    destruct Q as (u' & -> & E'). destruct (IH u' y E') as (x' & y' & -> & -> & ->).
    exists (CChar c :: x'), y'. auto.
  - destruct x as [|z x]; [discriminate|]. cbn in E. injection E as <- E.
    destruct (IH x y E) as (x' & y' & -> & -> & ->). exists (CBol :: x'), y'. auto.
  - destruct x as [|z x].
    + cbn in E. injection E as E. exists [], w. auto.
    + cbn in E. injection E as <- E. destruct (IH x y E) as (x' & y' & -> & -> & ->).
      exists (CEol :: x'), y'. auto.
Qed.
Lemma encw_nil x : encw b x = [] -> x = [].
Proof.
  destruct x as [|a x]; [auto|]. intros E. exfalso. cbn in E. destruct a as [c| |]; cbn in E; try discriminate.
  destruct (enc b c) as [|n l] eqn:Q; [now apply enc_ne in Q|discriminate].
Qed.

Lemma encw_starts j : forall x v0, encw b x = repeat SEol j ++ v0 -> exists y, x = repeat CEol j ++ y /\ encw b y = v0.
Proof.
  induction j as [|j IH]; intros x v0 E; [exists x; auto|].
  apply (encw_eol_split x []) in E as (y & z & -> & E1 & E2). symmetry in E1, E2. apply encw_nil in E1. subst y.
  apply IH in E2 as (y & -> & E2). exists y. auto.
Qed.
Lemma encw_run j x u1 v0 : encw b x = u1 ++ repeat SEol (S j) ++ v0 ->
  exists y z, x = y ++ repeat CEol (S j) ++ z.
Proof.
  intros E. apply (encw_eol_split x u1) in E as (y & z & -> & E1 & E2). symmetry in E2.
  apply encw_starts in E2 as (z' & -> & _). exists y, z'. auto.
Qed.

Section One.
Variables (r : grule) (d : drule).
Hypothesis Hrd : In (r, d) (combine rs ds).
Lemma the_tree : exists ts o, rule_tokens r ts /\ ogram o ts /\ rshape (snd (ps_tree s)) d /\
  means k m (dr_tree d) (rule_words b seen (olang b o)) /\
  (forall w, oclang o w -> rule_lang r w).
Proof.
  destruct (in_pair _ _ _ _ _ _ _ _ _ _ BT GR r d Hrd) as [_ [S _ (ts & o & T & G & M) _]].
  exists ts, o. split; [auto|]. split; [auto|]. split; [auto|]. split; [auto|].
  intros w C. exists ts, o. auto.
Qed.
Lemma tree_ends_char : ends_char k d -> ~ ends_line r.
Proof.
  intros (p & tk & Hl & HLp & Ht) EL. destruct the_tree as (ts & o & T & G & [S1 S2 _ _] & M & OC).
  pose proof (built_fine _ _ _ _ _ HA _ _ _ _ _ BT) as FM.
  destruct (last_word _ p S1 HLp) as (tk' & v & Hl' & D). rewrite (nodup_fst _ _ _ _ S2 Hl' Hl) in D.
  destruct (known_words k m _ _ _ FM M D) as (ws & F2 & HW).
  apply Forall2_app_inv_l in F2 as (w1 & w2 & F1 & F2 & ->).
  inversion F2 as [|? a ? w3 Sa F3]; subst. inversion F3; subst.
  assert (Na : a <> SEol) by (intros ->; apply Ht; exact Sa).
  destruct HW as [HW|(_ & _ & v' & Ev & HW)].
  - apply olang_oclang in HW as (x & C & E). symmetry in E. apply (encw_last x w1 a E Na). apply EL. auto.
  - destruct w1 as [|a1 w1].
    + cbn in Ev. injection Ev as -> <-. apply olang_oclang in HW as (x & C & E). symmetry in E. apply encw_nil in E.
      subst x. destruct (EL _ (OC _ C)) as (y & Ey). destruct y; discriminate.
    + cbn in Ev. injection Ev as -> <-. apply olang_oclang in HW as (x & C & E). symmetry in E.
      apply (encw_last x w1 a E Na). apply EL. auto.
Qed.
Lemma tree_run p j q bd : eol_bounded bd r -> chain (dr_tree d) p (repeat (eol_tok k) j) q ->
  In (q, eol_tok k) (leaves (dr_tree d)) -> (S j <= bd)%nat.
Proof.
  intros EL HC Hl. destruct the_tree as (ts & o & T & G & [S1 S2 _ _] & M & OC).
  pose proof (built_fine _ _ _ _ _ HA _ _ _ _ _ BT) as FM.
  destruct (chain_word _ p _ q _ S1 S2 HC Hl) as (x & y & D).
  destruct (known_words k m _ _ _ FM M D) as (ws & F2 & HW).
  apply Forall2_app_inv_l in F2 as (w1 & w2 & F1 & F2 & ->).
  apply Forall2_app_inv_l in F2 as (w3 & w4 & F2 & F3 & ->).
  assert (E : w3 = repeat SEol (S j)).
  { replace (repeat (eol_tok k) j ++ [eol_tok k]) with (repeat (eol_tok k) (S j)) in F2 by apply (repeat_cons j).
    revert F2. generalize (S j). clear - FM. intros i. revert w3. induction i as [|i IH]; intros w H; inversion H; subst; [auto|].
    cbn. f_equal; [eapply sem_eol; eauto|eauto]. }
  subst w3.
  assert (Q : forall w, olang b o (w ++ repeat SEol (S j) ++ w4) -> (S j <= bd)%nat).
  { intros w HO. apply olang_oclang in HO as (z & C & E). symmetry in E.
    apply encw_run in E as (z1 & z2 & ->). apply OC in C. eapply EL; eauto. }
  destruct HW as [HW|(_ & _ & v' & Ev & HW)]; [eapply Q; eauto|].
  destruct w1 as [|b1 w1]; [discriminate|]. cbn in Ev. injection Ev as -> <-. eapply (Q w1); eauto.
Qed.
Lemma tree_blank w0 j : w0 = [] \/ w0 = [SBol] -> dr_lang k m d (w0 ++ repeat SEol j) ->
  rule_lang r (repeat CEol j) \/ (w0 = [SBol] /\ rule_lang r (CBol :: repeat CEol j)).
Proof.
  intros Hw HL. destruct the_tree as (ts & o & T & G & [S1 S2 _ _] & M & OC).
  pose proof (built_fine _ _ _ _ _ HA _ _ _ _ _ BT) as FM.
  apply (proj1 M m (mext_refl m) FM) in HL.
  assert (Q : forall x, encw b x = repeat SEol j -> x = repeat CEol j).
  { intros x E. rewrite <- (app_nil_r (repeat SEol j)) in E. apply encw_starts in E as (y & -> & E).
    apply encw_nil in E. subst y. apply app_nil_r. }
  assert (Q2 : forall x, encw b x = SBol :: repeat SEol j -> x = CBol :: repeat CEol j).
  { intros x E. apply (encw_bol b x []) in E as (y & z & -> & E1 & E2). symmetry in E1, E2.
    apply encw_nil in E1. apply Q in E2. now subst. }
  destruct HL as [HL|(_ & _ & v & Ev & HL)].
  - apply olang_oclang in HL as (x & C & E). symmetry in E. destruct Hw as [->| ->]; cbn in E.
    + apply Q in E. subst x. left. now apply OC.
    + apply Q2 in E. subst x. right. split; [auto|]. now apply OC.
  - destruct Hw as [->| ->]; cbn in Ev; [destruct j; discriminate|]. injection Ev as <-.
    apply olang_oclang in HL as (x & C & E). symmetry in E. apply Q in E. subst x. left. now apply OC.
Qed.
End One.

Lemma rule_of d : In d ds -> exists r, In r rs /\ In (r, d) (combine rs ds) /\ stands k seen s r d.
Proof.
  intros Hd. destruct (in_combine _ _ _ _ _ _ _ _ _ _ BT d Hd) as (r & Hr). exists r.
  split; [eapply in_combine_l; eauto|]. split; [auto|].
  destruct (in_pair _ _ _ _ _ _ _ _ _ _ BT GR r d Hr) as [F R]. apply (tree_words _ _ A lo u0 HA rs ds root u s BT); auto.
Qed.
Lemma stands_data r d t row : stands k seen s r d -> row_data t row (dr_info d) -> rdata r t row.
Proof. intros [_ (v & g & E & _)] H. rewrite E in H. exists v, g. exact H. Qed.

Lemma shaped_line t n : shaped k m ds t n -> n < gnpos k -> line_table k rs t n.
Proof.
  intros SH Hn. destruct SH. constructor; auto.
  - intros row Hr. destruct (sh_info row Hr) as [H|(d & Hd & H)]; [auto|]. right.
    destruct (rule_of d Hd) as (r & Hr' & _ & ST). exists r. split; [auto|]. eapply stands_data; eauto.
  - intros H. destruct (sh_one H) as (d & Hd & RD & HN). destruct (rule_of d Hd) as (r & Hr & HP & ST).
    exists r. split; [auto|]. split; [eapply stands_data; eauto|].
    destruct (the_tree r d HP) as (ts & o & T & G & [S1 S2 _ _] & M & OC).
    pose proof (built_fine _ _ _ _ _ HA _ _ _ _ _ BT) as FM.
    apply (nullable_lang k m) in HN; auto. apply (proj1 M m (mext_refl m) FM) in HN.
    apply OC. destruct HN as [HN|(_ & _ & v & E & _)]; [|discriminate].
    apply olang_oclang in HN as (x & C & E). symmetry in E. apply encw_nil in E. now subst x.
  - intros row col v H1 H2 H3 H4 H5. destruct (sh_char row col v H1 H2 H3 H4 H5) as (d & Hd & H6 & H7).
    destruct (rule_of d Hd) as (r & Hr & HP & ST). exists r. split; [auto|]. split; [eapply stands_data; eauto|].
    eapply tree_ends_char; eauto.
  - intros bd EL j row e Hr HR. destruct j as [|j]; [lia|].
    destruct (sh_run j row e Hr HR) as (d & p & q & Hd & HC & Hl).
    destruct (rule_of d Hd) as (r & Hr' & HP & _). rewrite Forall_forall in EL. eapply (tree_run r d HP); eauto.
  - intros row0 w0 j e HF HR H3. destruct (sh_blank row0 w0 j e HF HR H3) as (d & Hd & HL).
    destruct (rule_of d Hd) as (r & Hr & HP & _). exists r. split; [auto|].
    apply (tree_blank r d HP w0); [|auto]. destruct HF as [[_ ->]|(_ & _ & ->)]; auto.
Qed.
End Rule.

Theorem build_one_line k fl g u st used f o u' st' : wide_ok k -> state_fair k g ->
  build_one f k fl g u st used = Ok (o, u', st') ->
  exists n, line_table k (gs_rules g) (out_table o) n /\
    (zero_len_ok fl = true \/ forall r, In r (gs_rules g) -> ~ rmatch r false []).
Proof.
  intros WO [RW (A & HA & KA)] E. set (seen := has_bol (gs_features g)) in *.
  assert (NE : gs_rules g <> []) by (intros E0; unfold build_one in E; rewrite E0 in E; discriminate).
  assert (FR : Forall (fair_rule k A) (gs_rules g)).
  { apply Forall_forall. intros r Hr. split; [rewrite Forall_forall in RW; apply RW; auto|]. intros t Ht. eauto. }
  unfold build_one in E.
  replace (match gs_rules g with [] => Throw EEmptyState | _ :: _ => _ end) with
    (do t <- build_tree k g u st;
     let '(root, u, s) := t in
     do z <- check_zero_len fl (snd (ps_tree s)) root;
     do o <- build_dfa f k fl (snd (ps_tree s)) root (ps_map s) (ps_cr s) (ps_nl s) used;
     if gnpos k <=? N.of_nat (length (concat (o_rows o))) / o_width o then Throw EOverflow
     else Ok (o, u, snd (ps_tree s))) in E by (destruct (gs_rules g); [congruence|reflexivity]).
  destruct (build_tree_ok k A g u st WO HA NE FR) as [(root & u1 & s & ds & ET & BT)|(e & r & ET & _)];
    rewrite ET in E; [|discriminate]. cbn [bind] in E.
  destruct (zero_len_ok_iff k seen A (length st) u fl _ _ _ _ _ HA BT FR) as [(Z & Z1 & Z2)|(Z & Z1)];
    rewrite Z in E; [discriminate|]. cbn [bind] in E.
  apply bind_ok in E as (o1 & ED & E).
  pose proof (built_fine _ _ _ _ _ HA _ _ _ _ _ BT) as FM.
  pose proof (built_rules_ok _ _ _ _ _ _ _ _ _ _ BT FR) as RO.
  pose proof (built_root_ok _ _ _ _ _ _ _ _ _ _ BT FR NE) as RT.
  destruct (bt_nl _ _ _ _ _ _ _ _ _ _ BT) as [NL1 NL2].
  destruct (build_dfa_shaped f k fl (snd (ps_tree s)) root (ps_map s) (ps_cr s) (ps_nl s) used ds o1
    (proj1 FM) (proj2 FM) RO RT ltac:(destruct NL1; eauto) ltac:(destruct NL2; eauto) ED) as [SH WD].
  destruct (gnpos k <=? _) eqn:LE in E; [discriminate|]. injection E as <- <- <-.
  assert (W : ix_trans <= o_width o1) by apply (sh_width _ _ _ _ _ SH).
  assert (DV : N.of_nat (length (concat (o_rows o1))) / o_width o1 = N.of_nat (length (o_rows o1))).
  { rewrite <- (rows_div (N.to_nat (o_width o1)) (o_rows o1)); [now rewrite N2Nat.id| |auto].
    unfold ix_trans in W. lia. }
  rewrite DV in LE. apply N.leb_gt in LE.
  exists (N.of_nat (length (o_rows o1))). split; [|auto].
  apply (shaped_line k seen A (length st) u HA (gs_rules g) ds root u1 s BT FR); auto.
Qed.

Definition line_machine (k : gcfg) (R : grules) (m : internals) : Prop :=
  i_eoi m = gr_eoi R /\ length (i_dfa m) = length (gr_states R) /\
  (forall st g, nth_error (gr_states R) (N.to_nat st) = Some g ->
    exists t n, get_table m st = Some t /\ line_table k (gs_rules g) t n) /\
  (zero_len_ok (gr_flags R) = true \/ each_rule R (fun r => ~ rmatch r false [])).

Lemma build_states_line k fl : wide_ok k -> forall gs f u st used os u' used', Forall (state_fair k) gs ->
  build_states f k fl gs u st used = Ok (os, u', used') ->
  Forall2 (fun g o => exists n, line_table k (gs_rules g) (out_table o) n /\
    (zero_len_ok fl = true \/ forall r, In r (gs_rules g) -> ~ rmatch r false [])) gs os.
Proof.
  intros WO. induction gs as [|g gs IH]; intros f u st used os u' used' F E; cbn [build_states] in E.
  - injection E as <- <- <-. constructor.
  - inversion F; subst. apply bind_ok in E as (((o & u1) & st1) & E1 & E).
    apply bind_ok in E as (((os1 & u2) & used2) & E2 & E). injection E as <- <- <-. constructor.
    + eapply build_one_line; eauto.
    + eapply IH; eauto.
Qed.
Theorem build_line f k R m : wide_ok k -> rules_fair k R -> build f k R = Ok m -> line_machine k R m.
Proof.
  intros WO RF E. unfold build in E. apply bind_ok in E as (((os & u) & used) & E1 & E).
  apply bind_ok in E as (z & _ & E). injection E as <-.
  pose proof (build_states_line k (gr_flags R) WO _ _ _ _ _ _ _ _ RF E1) as F.
  split; [reflexivity|]. assert (L : length os = length (gr_states R)) by (clear - F; induction F; cbn; auto).
  split; [cbn; now rewrite map_length|]. split.
  - intros st g E. unfold get_table, create. cbn [i_lookup i_alphabet i_dfa]. rewrite !nth_error_map.
    assert (X : exists o, nth_error os (N.to_nat st) = Some o /\ exists n, line_table k (gs_rules g) (out_table o) n).
    { clear L E1 z. revert E. generalize (N.to_nat st).
      induction F as [|g' o gs os (n & H & _) F IH]; intros i E; [destruct i; discriminate|].
      destruct i as [|i]; [|apply IH; auto]. cbn in *. injection E as <-. eauto. }
    destruct X as (o & -> & n & LT). cbn. exists (out_table o), n. split; [reflexivity|auto].
  - clear - F. destruct (zero_len_ok (gr_flags R)); [auto|]. right. intros g r Hg Hr.
    induction F as [|g' o gs os (n & _ & H) F IH]; [destruct Hg|]. destruct Hg as [<-|Hg]; [|auto].
    destruct H as [H|H]; [discriminate|auto].
Qed.
