(** Built tables with abstemious repeats of characters: the transitions that are
    dropped once such a rule has matched, and those that never are. *)
From Verif Require Import Base StringToken StringTokenSpec StringTokenProofs RegexSpec StateMachine Slice
  ReToken DfaSpec Grammar Tree TreeSpec Glushkov TreeProofs Partition Parser Generator GenMap Build ParserTree
  ParserKeys ParserSound ParserLoop TreeWords ParserRule Lookup TableSpec LookupSpec RuleSpec RuleWords
  BuildSpec BuildTree GenDfa GenRules GenTable GenWalk GenBuild BuildState BuildFuel ParserErrs BuildMachine
  BuildThms EolFix GenOrder GenLoop LoopSpec LoopTree LoopRule MarkSpec MarkTree MarkParse MarkRule GenHard.
Local Open Scope N_scope.

Theorem build_dfa_drops fuel k fl s root m used rules o :
  map_wf m -> N.of_nat (length m) < eol_tok k -> rules_ok k m s rules -> root_ok rules root ->
  eolless k rules -> bol_first k rules ->
  build_dfa fuel k fl s root m (gnpos k) (gnpos k) used = Ok o ->
  drops k m s rules (out_table o) /\ hards k m s rules (out_table o).
Proof.
  intros HM HL RO RT EL BF E. set (f' := (fuel + S (2 ^ length s))%nat).
  assert (HF : (2 ^ length s < f')%nat) by (unfold f'; lia).
  assert (E' : build_dfa f' k fl s root m (gnpos k) (gnpos k) used = Ok o).
  { apply (build_dfa_mono fuel); [unfold f'; lia|auto|discriminate]. }
  destruct (build_dfa_plain k fl s root m used (rV rules) (rrk rules) HM HL
     (h_lt k s m rules RO) (h_tok k s m rules RO)
     (h_follow k s m rules RO) (h_inj k s m rules HL RO) (h_root_ne k s root m rules RO RT)
     (h_root_V k s root m rules RO RT) (h_root_sorted k s root m rules HL RO RT) f' HF)
    as (cl & lk & sm & _ & AL & _ & _ & H1 & H2).
  { intros p t g f Hp Ep. split; [|eapply h_followW; eauto].
    intros ->. destruct (h_leaf k s m rules RO p _ _ _ Hp Ep) as (r & Hr & Hl & _). eapply EL; eauto. }
  destruct (N.ltb_spec (gnpos k) (N.of_nat (length cl + 7))) as [Hw|Hw]; [rewrite H1 in E' by auto; discriminate|].
  destruct (H2 Hw) as (d & Ed & PI). rewrite E' in Ed. injection Ed as ->.
  split.
  - exact (drops_ok k fl s root m used rules HM HL RO RT lk sm (length cl) (length cl + 7) d AL (le_n _) Hw PI).
  - exact (hards_ok k fl s root m used rules HM HL RO RT lk sm (length cl) (length cl + 7) d AL (le_n _) Hw PI).
Qed.

Lemma loop_looping k m s d pre loop post : mfine k m -> loop_tree k m s d pre loop post -> looping k m s d pre loop post.
Proof.
  intros FM [H1 H2 H3 H4 H5 H6 H7 H8].
  assert (SS : forall p tk g f a, leaf_at m s p tk g f -> psem k m s p a -> exists b, a = SByte b /\ mem b tk).
  { intros p tk g f a (i & E & Hi) (t' & g' & f' & E' & S). rewrite E in E'. injection E' as <- <- <-.
    apply (sem_set k m tk i a FM Hi) in S. auto. }
  constructor; auto.
  - intros p Hp. destruct (H4 p Hp) as (tk & f & (i & E & _) & I & _). eauto.
  - intros p a Hp S. destruct (H4 p Hp) as (tk & f & L & _ & C). destruct (SS _ _ _ _ _ L S) as (c & -> & Hc).
    destruct (C c Hc) as (q & tk' & g' & f' & Hq & (i & E & Hi) & Hm). exists q. split; [auto|].
    exists i, g', f'. split; [auto|]. cbn. eauto.
  - destruct H5 as (x & tk & g & f & L & Hx & [->|(pb & g' & f' & -> & Hb & _)]).
    + intros y [<-|[]]. auto.
    + intros y [<-|[<-|[]]]; auto.
  - destruct H5 as (x & tk & g & f & L & Hx & [->|(pb & g' & f' & -> & Hb & Eb)]); intros p p' a Hp Hp' S S'.
    + destruct Hp as [<-|[]], Hp' as [<-|[]]. auto.
    + assert (BS : forall a, psem k m s pb a -> a = SBol).
      { intros a0 (t0 & g0 & f0 & E0 & S0). rewrite Eb in E0. injection E0 as <- <- <-. now apply sem_bol in S0. }
      destruct Hp as [<-|[<-|[]]], Hp' as [<-|[<-|[]]]; auto.
      * apply BS in S. subst a. destruct (SS _ _ _ _ _ L S') as (c & Q & _). discriminate.
      * apply BS in S'. subst a. destruct (SS _ _ _ _ _ L S) as (c & Q & _). discriminate.
Qed.

(** Table [t] of the rules of [g], with the positions of its rules. *)
Definition loop_state_table (k : gcfg) (g : gstate) (t : table) : Prop :=
  exists s ds n, recognises k (ps_map s) (snd (ps_tree s)) ds t n /\
    Forall2 (stands k (has_bol (gs_features g)) s) (gs_rules g) ds /\
    NoDup (map dr_end ds) /\
    (forall b, cell t 0 0 = Some b -> b <> 0 -> has_bol (gs_features g) = true) /\
    drops k (ps_map s) (snd (ps_tree s)) ds t /\
    (g_bytes k = 1 -> forall j r d, nth_error (gs_rules g) j = Some r -> nth_error ds j = Some d -> loop_rule r ->
       exists pre loop post, looping k (ps_map s) (snd (ps_tree s)) d pre loop post) /\
    hards k (ps_map s) (snd (ps_tree s)) ds t /\
    (forall j r d, nth_error (gs_rules g) j = Some r -> nth_error ds j = Some d -> forall ts x W,
       rule_tokens r ts -> mgram GRegex x ts -> mlang x W ->
       mden (token_sem k (ps_map s)) (snd (ps_tree s)) (dr_tree d) (mencw (g_bytes k) W) /\
       (has_bol (gs_features g) = true -> (forall y, gram GRegex y ts -> forall v, ~ xlang (g_bytes k) y (SBol :: v)) ->
        mden (token_sem k (ps_map s)) (snd (ps_tree s)) (dr_tree d) ((SBol, false) :: mencw (g_bytes k) W))).

Lemma Forall2_nth {X Y} (P : X -> Y -> Prop) a b : Forall2 P a b ->
  forall j x y, nth_error a j = Some x -> nth_error b j = Some y -> P x y.
Proof.
  induction 1 as [|x y xs ys H F IH]; intros [|j] u v Eu Ev; try discriminate.
  - injection Eu as <-. injection Ev as <-. auto.
  - eapply IH; eauto.
Qed.

Theorem build_one_loops k fl g u st used f o u' st' : wide_ok k -> state_wf k g ->
  build_one f k fl g u st used = Ok (o, u', st') -> loop_state_table k g (out_table o).
Proof.
  intros WO [RW (A & HA & KA)] E. set (seen := has_bol (gs_features g)) in *.
  assert (NE : gs_rules g <> []) by (intros E0; unfold build_one in E; rewrite E0 in E; discriminate).
  assert (GR : Forall (good_rule k seen A) (gs_rules g)).
  { apply Forall_forall. intros r Hr. split; [rewrite Forall_forall in RW; apply RW; auto|]. intros t Ht. eauto. }
  assert (FR : Forall (fair_rule k A) (gs_rules g)) by (eapply Forall_impl; [|exact GR]; apply good_fair).
  assert (RB : forall r, In r (gs_rules g) -> bol_rule seen r).
  { intros r Hr. rewrite Forall_forall in GR. apply (GR r Hr). }
  unfold build_one in E.
  replace (match gs_rules g with [] => Throw EEmptyState | _ :: _ => _ end) with
    (do t <- build_tree k g u st;
     let '(root, u, s) := t in
     do z <- check_zero_len fl (snd (ps_tree s)) root;
     do o <- build_dfa f k fl (snd (ps_tree s)) root (ps_map s) (ps_cr s) (ps_nl s) used;
     if gnpos k <=? N.of_nat (length (concat (o_rows o))) / o_width o then Throw EOverflow
     else Ok (o, u, snd (ps_tree s))) in E by (destruct (gs_rules g); [congruence|reflexivity]).
  destruct (build_tree_ok k A g u st WO HA NE FR) as [(root & u1 & s & ds & ET & BT)|(e & r & ET & _)];
    rewrite ET in E; [|discriminate]. cbn [bind] in E.
  apply bind_ok in E as (z & _ & E). apply bind_ok in E as (o1 & ED & E).
  assert (NL : ps_cr s = gnpos k /\ ps_nl s = gnpos k).
  { assert (Q : nls s = (gnpos k, gnpos k)).
    { apply (bt_nls _ _ _ _ _ _ _ _ _ _ BT). eapply Forall_impl; [|exact GR]. apply good_line_free. } unfold nls in Q. now injection Q. }
  destruct NL as [N1 N2]. rewrite N1, N2 in ED.
  pose proof (built_fine _ _ _ _ _ HA _ _ _ _ _ BT) as FM.
  pose proof (built_rules_ok _ _ _ _ _ _ _ _ _ _ BT FR) as RO.
  pose proof (built_root_ok _ _ _ _ _ _ _ _ _ _ BT FR NE) as RT.
  pose proof (built_stands _ _ _ _ _ HA _ _ _ _ _ BT FR) as ST.
  pose proof (built_eolless _ _ _ _ _ HA _ _ _ _ _ BT FR GR) as EL.
  pose proof (built_bol_first _ _ _ _ _ HA _ _ _ _ _ BT FR RB) as BF.
  pose proof (build_dfa_drops f k fl _ root (ps_map s) used ds o1 (proj1 FM) (proj2 FM) RO RT EL BF ED) as [DR HD].
  assert (RC : recognises k (ps_map s) (snd (ps_tree s)) ds (out_table o1) (N.of_nat (length (o_rows o1)))).
  { set (f' := (f + S (2 ^ length (snd (ps_tree s))))%nat).
    destruct (build_dfa_rules f' k fl (snd (ps_tree s)) root (ps_map s) used ds (proj1 FM) (proj2 FM) RO RT EL BF) as [EF|(o2 & EF & RC & _)]; [unfold f'; lia| |];
      rewrite (build_dfa_mono f f' _ _ _ _ _ _ _ _ _ ltac:(unfold f'; lia) ED) in EF by discriminate; [discriminate|].
    injection EF as ->. auto. }
  destruct (gnpos k <=? _) eqn:LE in E; [discriminate|]. injection E as <- <- <-.
  exists s, ds, (N.of_nat (length (o_rows o1))). split; [auto|]. split; [auto|].
  split; [exact (ends_nodup _ _ _ _ RO)|]. split.
  { intros b Eb Hb. destruct (rc_bol_leaf _ _ _ _ _ _ RC b Eb Hb) as (d & p & Hd & Hp & Hl).
    eapply (built_bol k seen); eauto. }
  split; [auto|]. split.
  { intros CB j r d Er Ed LR.
    pose proof (Forall2_nth _ _ _ (bt_rules _ _ _ _ _ _ _ _ _ _ BT) j r d Er Ed) as RTr.
    destruct (rt_loop _ _ _ _ _ _ RTr CB LR) as (pre & loop & post & LT).
    exists pre, loop, post. apply loop_looping; auto. }
  split; [auto|]. intros j r d Er Ed ts x W T G L.
  pose proof (Forall2_nth _ _ _ (bt_rules _ _ _ _ _ _ _ _ _ _ BT) j r d Er Ed) as RTr.
  exact (rt_mark _ _ _ _ _ _ RTr ts T (ps_map s) (mext_refl _) FM x W G L).
Qed.

Definition loops_machine (k : gcfg) (R : grules) (m : internals) : Prop :=
  forall st g, nth_error (gr_states R) (N.to_nat st) = Some g ->
    exists t, get_table m st = Some t /\ loop_state_table k g t.
Lemma build_states_loops k fl : wide_ok k -> forall gs f u st used os u' used', Forall (state_wf k) gs ->
  build_states f k fl gs u st used = Ok (os, u', used') ->
  Forall2 (fun g o => loop_state_table k g (out_table o)) gs os.
Proof.
  intros WO. induction gs as [|g gs IH]; intros f u st used os u' used' F E; cbn [build_states] in E.
  - injection E as <- <- <-. constructor.
  - inversion F; subst. apply bind_ok in E as (((o & u1) & st1) & E1 & E).
    apply bind_ok in E as (((os1 & u2) & used2) & E2 & E). injection E as <- <- <-. constructor.
    + eapply build_one_loops; eauto.
    + eapply IH; eauto.
Qed.
Theorem build_loops f k R m : wide_ok k -> rules_wf k R -> build f k R = Ok m -> loops_machine k R m.
Proof.
  intros WO RF E. unfold build in E. apply bind_ok in E as (((os & u) & used) & E1 & E).
  apply bind_ok in E as (z & _ & E). injection E as <-.
  pose proof (build_states_loops k (gr_flags R) WO _ _ _ _ _ _ _ _ RF E1) as F.
  intros st g E. unfold get_table, create. cbn [i_lookup i_alphabet i_dfa]. rewrite !nth_error_map.
  assert (X : exists o, nth_error os (N.to_nat st) = Some o /\ loop_state_table k g (out_table o)).
  { clear E1 z. revert E. generalize (N.to_nat st).
    induction F as [|g' o gs os H F IH]; intros i E; [destruct i; discriminate|].
    destruct i as [|i]; [|apply IH; auto]. cbn in *. injection E as <-. eauto. }
  destruct X as (o & -> & LT). cbn. exists (out_table o). split; [reflexivity|auto].
Qed.
