(** build: outcomes, and what the tables of a built machine stand for. *)
From Verif Require Import Base StringToken StringTokenSpec StringTokenProofs RegexSpec StateMachine Slice
  ReToken DfaSpec Grammar Tree TreeSpec Glushkov TreeProofs Partition Parser Generator GenMap Build ParserTree
  ParserKeys ParserSound ParserLoop TreeWords ParserRule Lookup TableSpec LookupSpec RuleSpec RuleWords
  BuildSpec BuildTree GenRules GenTable GenWalk BuildState BuildFuel ParserErrs.
Local Open Scope N_scope.

(** ** Rules and trees, word by word *)
Definition word (b : N) (bol : bool) (cs : list N) : list sym :=
  (if bol then [SBol] else []) ++ map SByte (flat_map (enc b) cs).
Definition first_at (rs : list grule) (bol : bool) (cs : list N) (j : nat) : Prop :=
  (exists r, nth_error rs j = Some r /\ rmatch r bol cs) /\
  forall j' r', (j' < j)%nat -> nth_error rs j' = Some r' -> ~ rmatch r' bol cs.
Lemma rfirst_at rs bol cs r : rfirst_match rs bol cs r <-> exists j, nth_error rs j = Some r /\ first_at rs bol cs j.
Proof.
  split.
  - intros (j & E & M & H). exists j. split; [auto|]. split; [eauto|auto].
  - intros (j & E & (r' & E' & M) & H). exists j. rewrite E in E'. injection E' as <-. auto.
Qed.

Section Words.
Variables (k : gcfg) (seen : bool) (s : pstate) (rs : list grule) (ds : list drule).
Hypothesis ST : Forall2 (stands k seen s) rs ds.
Hypothesis RB : forall r, In r rs -> bol_rule seen r.
Let b := g_bytes k.
Let m := ps_map s.

Lemma stands_nth j r d : nth_error rs j = Some r -> nth_error ds j = Some d -> stands k seen s r d /\ In r rs.
Proof.
  clear RB. revert rs ds ST. induction j as [|j IH]; intros rs' ds' F Er Ed; destruct F as [|x y xs ys H F]; try discriminate.
  - injection Er as <-. injection Ed as <-. split; [auto|now left].
  - destruct (IH _ _ F Er Ed). split; [auto|now right].
Qed.
Lemma stands_len : length rs = length ds.
Proof. clear RB. induction ST; cbn; auto. Qed.
Lemma stands_rule j d : nth_error ds j = Some d -> exists r, nth_error rs j = Some r.
Proof.
  clear RB. intros E. destruct (nth_error rs j) as [r|] eqn:Q; [eauto|]. apply nth_error_None in Q. pose proof stands_len as L.
  assert (j < length ds)%nat by (apply nth_error_Some; congruence). lia.
Qed.
Lemma stands_tree j r : nth_error rs j = Some r -> exists d, nth_error ds j = Some d.
Proof.
  clear RB. intros E. destruct (nth_error ds j) as [d|] eqn:Q; [eauto|]. apply nth_error_None in Q. pose proof stands_len as L.
  assert (j < length rs)%nat by (apply nth_error_Some; congruence). lia.
Qed.

Lemma lang_match j r d bol cs : nth_error rs j = Some r -> nth_error ds j = Some d ->
  Forall (fits b) cs -> (bol = true -> seen = true) ->
  (dr_lang k m d (word b bol cs) <-> rmatch r bol cs).
Proof.
  intros Er Ed F HS. destruct (stands_nth j r d Er Ed) as [[(ts & o & T & G & TO & W) _] Hr].
  unfold m. rewrite W. unfold word. destruct bol; cbn [app].
  - apply (words_bol_text b seen r ts o); auto.
  - apply (words_text b seen r ts o); auto.
Qed.
Lemma anchor_lang j r d : nth_error rs j = Some r -> nth_error ds j = Some d -> has_anchor r ->
  exists w, dr_lang k m d (SBol :: w).
Proof.
  intros Er Ed HA. destruct (stands_nth j r d Er Ed) as [[(ts & o & T & G & TO & W) _] Hr].
  apply (anchor_words b r ts o T G) in HA as (w & Hw). exists w. unfold m. rewrite W. now left.
Qed.
Lemma first_match_iff bol cs d : Forall (fits b) cs -> (bol = true -> seen = true) ->
  (first_rule k m ds (word b bol cs) d <-> exists j, nth_error ds j = Some d /\ first_at rs bol cs j).
Proof.
  intros F HS. split.
  - intros (j & Ed & HL & HN). destruct (stands_rule j d Ed) as (r & Er). exists j. split; [auto|]. split.
    + exists r. split; [auto|]. apply (lang_match j r d); auto.
    + intros j' r' Hj Er'. destruct (stands_tree j' r' Er') as (d' & Ed'). intros M.
      apply (HN j' d' Hj Ed'). apply (lang_match j' r' d'); auto.
  - intros (j & Ed & (r & Er & M) & HN). exists j. split; [auto|]. split; [apply (lang_match j r d); auto|].
    intros j' d' Hj Ed' HL. destruct (stands_rule j' d' Ed') as (r' & Er'). apply (HN j' r' Hj Er').
    apply (lang_match j' r' d'); auto.
Qed.

Lemma encw_text bol x bs : encw b x = (if bol : bool then [SBol] else []) ++ map SByte bs ->
  exists cs, x = (if bol then [CBol] else []) ++ map CChar cs /\ bs = flat_map (enc b) cs.
Proof.
  assert (P : forall x bs, encw b x = map SByte bs -> exists cs, x = map CChar cs /\ bs = flat_map (enc b) cs).
  { induction x0 as [|a x0 IH]; intros bs0 E; [exists []; split; [auto|destruct bs0; [auto|discriminate]]|].
    cbn in E. destruct a as [c| |].
    - cbn in E. assert (Q : exists bs1, bs0 = enc b c ++ bs1 /\ encw b x0 = map SByte bs1).
      { revert E. generalize (enc b c). intros l. revert bs0. induction l as [|n l IHl]; intros bs0 E; [exists bs0; auto|].
        destruct bs0 as [|n' bs0]; [discriminate|]. cbn in E. injection E as <- E.
        destruct (IHl bs0 E) as (bs1 & -> & H). exists bs1. auto. }
      destruct Q as (bs1 & -> & E'). destruct (IH bs1 E') as (cs & -> & ->). exists (c :: cs). auto.
    - destruct bs0; discriminate.
    - destruct bs0; discriminate. }
  intros E. destruct bol; [|apply P in E; auto]. destruct x as [|a x]; [discriminate|]. cbn in E.
  destruct a as [c| |].
  - exfalso. cbn in E. destruct (enc b c) as [|n l] eqn:Q; [now apply enc_ne in Q|]. discriminate.
  - cbn in E. injection E as E. destruct (P x bs E) as (cs & -> & ->). exists cs. auto.
  - discriminate.
Qed.
(** Texts the trees match are the encodings of characters. *)
Lemma lang_text d w : In d ds -> texty w -> dr_lang k m d w ->
  exists bol cs, w = word b bol cs /\ Forall (fits b) cs /\ (bol = true -> seen = true).
Proof.
  intros Hd (bs & Hb & Hw) HL. apply In_nth_error in Hd as (j & Ed). destruct (stands_rule j d Ed) as (r & Er).
  destruct (stands_nth j r d Er Ed) as [[(ts & o & T & G & TO & W) _] Hr].
  apply W in HL.
  assert (E : exists bol : bool, w = (if bol then [SBol] else []) ++ map SByte bs).
  { destruct Hw as [->| ->]; [exists false|exists true]; auto. }
  clear Hw. destruct E as (bol & ->).
  assert (FI : forall x, oclang o x -> fitw b x) by (intros x C; eapply ogram_fits; eauto).
  assert (FC : forall y cs, fitw b (y ++ map CChar cs) -> Forall (fits b) cs).
  { intros y cs F. unfold fitw in F. apply Forall_app in F as [_ F]. apply Forall_map in F. auto. }
  destruct HL as [HL|(Es & NB & v & E & HL)].
  - pose proof HL as HL0. apply olang_oclang in HL as (x & C & E). symmetry in E.
    apply encw_text in E as (cs & -> & ->). exists bol, cs. split; [auto|]. split; [eapply FC; eauto|].
    intros ->. apply (o_rule r ts o T G) in C. apply (RB r Hr [] _ C).
  - destruct bol; [|destruct bs; discriminate]. cbn in E. injection E as <-.
    apply olang_oclang in HL as (x & C & E). symmetry in E. apply (encw_text false) in E as (cs & -> & ->).
    exists true, cs. split; [auto|]. split; [|auto]. apply (FC []). auto.
Qed.
Lemma word_texty bol cs : Forall (fits b) cs -> texty (word b bol cs).
Proof.
  intros F. exists (flat_map (enc b) cs). split; [|unfold word; destruct bol; auto].
  apply Forall_forall. intros x Hx. apply in_flat_map in Hx as (c & Hc & Hx).
  rewrite Forall_forall in F. specialize (F c Hc). unfold fits, enc in *.
  destruct (b =? 1); [destruct Hx as [<-|[]]; auto|].
  destruct (b =? 2); cbn in Hx; decompose [or] Hx; try contradiction; subst x; apply N.mod_lt; discriminate.
Qed.
Lemma match_fits r bol cs : In r rs -> rmatch r bol cs -> Forall (fits b) cs /\
  (bol = true -> seen = true \/ rmatch r false cs).
Proof.
  intros Hr M. apply In_nth_error in Hr as (j & Er). destruct (stands_tree j r Er) as (d & Ed).
  destruct (stands_nth j r d Er Ed) as [[(ts & o & T & G & TO & W) _] Hr].
  assert (FC : forall y cs, fitw b (y ++ map CChar cs) -> Forall (fits b) cs).
  { intros y l F. unfold fitw in F. apply Forall_app in F as [_ F]. apply Forall_map in F. auto. }
  assert (FI : forall x, rule_lang r x -> fitw b x).
  { intros x C. apply (rule_lang_o r ts o) in C; auto. eapply ogram_fits; eauto. }
  unfold rmatch in *. destruct bol; [destruct M as [M|[_ M]]|].
  - split; [apply (FC [CBol]); apply FI; auto|]. intros _. left. apply (RB r Hr [] _ M).
  - split; [apply (FC []); auto|]. auto.
  - split; [apply (FC []); auto|]. discriminate.
Qed.
(** Without ^ in the state, the beginning of a line does not matter. *)
Lemma match_unseen r cs : seen = false -> In r rs -> (rmatch r true cs <-> rmatch r false cs).
Proof.
  intros Es Hr. assert (NA : forall v, ~ rule_lang r (CBol :: v)).
  { intros v H. destruct (RB r Hr [] v H). congruence. }
  unfold rmatch, has_anchor. split; [intros [H|[_ H]]; [destruct (NA _ H)|auto]|]. intros H. right. split; [|auto].
  intros (v & Hv). exact (NA v Hv).
Qed.
Lemma first_unseen cs j : seen = false -> (first_at rs true cs j <-> first_at rs false cs j).
Proof.
  intros Es. unfold first_at. split; intros [(r & Er & M) H].
  - split.
    + exists r. split; [auto|]. apply match_unseen; auto. eapply nth_error_In; eauto.
    + intros j' r' Hj Er' M'. apply (H j' r' Hj Er'). apply match_unseen; auto. eapply nth_error_In; eauto.
  - split.
    + exists r. split; [auto|]. apply match_unseen; auto. eapply nth_error_In; eauto.
    + intros j' r' Hj Er' M'. apply (H j' r' Hj Er'). apply match_unseen; auto. eapply nth_error_In; eauto.
Qed.
(** Some text has rule [j] as its first match. *)
Lemma first_some j d : nth_error ds j = Some d -> NoDup (map dr_end ds) ->
  ((exists w, texty w /\ first_rule k m ds w d) <-> exists bol cs, first_at rs bol cs j).
Proof.
  intros Ed ND.
  assert (UN : forall j', nth_error ds j' = Some d -> j' = j).
  { intros j' Ed'. eapply (proj1 (NoDup_nth_error (map dr_end ds)) ND).
    - rewrite map_length. apply nth_error_Some. congruence.
    - rewrite !nth_error_map, Ed, Ed'. auto. }
  split.
  - intros (w & Tw & F). pose proof F as (j' & Ed' & HL & _).
    destruct (lang_text d w (nth_error_In _ _ Ed) Tw HL) as (bol & cs & -> & Fc & HS).
    apply first_match_iff in F as (j2 & Ed2 & FA); auto. rewrite (UN j2 Ed2) in FA. eauto.
  - intros (bol & cs & FA).
    assert (Q : exists bol, (bol = true -> seen = true) /\ first_at rs bol cs j).
    { assert (seen = true \/ seen = false) as [Es|Es] by (destruct seen; auto); [exists bol; auto|]. exists false. split; [discriminate|].
      destruct bol; [apply first_unseen; auto|auto]. }
    clear bol FA. destruct Q as (bol & HS & FA). pose proof FA as [(r & Er & M) _].
    destruct (match_fits r bol cs (nth_error_In _ _ Er) M) as [Fc _].
    exists (word b bol cs). split; [now apply word_texty|]. apply first_match_iff; auto. eauto.
Qed.
End Words.

(** ** One start state *)
(** Table [t] stands for the rules of [g]. *)
Definition state_table (k : gcfg) (g : gstate) (t : table) : Prop :=
  exists s ds n, recognises k (ps_map s) (snd (ps_tree s)) ds t n /\ n < gnpos k /\
    Forall2 (stands k (has_bol (gs_features g)) s) (gs_rules g) ds /\
    (Forall eager (gs_rules g) -> no_lazy (snd (ps_tree s)) ds) /\
    (forall b, cell t 0 0 = Some b -> b <> 0 -> has_bol (gs_features g) = true).

(** Why build gives up on a state. *)
Definition gives_up (fl : gflags) (g : gstate) (e : err) : Prop :=
  (e = EEmptyState /\ gs_rules g = []) \/
  ((e = ESyntax \/ e = EInternal) /\ exists r, In r (gs_rules g) /\ ~ parses r) \/
  (e = EZeroLen /\ zero_len_ok fl = false /\ exists r, In r (gs_rules g) /\ rmatch r false []) \/
  e = EOverflow.

(** The rules of [g] numbered from [u] on: those that are ever matched. *)
Definition useful (k : gcfg) (g : gstate) (u v : N) : Prop :=
  exists j, nth_error (uniqs k (length (gs_rules g)) u) j = Some v /\
    exists bol cs, first_at (gs_rules g) bol cs j.

Lemma built_bol k seen A lo u0 rs ds root u s : N.of_nat (length A) < eol_tok k ->
  built k seen A lo u0 rs ds root u s -> Forall (fair_rule k A) rs ->
  (forall r, In r rs -> bol_rule seen r) ->
  forall d p, In d ds -> In p (firstpos (dr_tree d)) -> In (p, bol_tok k) (leaves (dr_tree d)) -> seen = true.
Proof.
  intros HA BT GR RBs d p Hd Hp Hl.
  destruct (in_combine _ _ _ _ _ _ _ _ _ _ BT d Hd) as (r & Hr).
  destruct (in_pair _ _ _ _ _ _ _ _ _ _ BT GR r d Hr) as [_ [[S1 S2 _ _] _ (ts & o & T & G & M) _]].
  pose proof (RBs r (in_combine_l _ _ _ _ Hr)) as RB.
  pose proof (built_fine _ _ _ _ _ HA _ _ _ _ _ BT) as FM.
  destruct (proj1 (bol_word k (ps_map s) _ _ FM M S1 S2)) as (v & [HL|(? & _)]); [eauto| |auto].
  apply olang_oclang in HL as (w & C & E). symmetry in E. apply (encw_bol _ _ [] v) in E as (x & y & -> & _ & _).
  apply (o_rule r ts o T G) in C. apply (RB _ _ C).
Qed.

Lemma rows_div {A} w (rows : list (list A)) : (0 < w)%nat -> Forall (fun r => length r = w) rows ->
  N.of_nat (length (concat rows)) / N.of_nat w = N.of_nat (length rows).
Proof.
  intros Hw F. assert (L : length (concat rows) = (length rows * w)%nat).
  { clear Hw. induction F; cbn; [auto|]. rewrite app_length. lia. }
  rewrite L. rewrite Nat2N.inj_mul. apply N.div_mul. lia.
Qed.
Lemma ends_nodup k m s ds : rules_ok k m s ds -> NoDup (map dr_end ds).
Proof.
  intros [_ D]. apply NoDup_nth_error. intros i j Hi E. rewrite map_length in Hi.
  rewrite !nth_error_map in E. destruct (nth_error ds i) as [x|] eqn:Ei; [|apply nth_error_None in Ei; lia].
  destruct (nth_error ds j) as [y|] eqn:Ej; [|discriminate]. cbn in E. injection E as E.
  eapply D; eauto; [now left|]. rewrite E. now left.
Qed.

Theorem build_one_ok k fl g u st used : wide_ok k -> state_wf k g ->
  exists f0, forall f, (f0 <= f)%nat ->
  (exists e, build_one f k fl g u st used = Throw e /\ gives_up fl g e) \/
  (exists o st', build_one f k fl g u st used = Ok (o, after k (length (gs_rules g)) u, st') /\
     gs_rules g <> [] /\ Forall parses (gs_rules g) /\
     state_table k g (out_table o) /\
     (zero_len_ok fl = true \/ forall r, In r (gs_rules g) -> ~ rmatch r false []) /\
     (forall v, In v (o_used o) -> In v used \/ (suppressed_ok fl = false /\ useful k g u v)) /\
     (forall v, In v used -> In v (o_used o)) /\
     (forall v, suppressed_ok fl = false -> Forall eager (gs_rules g) -> useful k g u v -> In v (o_used o))).
Proof.
  intros WO [RW (A & HA & KA)]. unfold build_one. set (seen := has_bol (gs_features g)) in *.
  assert (gs_rules g = [] \/ gs_rules g <> []) as [E0|NE] by (destruct (gs_rules g); [left|right]; easy).
  { exists O. intros f _. left. exists EEmptyState. rewrite E0. split; [auto|]. left. auto. }
  assert (GR : Forall (good_rule k seen A) (gs_rules g)).
  { apply Forall_forall. intros r Hr. split; [rewrite Forall_forall in RW; apply RW; auto|]. intros t Ht. eauto. }
  assert (FR : Forall (fair_rule k A) (gs_rules g)) by (eapply Forall_impl; [|exact GR]; apply good_fair).
  destruct (build_tree_ok k A g u st WO HA NE FR) as [(root & u' & s & ds & E & BT)|(e & r & E & Hr & NP)].
  2: { exists O. intros f _. left. exists e. rewrite E.
       replace (match gs_rules g with [] => Throw EEmptyState | _ :: _ => _ end) with
         (Throw e : res (dfa_out * N * store)) by (destruct (gs_rules g); [congruence|reflexivity]).
       split; [auto|]. right. left. split; [exact (build_tree_errs _ _ _ _ _ E)|eauto]. }
  exists (S (2 ^ length (snd (ps_tree s)))). intros f Hf.
  replace (match gs_rules g with [] => Throw EEmptyState | _ :: _ => _ end) with
    (do t <- build_tree k g u st;
     let '(root, u, s) := t in
     do z <- check_zero_len fl (snd (ps_tree s)) root;
     do o <- build_dfa f k fl (snd (ps_tree s)) root (ps_map s) (ps_cr s) (ps_nl s) used;
     if gnpos k <=? N.of_nat (length (concat (o_rows o))) / o_width o then Throw EOverflow
     else Ok (o, u, snd (ps_tree s))) by (destruct (gs_rules g); [congruence|reflexivity]).
  rewrite E. cbn [bind].
  destruct (zero_len_ok_iff k seen A (length st) u fl _ _ _ _ _ HA BT FR) as [(Z & Z1 & Z2)|(Z & Z1)]; rewrite Z; cbn [bind].
  { left. exists EZeroLen. split; [auto|]. right. right. left. auto. }
  assert (NL : ps_cr s = gnpos k /\ ps_nl s = gnpos k).
  { assert (Q : nls s = (gnpos k, gnpos k)).
    { apply (bt_nls _ _ _ _ _ _ _ _ _ _ BT). eapply Forall_impl; [|exact GR]. apply good_line_free. } unfold nls in Q. now injection Q. }
  destruct NL as [-> ->].
  pose proof (built_fine _ _ _ _ _ HA _ _ _ _ _ BT) as FM.
  pose proof (built_rules_ok _ _ _ _ _ _ _ _ _ _ BT FR) as RO.
  pose proof (built_root_ok _ _ _ _ _ _ _ _ _ _ BT FR NE) as RT.
  pose proof (built_stands _ _ _ _ _ HA _ _ _ _ _ BT FR) as ST.
  assert (RB : forall r, In r (gs_rules g) -> bol_rule seen r).
  { intros r Hr. rewrite Forall_forall in GR. apply (GR r Hr). }
  destruct (build_dfa_rules f k fl (snd (ps_tree s)) root (ps_map s) used ds (proj1 FM) (proj2 FM) RO RT
    (built_eolless _ _ _ _ _ HA _ _ _ _ _ BT FR GR) (built_bol_first _ _ _ _ _ HA _ _ _ _ _ BT FR RB))
    as [ED|(o & ED & RC & SH & U1 & U2 & U3)]; [lia| |]; rewrite ED; cbn [bind].
  { left. exists EOverflow. split; [auto|]. right. right. right. auto. }
  assert (W : ix_trans <= o_width o) by apply (rc_width _ _ _ _ _ _ RC).
  assert (DV : N.of_nat (length (concat (o_rows o))) / o_width o = N.of_nat (length (o_rows o))).
  { rewrite <- (rows_div (N.to_nat (o_width o)) (o_rows o)); [now rewrite N2Nat.id| |auto].
    unfold ix_trans in W. lia. }
  rewrite DV. destruct (N.leb_spec (gnpos k) (N.of_nat (length (o_rows o)))) as [HO|HO].
  { left. exists EOverflow. split; [auto|]. right. right. right. auto. }
  right. exists o, (snd (ps_tree s)). rewrite (bt_u _ _ _ _ _ _ _ _ _ _ BT). split; [auto|]. split; [auto|].
  assert (UQ := bt_uniq _ _ _ _ _ _ _ _ _ _ BT).
  assert (ND := ends_nodup _ _ _ _ RO).
  split.
  { clear - ST. induction ST as [|r d rs ds [(ts & o & T & G & _) _] F IH]; constructor; auto. exists ts, o. auto. }
  split.
  { exists s, ds, (N.of_nat (length (o_rows o))). split; [auto|]. split; [auto|]. split; [auto|]. split.
    - intros HE. eapply built_no_lazy; eauto.
    - intros b Eb Hb. destruct (rc_bol_leaf _ _ _ _ _ _ RC b Eb Hb) as (d & p & Hd & Hp & Hl).
      eapply (built_bol k seen); eauto. }
  split; [auto|]. split; [|split; [auto|]].
  - intros v Hv. apply U1 in Hv as [Hv|(Sp & w & d & Tw & F & Ev)]; [auto|]. right. split; [auto|].
    pose proof F as (j & Ed & _). exists j. split.
    + rewrite <- UQ, nth_error_map, Ed. cbn. now rewrite Ev.
    + apply (first_some k seen s (gs_rules g) ds ST RB j d Ed ND). eauto.
  - intros v Sp HE (j & Ev & bol & cs & FA).
    rewrite <- UQ, nth_error_map in Ev. destruct (nth_error ds j) as [d|] eqn:Ed; [|discriminate]. cbn in Ev.
    injection Ev as <-.
    destruct (proj2 (first_some k seen s (gs_rules g) ds ST RB j d Ed ND)) as (w & Tw & F); [eauto|].
    apply (U3 w); auto. eapply built_no_lazy; eauto.
Qed.
