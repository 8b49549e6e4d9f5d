(** One start state: the tree of build_tree meets the requirements of build_dfa. *)
From Verif Require Import Base StringToken StringTokenSpec StringTokenProofs RegexSpec StateMachine Slice
  ReToken DfaSpec Grammar Tree TreeSpec Glushkov TreeProofs Partition Parser Generator GenMap Build ParserTree
  ParserKeys ParserSound ParserLoop TreeWords ParserRule Lookup TableSpec LookupSpec RuleSpec RuleWords
  BuildSpec BolWords BuildTree GenRules GenTable.
Local Open Scope N_scope.

(** ** Markers in the words of a rule *)
Section Words.
Variables (b : N) (seen : bool) (r : grule) (ts : list token) (o : option rx).
Hypothesis T : rule_tokens r ts.
Hypothesis G : ogram o ts.
Hypothesis RB : bol_rule seen r.

Lemma o_rule w : oclang o w -> rule_lang r w.
Proof. intros H. now apply (rule_lang_o r ts o). Qed.
Lemma lang_bol u v : olang b o (u ++ SBol :: v) -> u = [] /\ seen = true.
Proof.
  intros H. apply olang_oclang in H as (w & C & E). symmetry in E.
  apply encw_bol in E as (x & y & -> & -> & ->). apply o_rule in C.
  destruct (RB _ _ C) as [-> Es]. auto.
Qed.
Lemma anchor_words : has_anchor r <-> exists v, olang b o (SBol :: v).
Proof.
  split.
  - intros (v & H). apply (rule_lang_o r ts o) in H; auto. exists (encw b v). apply olang_oclang. eexists; split; [exact H|reflexivity].
  - intros (v & H). apply olang_oclang in H as (w & C & E). symmetry in E.
    apply (encw_bol b w [] v) in E as (x & y & -> & E & _). destruct x as [|a x]; [|exfalso; destruct a; cbn in E; try discriminate E;
      destruct (enc b c) as [|n l] eqn:Q; [now apply enc_ne in Q|discriminate E]]. exists y. now apply o_rule.
Qed.
Lemma words_bol u v : rule_words b seen (olang b o) (u ++ SBol :: v) -> u = [].
Proof.
  intros [H|(_ & NB & v' & E & H)]; [now apply lang_bol in H|].
  destruct u as [|a u]; [auto|]. exfalso. cbn in E. injection E as _ <-.
  pose proof (lang_bol u v H) as [-> _]. eapply NB; eauto.
Qed.
Lemma words_no_eol w : no_eol ts -> rule_words b seen (olang b o) w -> ~ In SEol w.
Proof.
  intros NE. assert (Q : forall v, olang b o v -> ~ In SEol v).
  { intros v H Hi. apply olang_oclang in H as (x & C & ->). apply encw_eol in Hi.
    eapply ogram_no_eol; eauto. }
  intros [H|(_ & _ & v & -> & H)] Hi; [eapply Q; eauto|]. destruct Hi as [E|Hi]; [discriminate|eapply Q; eauto].
Qed.

(** The words of the tree and the natural meaning of the rule agree. *)
Lemma words_text cs : Forall (tok_ok b) ts -> Forall (fits b) cs ->
  (rule_words b seen (olang b o) (map SByte (flat_map (enc b) cs)) <-> rmatch r false cs).
Proof.
  intros TO F. unfold rmatch. split.
  - intros [H|(_ & _ & v & E & _)].
    + apply o_rule. eapply text_lang; eauto.
    + destruct (flat_map (enc b) cs); discriminate.
  - intros H. left. apply (text_lang b o ts cs G TO F). now apply (rule_lang_o r ts o).
Qed.
Lemma words_bol_text cs : Forall (tok_ok b) ts -> Forall (fits b) cs -> seen = true ->
  (rule_words b seen (olang b o) (SBol :: map SByte (flat_map (enc b) cs)) <-> rmatch r true cs).
Proof.
  intros TO F Es. unfold rmatch. split.
  - intros [H|(_ & NB & v & E & H)].
    + left. apply o_rule. eapply bol_lang; eauto.
    + injection E as <-. right. split; [|apply o_rule; eapply text_lang; eauto].
      intros HA. apply anchor_words in HA as (v & Hv). exact (NB v Hv).
  - intros [H|[HA H]].
    + left. apply (bol_lang b o ts cs G TO F). now apply (rule_lang_o r ts o).
    + right. split; [auto|]. split.
      * intros v Hv. apply HA. apply anchor_words. eauto.
      * eexists. split; [reflexivity|]. apply (text_lang b o ts cs G TO F). now apply (rule_lang_o r ts o).
Qed.
End Words.

(** ** The state *)
Section State.
Variables (k : gcfg) (seen : bool) (A : list stoken) (lo : nat) (u0 : N).
Hypothesis HA : N.of_nat (length A) < eol_tok k.
Variables (rs : list grule) (ds : list drule) (root : node) (u : N) (s : pstate).
Hypothesis BT : built k seen A lo u0 rs ds root u s.
Hypothesis GR : Forall (fair_rule k A) rs.
Let m := ps_map s.
Let st := snd (ps_tree s).
Let bsz := g_bytes k.

Lemma built_fine : mfine k m.
Proof.
  assert (L : (length m <= length A)%nat).
  { destruct (bt_keys _ _ _ _ _ _ _ _ _ _ BT) as [ND I].
    replace (length m) with (length (keys m)) by apply map_length. now apply NoDup_incl_length. }
  assert (Q : N.of_nat (length m) < eol_tok k) by lia. split; [|auto].
  apply (bt_map _ _ _ _ _ _ _ _ _ _ BT). exact Q.
Qed.

(** Rule [r] is represented by [d]. *)
Definition stands (r : grule) (d : drule) : Prop :=
  (exists ts o, rule_tokens r ts /\ ogram o ts /\ Forall (tok_ok bsz) ts /\
     forall w, dr_lang k m d w <-> rule_words bsz seen (olang bsz o) w) /\
  exists v g, dr_info d = end_info (rule_info r v) g /\ (eager r -> g = GYes).
Lemma in_pair r d : In (r, d) (combine rs ds) -> fair_rule k A r /\ rule_tree k seen lo s r d.
Proof.
  pose proof (bt_rules _ _ _ _ _ _ _ _ _ _ BT) as F. clear BT. revert GR.
  induction F as [|x y xs ys H F IH]; intros GR' Hi; [destruct Hi|]. inversion GR'; subst.
  destruct Hi as [[= -> ->]|Hi]; auto.
Qed.
Lemma fair_tokens r : fair_rule k A r -> forall ts, rule_tokens r ts -> Forall (tok_ok bsz) ts.
Proof.
  intros [(ts' & T' & TO & _) _] ts T. now rewrite (rule_tokens_unique r ts ts' T T').
Qed.
Lemma tree_words r d : fair_rule k A r -> rule_tree k seen lo s r d -> stands r d.
Proof.
  intros Gr [_ _ (ts & o & T & G & M) I]. split; [|auto]. exists ts, o. split; [auto|]. split; [auto|].
  split; [now apply (fair_tokens r Gr)|].
  intros w. apply M; [apply mext_refl|apply built_fine].
Qed.
Lemma tree_ok r d : fair_rule k A r -> rule_tree k seen lo s r d -> rule_ok k m st d.
Proof.
  intros Gr RT. destruct RT as [[S1 S2 S3 S4] _ (ts2 & o2 & T2 & G2 & M) _].
  constructor; auto.
  intros p t Hl. destruct (leaf_word _ p t S1 Hl) as (x & y & D).
  pose proof (proj2 M _ D) as K. rewrite Forall_app in K. destruct K as [_ K].
  inversion K as [|? ? [Hb|[He|Hm]] K']; subst; auto.
Qed.
Lemma tree_eolless r d : good_rule k seen A r -> rule_tree k seen lo s r d ->
  forall p, ~ In (p, eol_tok k) (leaves (dr_tree d)).
Proof.
  intros Gr RT p Hl. destruct (tree_words r d (good_fair k seen A r Gr) RT) as [(ts & o & T & G & TO & W) _].
  pose proof (good_line_free _ _ _ _ Gr ts T) as NE.
  pose proof built_fine as FM. destruct RT as [[S1 S2 S3 S4] _ (ts2 & o2 & T2 & G2 & M) _].
  pose proof (rule_tokens_unique r ts2 ts T2 T) as ->. pose proof (ogram_unique _ _ _ G2 G) as ->.
  destruct (leaf_word _ p _ S1 Hl) as (x & y & D).
  destruct (known_words k m _ _ _ FM M D) as (ws & F2 & HL).
  apply Forall2_app_inv_l in F2 as (w1 & w2 & _ & F2 & ->).
  inversion F2 as [|? a ? w3 Sa F3]; subst. apply sem_eol in Sa; auto. subst a.
  eapply (words_no_eol bsz seen); eauto. apply in_or_app. right. now left.
Qed.
Lemma tree_bol_first r d : bol_rule seen r -> rule_tree k seen lo s r d ->
  forall p q t, fol (dr_tree d) p q -> In (q, t) (leaves (dr_tree d)) -> t <> bol_tok k.
Proof.
  intros RB RT p q t Hf Hl Et. subst t.
  pose proof built_fine as FM. destruct RT as [[S1 S2 S3 S4] _ (ts & o & T & G & M) _].
  destruct (fol_word _ p q S1 Hf) as (a & c & x & y & _ & Hq & D).
  rewrite (nodup_fst _ _ _ _ S2 Hq Hl) in D.
  destruct (known_words k m _ _ _ FM M D) as (ws & F2 & HL).
  apply Forall2_app_inv_l in F2 as (w1 & w2 & _ & F2 & ->).
  inversion F2 as [|? a1 ? w3 Sa F3]; subst. inversion F3 as [|? a2 ? w4 Sb F4]; subst.
  apply sem_bol in Sb; auto. subst a2.
  change (w1 ++ a1 :: SBol :: w4) with (w1 ++ [a1] ++ SBol :: w4) in HL. rewrite app_assoc in HL.
  apply words_bol with (r := r) (ts := ts) in HL; auto. now destruct w1.
Qed.
Lemma built_len : length rs = length ds.
Proof. pose proof (bt_rules _ _ _ _ _ _ _ _ _ _ BT) as F. clear BT GR. induction F; cbn; auto. Qed.
Lemma in_combine d : In d ds -> exists r, In (r, d) (combine rs ds).
Proof.
  pose proof (bt_rules _ _ _ _ _ _ _ _ _ _ BT) as F. clear BT GR.
  induction F as [|x y xs ys H F IH]; intros Hi; [destruct Hi|]. destruct Hi as [->|Hi]; [exists x; now left|].
  destruct (IH Hi) as (r & Hr). exists r. now right.
Qed.

Lemma built_rules_ok : rules_ok k m st ds.
Proof.
  split.
  - apply Forall_forall. intros d Hd. destruct (in_combine d Hd) as (r & Hr).
    destruct (in_pair r d Hr). eapply tree_ok; eauto.
  - apply (bt_disj _ _ _ _ _ _ _ _ _ _ BT).
Qed.
Lemma built_eolless : Forall (good_rule k seen A) rs -> eolless k ds.
Proof.
  intros GG d p Hd. destruct (in_combine d Hd) as (r & Hr). destruct (in_pair r d Hr) as [_ RT].
  eapply tree_eolless; [|exact RT]. rewrite Forall_forall in GG. apply GG. eapply in_combine_l; eauto.
Qed.
Lemma built_bol_first : (forall r, In r rs -> bol_rule seen r) -> bol_first k ds.
Proof.
  intros RB d p q t Hd. destruct (in_combine d Hd) as (r & Hr). destruct (in_pair r d Hr) as [_ RT].
  eapply tree_bol_first; [|exact RT]. apply RB. eapply in_combine_l; eauto.
Qed.
Lemma built_root_ok : rs <> [] -> root_ok ds root.
Proof.
  intros NE. split.
  - pose proof built_len as L. destruct ds; [|easy]. destruct rs; [congruence|discriminate].
  - destruct (bt_first _ _ _ _ _ _ _ _ _ _ BT) as (vs & E & F). exists vs. auto.
Qed.
Lemma built_stands : Forall2 stands rs ds.
Proof.
  pose proof in_pair as Q. pose proof built_len as L. clear - Q L HA BT GR.
  assert (P : forall r d, In (r, d) (combine rs ds) -> stands r d).
  { intros r d H. destruct (Q r d H). now apply tree_words. }
  clear Q BT GR. revert ds L P. induction rs as [|r rs' IH]; intros [|d ds'] L P; try discriminate; constructor.
  - apply P. now left.
  - apply IH; [now injection L|]. intros x y H. apply P. now right.
Qed.
Lemma built_no_lazy : Forall eager rs -> no_lazy st ds.
Proof.
  intros HE. right. intros d Hd. destruct (in_combine d Hd) as (r & Hr).
  destruct (in_pair r d Hr) as [_ RT]. destruct (rt_info _ _ _ _ _ _ RT) as (v & g & E & Hg).
  rewrite E. cbn. rewrite Hg; [easy|]. rewrite Forall_forall in HE. apply HE. eapply in_combine_l; eauto.
Qed.
End State.

(** ** check_zero_len *)
Lemma any_end_spec st ps : Forall (fun p => (p < length st)%nat) ps ->
  exists b, any_end st ps = Ok b /\ (b = true <-> exists p e, In p ps /\ nth_error st p = Some (PEnd e)).
Proof.
  induction 1 as [|p ps Hp H IH]; cbn [any_end].
  - exists false. split; [auto|]. split; [discriminate|]. intros (p & e & [] & _).
  - unfold end_node. destruct (nth_error st p) as [[t g f|e]|] eqn:E; cbn [bind].
    + destruct IH as (b & Eb & Hb). exists b. split; [auto|]. rewrite Hb. split.
      * intros (q & e & Hq & Eq). exists q, e. split; [now right|auto].
      * intros (q & e & [->|Hq] & Eq); [congruence|eauto].
    + exists true. split; [auto|]. split; [intros _|auto]. exists p, e. split; [now left|auto].
    + apply nth_error_None in E. lia.
Qed.
Lemma nullable_lang k m d : mfine k m -> pure (dr_tree d) = true ->
  (nullable (dr_tree d) = true <-> dr_lang k m d []).
Proof.
  intros F P. rewrite nullable_word by auto. unfold dr_lang. split; intros H.
  - eapply den_map; eauto.
  - apply den_unmap in H as (w & D & F2). inversion F2; subst. auto.
Qed.
Theorem zero_len_ok_iff k seen A lo u0 fl rs ds root u s : N.of_nat (length A) < eol_tok k ->
  built k seen A lo u0 rs ds root u s -> Forall (fair_rule k A) rs ->
  (check_zero_len fl (snd (ps_tree s)) root = Throw EZeroLen /\ zero_len_ok fl = false /\
     exists r, In r rs /\ rmatch r false []) \/
  (check_zero_len fl (snd (ps_tree s)) root = Ok tt /\
     (zero_len_ok fl = true \/ forall r, In r rs -> ~ rmatch r false [])).
Proof.
  intros HA BT GR. unfold check_zero_len. destruct (zero_len_ok fl) eqn:Z; [right; auto|].
  destruct (bt_first _ _ _ _ _ _ _ _ _ _ BT) as (vs & E & F).
  pose proof (built_rules_ok _ _ _ _ _ _ _ _ _ _ BT GR) as [RO _].
  pose proof (built_fine _ _ _ _ _ HA _ _ _ _ _ BT) as FM. rewrite Forall_forall in RO.
  assert (IN : forall x, In x (firstpos root) <-> exists d, In d ds /\
     (In x (firstpos (dr_tree d)) \/ (nullable (dr_tree d) = true /\ x = dr_end d))).
  { intros x. rewrite E. clear - F. induction F as [|d v ds vs [_ H] F IH]; cbn [concat].
    - split; [intros []|intros (d & [] & _)].
    - rewrite in_app_iff, H, IH. split.
      + intros [Hx|(d' & Hd & Hx)]; [exists d; split; [now left|auto]|exists d'; split; [now right|auto]].
      + intros (d' & [<-|Hd] & Hx); [auto|right; eauto]. }
  assert (FL : forall x d, In d ds -> In x (firstpos (dr_tree d)) ->
    exists t g f, nth_error (snd (ps_tree s)) x = Some (PLeaf t g f)).
  { intros x d Hd Hx. destruct (first_word _ x (ro_pure _ _ _ _ (RO d Hd)) Hx) as (t & _ & Hl & _).
    destruct (ro_leaf _ _ _ _ (RO d Hd) x t Hl) as (g & f & Ex & _). eauto. }
  destruct (any_end_spec (snd (ps_tree s)) (firstpos root)) as (b & Eb & Hb).
  { apply Forall_forall. intros x Hx. apply nth_error_Some. apply IN in Hx as (d & Hd & [Hx|[_ ->]]).
    - destruct (FL x d Hd Hx) as (t & g & f & Ex). congruence.
    - rewrite (ro_end _ _ _ _ (RO d Hd)). discriminate. }
  rewrite Eb. cbn [bind].
  assert (EQ : (exists p e, In p (firstpos root) /\ nth_error (snd (ps_tree s)) p = Some (PEnd e)) <->
               exists d, In d ds /\ nullable (dr_tree d) = true).
  { split.
    - intros (p & e & Hp & Ee). apply IN in Hp as (d & Hd & [Hx|[HN ->]]); [|eauto].
      destruct (FL p d Hd Hx) as (t & g & f & Ex). congruence.
    - intros (d & Hd & HN). exists (dr_end d), (dr_info d). split; [|apply (RO d Hd)]. apply IN.
      exists d. auto. }
  assert (EM : (exists d, In d ds /\ nullable (dr_tree d) = true) <-> exists r, In r rs /\ rmatch r false []).
  { pose proof (built_stands _ _ _ _ _ HA _ _ _ _ _ BT GR) as ST.
    assert (PR : forall r d, stands k seen s r d -> In d ds -> In r rs ->
      (nullable (dr_tree d) = true <-> rmatch r false [])).
    { intros r d [(ts & o & T & G & TO & W) _] Hd Hr.
      rewrite (nullable_lang k (ps_map s)) by (auto; apply (RO d Hd)). rewrite W.
      apply (words_text (g_bytes k) seen r ts o T G []); auto. }
    clear - ST PR. induction ST as [|r d rs ds H ST IH]; [split; intros (? & [] & _)|].
    assert (IH' := IH (fun r d S H1 H2 => PR r d S (or_intror H1) (or_intror H2))). split.
    - intros (x & [<-|Hx] & HN).
      + exists r. split; [now left|]. apply (PR r d); auto; now left.
      + destruct (proj1 IH') as (r' & Hr & HM); [eauto|]. exists r'. split; [now right|auto].
    - intros (x & [<-|Hx] & HN).
      + exists d. split; [now left|]. apply (PR r d); auto; now left.
      + destruct (proj2 IH') as (r' & Hr & HM); [eauto|]. exists r'. split; [now right|auto]. }
  rewrite EQ, EM in Hb. destruct b.
  - left. split; [auto|]. split; [auto|]. now apply Hb.
  - right. split; [auto|]. right. intros r Hr HM. enough (false = true) by discriminate. apply Hb. eauto.
Qed.
