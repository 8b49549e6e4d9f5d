(** Lexers with $, from the texts to the tokens. *)
From Verif Require Import Base StringToken StringTokenSpec StateMachine Slice ReToken DfaSpec Grammar GramUnique Tree Parser
  Generator Build Lookup TableSpec LookupSpec RuleSpec RuleWords BuildSpec BolWords BuildCheck BuildLookup BuildErrs BuildThms EolSpec EolLexSpec EolCheck EolLookup EolLex
  ReTokeniser ReTokeniserNext Rules TokeniseSpec TokeniseProofs PruneProofs TokeniseAll RulesSpec RulesInv RulesContent RulesFeat RulesBuild RulesTop
  Iterator StripProofs ParserKeys ParserTree SourceSpec SourceClass SourceLex SourceAll SourceLexer SourceTop TokenList LineSpec.
Local Open Scope N_scope.

(** ** The description leaves no choice *)
Lemma first_of_det xs P x y : first_of xs P x -> first_of xs P y -> x = y.
Proof.
  intros (j & E1 & M1 & L1) (j' & E2 & M2 & L2). destruct (Nat.lt_trichotomy j j') as [H|[H|H]].
  - exfalso. apply (L2 j x H E1 M1).
  - subst. congruence.
  - exfalso. apply (L1 j' y H E2 M2).
Qed.
Lemma first_of_in xs P x : first_of xs P x -> In x xs /\ P x.
Proof. intros (j & E & M & _). split; [eapply nth_error_In; eauto|exact M]. Qed.
Lemma dlongest_match ends xs inp bol p x q : dlongest ends xs inp bol p x q -> In x xs /\ dmatch ends inp bol p q x /\ (p < q <= length inp)%nat.
Proof.
  intros (R & [(A & B & F)|(F & _)] & _); apply first_of_in in F as (F1 & F2); (split; [exact F1|split; [|exact R]]); [right; auto|left; exact F2].
Qed.
Lemma dlongest_det ends xs inp bol p x q x' q' : dlongest ends xs inp bol p x q -> dlongest ends xs inp bol p x' q' -> x = x' /\ q = q'.
Proof.
  intros D D'. destruct (dlongest_match _ _ _ _ _ _ _ D) as (I & M & R), (dlongest_match _ _ _ _ _ _ _ D') as (I' & M' & R'). destruct D as (_ & F & U), D' as (_ & F' & U').
  assert (q = q').
  { destruct (Nat.lt_trichotomy q q') as [H|[H|H]]; [|exact H|]; exfalso; [apply (U q' x')|apply (U' q x)]; auto; lia. }
  subst q'. split; [|reflexivity]. destruct F as [(A & B & F)|(F & N)], F' as [(A' & B' & F')|(F' & N')].
  - eapply first_of_det; eauto.
  - exfalso. apply first_of_in in F as (F1 & F2). now apply (N' A B x).
  - exfalso. apply first_of_in in F' as (F1 & F2). now apply (N A' B' x').
  - eapply first_of_det; eauto.
Qed.
Theorem dreads_det none skip see ends xs inp bol p id uid i j b : dreads none skip see ends xs inp bol p id uid i j b ->
  forall id' uid' i' j' b', dreads none skip see ends xs inp bol p id' uid' i' j' b' -> id = id' /\ uid = uid' /\ i = i' /\ j = j' /\ b = b'.
Proof.
  assert (NL : forall bol p x q, dlongest ends xs inp bol p x q -> dnone ends xs inp bol p -> False).
  { intros bol' p' x q D N. destruct (dlongest_match _ _ _ _ _ _ _ D) as (I & M & R). now apply (N q x). }
  assert (EN : forall p c, nth_error inp p = Some c -> p = length inp -> False).
  { intros p' c H ->. assert (length inp < length inp)%nat by (apply nth_error_Some; congruence). lia. }
  assert (EL : forall bol p x q, dlongest ends xs inp bol p x q -> p = length inp -> False) by (intros bol' p' x q (R1 & _) ->; lia).
  induction 1 as [bol p H|bol p x q H N|bol p x q id uid i j b H N K IH|bol p c H N]; intros id' uid' i' j' b' S; inversion S; subst;
    try (exfalso; eauto; fail); try (split; auto; fail).
  all: repeat match goal with A : dlongest _ _ _ _ _ _ _, B : dlongest _ _ _ _ _ _ _ |- _ => destruct (dlongest_det _ _ _ _ _ _ _ _ _ A B) as [? ?]; subst; clear B end; try congruence; auto.
  all: repeat match goal with A : nth_error _ _ = Some _, B : nth_error _ _ = Some _ |- _ => rewrite A in B; injection B as <- end; auto 6.
Qed.
Lemma dreads_prog none skip see ends xs inp bol p id uid i j b : none <> 0 -> Forall (fun x => s_id x <> 0) xs -> (p <= length inp)%nat -> dreads none skip see ends xs inp bol p id uid i j b ->
  (id = 0 /\ i = length inp) \/ (id <> 0 /\ (p <= i < j)%nat /\ (j <= length inp)%nat).
Proof.
  intros NN F Lp H. revert Lp. induction H as [bol p E|bol p x q LO NS|bol p x q id uid i j b LO NS _ IH|bol p c E NO]; intros Lp.
  - left. auto.
  - right. destruct (dlongest_match _ _ _ _ _ _ _ LO) as (I & _ & L1). rewrite Forall_forall in F. split; [now apply F|lia].
  - destruct LO as (L1 & _). destruct IH as [IH|IH]; [lia|now left|right]. destruct IH as (I1 & I2 & I3). split; [exact I1|lia].
  - right. assert (p < length inp)%nat by (apply nth_error_Some; congruence). split; [exact NN|lia].
Qed.

(** ** The object *)
Section Fair.
  Variables (k : rcfg) (g : gcfg) (r : rules).
  Hypothesis NPOS : 1 < rnpos k.
  Hypothesis Hbits : g_bits g = r_bits k.
  Hypothesis Hbytes : g_bytes g = r_bytes k.
  Hypothesis Hb : 0 < g_bytes g.
  Hypothesis P : proper_unsplit k r.
  Hypothesis Sets : forall s, In s (gr_states (grules_of r)) -> N.of_nat (length (all_sets (g_bytes g) s)) < eol_tok g.
  Hypothesis Sli : forall i x t, In x (rules_at r i) -> In t (gr_tokens x) -> sliceable (g_bytes g) t.
  Lemma made_vec i x : In x (rules_at r i) -> exists w, gr_tokens x = between w /\ vec (chars (r_bytes k)) w.
  Proof.
    intros Hx. destruct (unsplit_feats k NPOS r P) as (_ & C & _). pose proof (co_rules _ _ C i) as G. rewrite Forall_forall in G.
    destruct (G x Hx) as ((w & E & V) & _). eauto.
  Qed.
  Lemma made_rule_fair i x : In x (rules_at r i) -> rule_fair (g_bytes g) x /\ dollar_last x.
  Proof.
    intros Hx. destruct (made_vec i x Hx) as (w & E & V). assert (T : rule_tokens x w) by (exists (tok BEGIN), (tok END); auto). split.
    - exists w. split; [exact T|]. split; [|apply V]. pose proof (ve_toks _ _ V) as VT. rewrite Forall_forall in VT |- *. intros t Ht.
      apply vtok_ok; [|rewrite Hbytes; now apply VT]. apply (Sli i x t Hx). rewrite E. right. apply in_or_app. now left.
    - exists w. split; [exact T|apply V].
  Qed.
  Theorem made_fair_rules : rules_fair g (grules_of r).
  Proof.
    apply Forall_forall. intros s Hs. destruct (state_rules k g r NPOS Hbits Hbytes Hb s Hs) as (i & Hi & E1 & E2). split.
    - rewrite E1. apply Forall_forall. intros x Hx. now apply (made_rule_fair i).
    - exists (all_sets (g_bytes g) s). split; [now apply Sets|]. intros x t Hx Ht y Hy. apply all_sets_ok. apply in_flat_map. exists x. split; [auto|]. apply in_flat_map. eauto.
  Qed.
End Fair.

(** ** The lexer *)
Section Lexer.
  Variables (k : rcfg) (g : gcfg) (kc : cfg) (fl : N) (mds : list smacro) (xs : list srule) (f : nat) (m : internals) (inp : list N).
  Hypothesis NPOS : 1 < rnpos k.
  Hypothesis Hbits : g_bits g = r_bits k.
  Hypothesis Hbytes : g_bytes g = r_bytes k.
  Hypothesis Hb : r_bytes k = 1 \/ r_bytes k = 2.
  Hypothesis AG : agree kc g.
  Hypothesis MO : smacros_ok k fl mds.
  Hypothesis Hx : Forall (lrule_ok k fl mds) xs.
  Hypothesis AP : sapart (r_bytes k) xs.
  Let R := grules_of (push_all k fl mds xs).
  Hypothesis Sets : forall s, In s (gr_states R) -> N.of_nat (length (all_sets (g_bytes g) s)) < eol_tok g.
  Hypothesis HB : build f g R = Ok m.
  Hypothesis Adv : f_adv kc = true.
  Hypothesis HI : Forall (fits (c_bytes kc)) inp.

  Let rs := rules_at (push_all k fl mds xs) 0.
  Lemma lines_said : Forall (text_says k fl mds) xs.
  Proof. eapply Forall_impl; [|exact Hx]. intros x []. auto. Qed.
  Lemma lines_proper : proper_unsplit k (push_all k fl mds xs).
  Proof. apply (push_all_said k fl NPOS mds xs MO lines_said). Qed.
  Lemma lines_follow : Forall2 (follows k) rs xs.
  Proof. now destruct (push_all_said k fl NPOS mds xs MO lines_said) as (_ & _ & _ & _ & F & _). Qed.
  Lemma lines_state s : In s (gr_states R) -> gs_rules s = rs /\ gs_features s = nth 0 (ru_features (push_all k fl mds xs)) 0.
  Proof. destruct (push_all_said k fl NPOS mds xs MO lines_said) as (_ & _ & E & _). unfold R. cbn [grules_of gr_states]. rewrite E. intros [<-|[]]. split; reflexivity. Qed.
  Lemma lines_one : length (gr_states R) = 1%nat.
  Proof. destruct (push_all_said k fl NPOS mds xs MO lines_said) as (_ & _ & E & _). unfold R. cbn [grules_of gr_states]. now rewrite E. Qed.
  Lemma lines_sliceable i x t : In x (rules_at (push_all k fl mds xs) i) -> In t (gr_tokens x) -> sliceable (g_bytes g) t.
  Proof. intros _ _ _. rewrite Hbytes. tauto. Qed.
  Lemma lines_pos : 0 < g_bytes g.
  Proof. rewrite Hbytes. destruct Hb as [-> | ->]; reflexivity. Qed.
  Lemma all_known w : known (r_bytes k) w.
  Proof. unfold known. tauto. Qed.
  Lemma lines_lang x y : follows k x y -> forall w, slang (s_sx y) w <-> rule_lang x w.
  Proof. intros (_ & L & _) w. rewrite L. pose proof (all_known w). tauto. Qed.
  Lemma lines_rule x : In x rs -> exists y, In y xs /\ follows k x y /\ lrule_ok k fl mds y.
  Proof.
    intros I. apply In_nth_error in I as (j & Ej). destruct (nth_follows _ _ _ _ _ lines_follow Ej) as (y & Ey & W). apply nth_error_In in Ey.
    exists y. split; [exact Ey|]. split; [exact W|]. rewrite Forall_forall in Hx. auto.
  Qed.
  Lemma lines_fair : rules_fair g R.
  Proof. apply (made_fair_rules k g _ NPOS Hbits Hbytes lines_pos lines_proper Sets lines_sliceable). Qed.
  Lemma dollar_bol e : ~ In CBol (dollar e).
  Proof. destruct e; cbn; [intros [H|[]]; discriminate|tauto]. Qed.
  Lemma chars_bol cs e : ~ In CBol (map CChar cs ++ dollar e).
  Proof. intros I. apply in_app_or in I as [I|I]; [apply in_map_iff in I as (c & E & _); discriminate|now apply dollar_bol in I]. Qed.
  Lemma lines_rules s : In s (gr_states R) -> line_rules (g_bytes g) s.
  Proof.
    intros Hs. destruct (lines_state s Hs) as (E1 & E2). constructor; rewrite E1.
    - apply Forall_forall. intros x I. apply (made_rule_fair k g _ NPOS Hbytes lines_proper lines_sliceable 0 x I).
    - apply Forall_forall. intros x I. destruct (lines_rule x I) as (y & _ & W & [_ _ (_ & S2 & S3)]). pose proof (lines_lang x y W) as L.
      intros [H|H]; apply L in H; auto.
    - apply Forall_forall. intros x I. destruct (lines_rule x I) as (y & _ & W & [_ B _]). pose proof (lines_lang x y W) as L.
      destruct (made_vec k _ NPOS lines_proper 0 x I) as (w & E & V). destruct W as ((w' & q & E' & G & _) & _). rewrite E in E'.
      unfold between in E'. injection E' as E'. apply app_inj_tail in E' as [<- _].
      intros u v U. pose proof U as U'. apply L in U'. destruct (B _ U') as (cs & e & [EU|EU]); [exfalso; apply (chars_bol cs e); rewrite <- EU; apply in_or_app; right; now left|]. split.
      { destruct u as [|c u]; [reflexivity|exfalso]. cbn in EU. injection EU as _ EU. apply (chars_bol cs e). rewrite <- EU. apply in_or_app. right. now left. }
      destruct (starts BOL (tl (between w))) eqn:EB.
      + destruct (unsplit_feats k NPOS _ lines_proper) as (_ & _ & F). specialize (F 0%nat). rewrite Forall_forall in F. destruct (F x I) as (F1 & _).
        rewrite E in F1. specialize (F1 EB). rewrite E2. unfold has_bol. unfold bit in F1. now apply negb_true_iff, N.eqb_neq.
      + exfalso. assert (PL : plain_rule x).
        { apply (plain_tokens x w); [exists (tok BEGIN), (tok END); auto|]. apply Forall_forall. intros t Ht Et. apply in_split in Ht. destruct Ht as (u' & v' & ->).
          pose proof (ve_bol _ _ V u' t v' eq_refl Et) as ->. cbn in EB. unfold is_type in EB. rewrite Et in EB. discriminate. }
        apply (PL _ U). apply in_or_app. right. now left.
    - apply Forall_forall. intros x I. destruct (lines_rule x I) as (y & _ & W & _). apply W.
    - intros x1 x2 u v1 v2 c I1 I2 R1 R2 BR. destruct (lines_rule x1 I1) as (y1 & J1 & W1 & _), (lines_rule x2 I2) as (y2 & J2 & W2 & _).
      assert (RD : forall x y w, follows k x y -> reading x w -> sreading (s_sx y) w).
      { intros x y w W [H|(v & -> & H)]; [left|right; exists v; split; [reflexivity|]]; now apply (lines_lang x y W). }
      apply (AP y1 y2 u v1 v2 c J1 J2 (RD _ _ _ W1 R1) (RD _ _ _ W2 R2)). clear - BR Hb Hbytes. unfold breaks in BR. unfold breaking. rewrite Hbytes in BR.
      destruct Hb as [E|E]; rewrite E in BR |- *; unfold enc in BR; cbn [N.eqb Pos.eqb hd] in BR; tauto.
  Qed.
  Lemma lines_substantial : each_rule R substantial.
  Proof.
    intros gs x Hg I. destruct (lines_state gs Hg) as (E1 & _). rewrite E1 in I. destruct (lines_rule x I) as (y & _ & W & [_ _ (S1 & S2 & S3)]). pose proof (lines_lang x y W) as L.
    split; [intros H; apply L in H; auto|intros [H|H]; apply L in H; auto].
  Qed.
  Lemma lines_last : each_rule R dollar_last.
  Proof.
    intros gs x Hg I. destruct (lines_state gs Hg) as (E1 & _). rewrite E1 in I. apply (made_rule_fair k g _ NPOS Hbytes lines_proper lines_sliceable 0 x I).
  Qed.
  Lemma lines_setting res : ready inp res -> fair_setting f kc g R m inp res.
  Proof.
    intros (Q1 & Q2 & Q3). constructor; auto.
    - unfold wide_ok. pose proof lines_pos. lia.
    - exact lines_fair.
    - exact (made_targets k g _ NPOS Hbits Hbytes lines_pos lines_proper).
    - intros gs x Hg I. destruct (lines_state gs Hg) as (E1 & _). rewrite E1 in I. destruct (lines_rule x I) as (y & _ & W & _). destruct W as (_ & _ & _ & _ & _ & _ & _ & ->). discriminate.
    - split; [rewrite lines_one, Q1; reflexivity|]. split; [rewrite Q2; constructor|exact Q3].
  Qed.
  Lemma lines_text x y bol cs : follows k x y -> (rmatch x bol cs <-> smatch y bol cs) /\ (ematch x bol cs <-> send y bol cs).
  Proof. intros W. pose proof (lines_lang x y W) as L. pose proof (follows_anchor k x y W) as HA. unfold rmatch, smatch, ematch, send. destruct bol; rewrite !L, ?HA; tauto. Qed.
  Lemma line_end_iff q : at_line_end inp q <-> line_end inp q.
  Proof. unfold at_line_end, line_end. tauto. Qed.
  Lemma lines_dmatch bol p q x y : follows k x y -> (lmatch kc inp bol p q x <-> dmatch (f_eol kc) inp bol p q y).
  Proof. intros W. destruct (lines_text x y bol (between_pos inp p q) W) as (M1 & M2). unfold lmatch, dmatch. rewrite line_end_iff. change (text_of inp p q) with (between_pos inp p q). tauto. Qed.
  Lemma lines_first (A : grule -> Prop) (B : srule -> Prop) j x : (forall x y, follows k x y -> (A x <-> B y)) -> nth_error rs j = Some x -> A x ->
    (forall j' x', (j' < j)%nat -> nth_error rs j' = Some x' -> ~ A x') -> exists y, first_of xs B y /\ follows k x y.
  Proof.
    intros AB E M U. destruct (nth_follows _ _ _ _ _ lines_follow E) as (y & Ey & W). exists y. split; [|exact W]. exists j. split; [exact Ey|]. split; [now apply (AB x y W)|].
    intros j' z Hj Ez Bz. destruct (nth_follows' _ _ _ _ _ lines_follow Ez) as (x' & Ex & W'). apply (U j' x' Hj Ex). now apply (AB x' z W').
  Qed.
  Lemma lines_longest bol p x q : llongest kc rs inp bol p x q -> exists y, dlongest (f_eol kc) xs inp bol p y q /\ follows k x y.
  Proof.
    intros (L & F & U).
    assert (U' : forall q' y, (q < q' <= length inp)%nat -> In y xs -> ~ dmatch (f_eol kc) inp bol p q' y).
    { intros q' y Hq Hy M. destruct (in_follows _ _ _ _ lines_follow Hy) as (x' & I & W). apply (U q' x' Hq I). now apply (lines_dmatch _ _ _ x' y W). }
    destruct F as [(A & B & j & E & M & D)|((j & E & M & D) & N)].
    - destruct (lines_first (fun x => ematch x bol (text_of inp p q)) (fun y => send y bol (between_pos inp p q)) j x) as (y & F & W); auto.
      { intros x' y' W'. exact (proj2 (lines_text x' y' bol (between_pos inp p q) W')). }
      exists y. split; [|exact W]. split; [exact L|]. split; [|exact U']. left. split; [exact A|]. split; [now apply line_end_iff|exact F].
    - destruct (lines_first (fun x => rmatch x bol (text_of inp p q)) (fun y => smatch y bol (between_pos inp p q)) j x) as (y & F & W); auto.
      { intros x' y' W'. exact (proj1 (lines_text x' y' bol (between_pos inp p q) W')). }
      exists y. split; [|exact W]. split; [exact L|]. split; [|exact U']. right. split; [exact F|]. intros A B z Hz M'. destruct (in_follows _ _ _ _ lines_follow Hz) as (x' & I & W').
      apply (N A (proj2 (line_end_iff q) B) x' I). now apply (lines_text x' z bol (between_pos inp p q) W').
  Qed.
  Lemma lines_none bol p : lnone kc rs inp bol p -> dnone (f_eol kc) xs inp bol p.
  Proof. intros U q y Hq Hy M. destruct (in_follows _ _ _ _ lines_follow Hy) as (x' & I & W). apply (U q x' Hq I). now apply (lines_dmatch _ _ _ x' y W). Qed.
  Lemma lines_plain x y : follows k x y -> gr_pop x = false /\ gr_push x = npos kc.
  Proof. intros (_ & _ & _ & _ & _ & _ & Q1 & Q2). split; [exact Q2|]. rewrite Q1. destruct AG as (-> & _). unfold gnpos, rnpos. now rewrite Hbits. Qed.
  Theorem texts_to_lines res fuel inner : ready inp res -> (length inp < fuel)%nat -> (2 * length inp + 1 < inner)%nat ->
    exists res', lookup fuel inner kc m inp res = Ok (res', None) /\ ready inp res' /\
      dreads (npos kc) (skip_id kc) (f_bol kc) (f_eol kc) xs inp (r_bol res) (r_second res) (r_id res') (r_uid res') (r_first res') (r_second res') (r_bol res').
  Proof.
    intros RD Hf Hi. pose proof (lines_setting res RD) as SE.
    assert (LR : Forall (line_rules (g_bytes g)) (gr_states R)) by (apply Forall_forall; exact lines_rules).
    destruct (line_total f kc g R m inp res SE 1 fuel inner (each_consumes R lines_last lines_substantial) (each_bounded R lines_last) Hf ltac:(lia)) as (res' & o & EL).
    pose proof (lookup_llex f kc g R m inp res SE LR fuel inner) as Q. rewrite EL in Q. destruct Q as [Q _].
    assert (RO : forall st l, rules_of R st l -> l = rs).
    { intros st l (s & Es & <-). apply lines_state. eapply nth_error_In; eauto. }
    assert (NZ : forall x, In x rs -> ~ rmatch x false []).
    { intros x I. destruct (lines_rule x I) as (y & _ & W & [_ _ (S1 & _)]). intros H. apply (lines_lang x y W) in H. auto. }
    assert (HH : forall r x q, lhits kc R inp r x q -> exists y, dlongest (f_eol kc) xs inp (f_bol kc && r_bol r) (r_second r) y q /\ follows k x y).
    { intros r x q (l & Hl & [H|(_ & _ & H)]); rewrite (RO _ _ Hl) in H; [now apply lines_longest|].
      destruct H as (j & Ej & M & _). exfalso. apply (NZ x); [eapply nth_error_In; eauto|exact M]. }
    assert (ET : forall r x r', reats kc inp (lhits kc R inp) r x r' -> ready inp r ->
      exists y, dlongest (f_eol kc) xs inp (f_bol kc && r_bol r) (r_second r) y (r_second r') /\ follows k x y /\ ready inp r' /\ r_bol r' = line (f_bol kc) inp (r_bol r) (r_second r')).
    { intros r x r' (q & H & ST & Eq & Eb) (Q1 & Q2 & Q3). destruct (HH _ _ _ H) as (y & Y1 & Y2). subst q. exists y. split; [exact Y1|]. split; [exact Y2|].
      destruct Y1 as (Y0 & _). destruct (lines_plain x y Y2) as (L1 & L2). split.
      - unfold rstack in ST. rewrite L1, L2, N.eqb_refl in ST. destruct Y2 as (_ & _ & _ & _ & _ & Nx & _). rewrite Nx, Q1, Q2 in ST. unfold ready.
        destruct (f_rec kc); destruct ST as [-> ->]; (split; [|split; [reflexivity|lia]]); destruct (f_multi kc); try reflexivity; destruct (Nat.ltb _ _); reflexivity.
      - rewrite Eb. unfold line, bol_at. destruct (f_bol kc); [|reflexivity]. replace (Nat.eqb (r_second r) (r_second r')) with false; [reflexivity|]. symmetry. apply Nat.eqb_neq. lia. }
    exists res'. assert (G : forall first r r' o', rlooks kc R inp (lhits kc R inp) (lmisses kc R inp) first r r' o' -> ready inp r -> first = r_second r ->
      o' = None /\ ready inp r' /\ dreads (npos kc) (skip_id kc) (f_bol kc) (f_eol kc) xs inp (r_bol r) (r_second r) (r_id r') (r_uid r') (r_first r') (r_second r') (r_bol r')).
    { induction 1 as [first r r' H1 H2|first r x r' H1 H2 H3 H4 H5 H6 H7|first r x r1 r' o' H1 H2 H3 H4 IH|first r x r1 r' o' H1 H2 H3 H4 H5 IH|first r c r' H1 H2 H3|first r x q r' H1 H2 H3 H4 H5]; intros RY EF.
      - subst r' first. cbn. split; [reflexivity|]. split; [exact RY|]. now apply dd_end.
      - destruct (ET _ _ _ H2 RY) as (y & Y1 & Y2 & Y3 & Y4). split; [reflexivity|]. split; [exact Y3|]. destruct Y2 as (_ & _ & _ & I1 & I2 & _).
        rewrite H5, H6, H7, EF, Y4, I1, I2. apply dd_token; [exact Y1|congruence].
      - destruct (ET _ _ _ H2 RY) as (y & Y1 & Y2 & Y3 & Y4). destruct (IH Y3 eq_refl) as (A1 & A2 & A3). split; [exact A1|]. split; [exact A2|].
        destruct Y2 as (_ & _ & _ & I1 & _). rewrite Y4 in A3. eapply dd_skip; [exact Y1|congruence|exact A3].
      - exfalso. destruct (ET _ _ _ H2 RY) as (y & Y1 & Y2 & Y3 & Y4). destruct (lines_plain x y Y2) as (L1 & _). destruct H4 as [H4|(_ & H4 & _)]; [|congruence].
        destruct (dlongest_match _ _ _ _ _ _ _ Y1) as (I & _). rewrite Forall_forall in Hx. destruct (Hx y I) as [[_ _ _ (I0 & _)] _ _]. destruct Y2 as (_ & _ & _ & I1 & _).
        apply I0. rewrite <- I1. exact H4.
      - subst r'. cbn. rewrite Adv. split; [reflexivity|]. destruct RY as (Q1 & Q2 & Q3). assert (LT : (r_second r < length inp)%nat) by (apply nth_error_Some; congruence).
        split; [split; [exact Q1|split; [exact Q2|cbn; lia]]|]. destruct H2 as (l & Hl & NN & _). rewrite (RO _ _ Hl) in NN. apply dd_none; [exact H1|]. now apply lines_none.
      - exfalso. destruct (HH _ _ _ H2) as (y & _ & Y2). destruct (lines_plain x y Y2) as (L1 & _). congruence. }
    destruct (G _ _ _ _ Q RD eq_refl) as (-> & A1 & A2). auto.
  Qed.
End Lexer.
Theorem lines_succeed k fl mds xs y : 1 < rnpos k -> smacros_ok k fl mds -> Forall (text_says k fl mds) (xs ++ [y]) ->
  snd (push_rule k (s_text y) (s_id y) (s_uid y) (push_all k fl mds xs)) = Ok tt.
Proof.
  intros NP MO F. apply Forall_app in F as [F Fy]. inversion Fy as [|? ? Hy _]; subst. destruct (push_all_said k fl NP mds xs MO F) as (P & Efl & _ & MT & _).
  destruct (unsplit_feats k NP _ P) as (A & _). now destruct (push_said k fl NP mds y _ P Efl MT Hy) as (S & _).
Qed.
Theorem lines_all_tokens k g kc fl mds xs f m inp : 1 < rnpos k -> g_bits g = r_bits k -> g_bytes g = r_bytes k -> r_bytes k = 1 \/ r_bytes k = 2 ->
  agree kc g -> smacros_ok k fl mds -> Forall (lrule_ok k fl mds) xs -> sapart (r_bytes k) xs ->
  (forall s, In s (gr_states (grules_of (push_all k fl mds xs))) -> N.of_nat (length (all_sets (g_bytes g) s)) < eol_tok g) ->
  build f g (grules_of (push_all k fl mds xs)) = Ok m -> f_adv kc = true -> Forall (fits (c_bytes kc)) inp ->
  exists l, tokens (dreads (npos kc) (skip_id kc) (f_bol kc) (f_eol kc) xs inp) true 0 l /\
    (forall l', tokens (dreads (npos kc) (skip_id kc) (f_bol kc) (f_eol kc) xs inp) true 0 l' -> l' = l) /\
    forall n fuel inner, (length inp < n)%nat -> (length inp < fuel)%nat -> (2 * length inp + 1 < inner)%nat ->
      (exists rs, visit_all n fuel inner kc m inp 0 true 0 = Ok (rs, None) /\ map seen rs = l) /\
      forall fm out, replace n fuel inner kc m inp fm insert out = Ok (out ++ rewritten inp fm 0 l).
Proof.
  intros NP Hbits Hbytes Hb AG MO Hx AP Sets HB Adv HI. set (rd := dreads (npos kc) (skip_id kc) (f_bol kc) (f_eol kc) xs inp).
  assert (ST : forall fuel inner, (length inp < fuel)%nat -> (2 * length inp + 1 < inner)%nat -> forall res, ready inp res ->
    exists res', lookup fuel inner kc m inp res = Ok (res', None) /\ ready inp res' /\ rd (r_bol res) (r_second res) (r_id res') (r_uid res') (r_first res') (r_second res') (r_bol res')).
  { intros fuel inner Hf Hi res RY. exact (texts_to_lines k g kc fl mds xs f m inp NP Hbits Hbytes Hb AG MO Hx AP Sets HB Adv HI res fuel inner RY Hf Hi). }
  assert (PR : forall bol p id uid i j b, (p <= length inp)%nat -> rd bol p id uid i j b -> (id = 0 /\ i = length inp) \/ (id <> 0 /\ (p <= i < j)%nat /\ (j <= length inp)%nat)).
  { intros bol p id uid i j b Lp H. refine (dreads_prog _ _ _ _ _ _ _ _ _ _ _ _ _ _ _ Lp H).
    - destruct AG as (-> & _). unfold gnpos. rewrite Hbits. change (rnpos k <> 0). lia.
    - eapply Forall_impl; [|exact Hx]. intros x [[_ _ _ (I & _)] _ _]. exact I. }
  assert (DT : determined rd).
  { intros bol p id uid i j b id' uid' i' j' b' H1 H2. exact (dreads_det _ _ _ _ _ _ _ _ _ _ _ _ _ H1 _ _ _ _ _ H2). }
  destruct (visit_all_list kc m inp (S (length inp)) (S (2 * length inp + 1)) rd (ST _ _ (Nat.lt_succ_diag_r _) (Nat.lt_succ_diag_r _)) PR 0%nat true (S (length inp)) ltac:(lia) ltac:(lia)) as (rs0 & _ & T).
  exists (map seen rs0). split; [exact T|]. split; [intros l' T'; exact (tokens_det rd DT _ _ _ T' _ T)|]. intros n fuel inner L1 L2 L3. split.
  - destruct (visit_all_list kc m inp fuel inner rd (ST _ _ L2 L3) PR 0%nat true n ltac:(lia) L1) as (rs & V & T'). exists rs. split; [exact V|]. exact (tokens_det rd DT _ _ _ T' _ T).
  - intros fm out. destruct (replace_all kc m inp fuel inner rd (ST _ _ L2 L3) PR fm n out L1) as (l' & V & T'). rewrite V. now rewrite (tokens_det rd DT _ _ _ T' _ T).
Qed.
