(** lookup() with abstemious repeats: a match is given up only for one of an
    abstemious rule. *)
From Verif Require Import Base StringToken StringTokenSpec StringTokenProofs RegexSpec StateMachine Slice
  ReToken DfaSpec Grammar Tree TreeSpec Glushkov TreeProofs Partition Parser Generator GenMap Build ParserTree
  ParserKeys ParserSound ParserLoop TreeWords ParserRule Lookup TableSpec LookupSpec LookupThms LookupTile
  RuleSpec RuleWords BuildSpec BolWords BuildTree GenRules GenTable GenWalk GenLookup GenCut BuildState BuildFuel
  BuildMachine BuildThms BuildLookup BuildErrs LazySpec.
Local Open Scope N_scope.

Section State.
  Variables (k : cfg) (g : gcfg) (gs : gstate) (t : table) (inp : list N).
  Hypothesis NP : npos k = gnpos g.
  Hypothesis CB : c_bytes k = g_bytes g.
  Hypothesis SW : state_wf g gs.
  Hypothesis TB : state_table g gs t.
  Hypothesis FI : Forall (fits (c_bytes k)) inp.
  Let rs := gs_rules gs.
  Hypothesis LN : forall x, In x rs -> ~ eager x -> ~ natural x true [].
  Let seen := has_bol (gs_features gs).

  Lemma sees_seen s ds n bol : recognises g (ps_map s) (snd (ps_tree s)) ds t n ->
    (forall b, cell t 0 0 = Some b -> b <> 0 -> seen = true) -> sees_bol k t bol = true -> seen = true.
  Proof.
    intros RC HB E. unfold sees_bol in E. apply andb_true_iff in E as [_ E]. destruct (cell t 0 0) as [v|] eqn:Ec; [|discriminate].
    apply negb_true_iff, N.eqb_neq in E. eauto.
  Qed.
  (** The rule of a state where transitions are given up. *)
  Lemma lazy_first s ds b cs : Forall2 (stands g seen s) rs ds -> Forall (fits (g_bytes g)) cs ->
    (b = true -> seen = true) -> lazy_at g (ps_map s) ds (word (g_bytes g) b cs) ->
    exists x, rfirst_match rs b cs x /\ ~ eager x.
  Proof.
    intros ST Fc HS (d & F & EG). pose proof (state_bols g gs SW) as RB.
    apply (first_match_iff g seen s rs ds ST) in F as (j & Ed & FA); auto.
    pose proof FA as [(x & Ex & Mx) _]. exists x. split; [apply rfirst_at; eauto|].
    intros EA. destruct (stands_nth g _ s rs ds ST j x d Ex Ed) as [[_ (v & gr & E & HE)] _].
    rewrite E in EG. rewrite (HE EA) in EG. discriminate.
  Qed.
  Lemma lazy_not_empty s ds b : Forall2 (stands g seen s) rs ds -> (b = true -> seen = true) ->
    ~ lazy_at g (ps_map s) ds (word (g_bytes g) b []).
  Proof.
    intros ST HS H. apply (lazy_first s ds b []) in H as (x & (j & Ex & Mx & _) & NE); auto.
    apply (LN x (nth_error_In _ _ Ex) NE). eapply rmatch_natural; eauto.
  Qed.

  Lemma sees_no_anchor bol r : In r rs -> f_bol k && bol = true -> sees_bol k t bol = false -> ~ has_anchor r.
  Proof.
    pose proof (state_bols g gs SW) as RB.
    destruct TB as (s & ds & n & RC & Hn & ST & NL & HB). intros Hr Eb Es HA. unfold sees_bol in Es. rewrite Eb in Es.
    destruct (rc_cell0 _ _ _ _ _ _ RC) as (v & Ev & _). rewrite Ev in Es. cbn [andb] in Es.
    destruct (N.eqb_spec v 0) as [E0|E0]; [subst v|discriminate].
    apply In_nth_error in Hr as (j & Er). destruct (stands_tree g _ s rs ds ST j r Er) as (d & Ed).
    destruct (anchor_lang g _ s rs ds ST j r d Er Ed HA) as (w & Hw).
    apply (lazy_not_empty s ds false ST); [discriminate|]. cbn.
    apply (rc_bol_stop _ _ _ _ _ _ RC d w Ev); [eapply nth_error_In; eauto|exact Hw].
  Qed.
  Lemma sees_match_lazy bol r cs : In r rs -> Forall (fits (g_bytes g)) cs ->
    (rmatch r (sees_bol k t bol) cs <-> rmatch r (f_bol k && bol) cs).
  Proof.
    pose proof (state_bols g gs SW) as RB.
    destruct TB as (s & ds & n & RC & Hn & ST & NL & HB). intros Hr Fc. unfold sees_bol.
    destruct (f_bol k && bol) eqn:Eb; cbn [andb]; [|reflexivity].
    destruct (rc_cell0 _ _ _ _ _ _ RC) as (v & Ev & _). rewrite Ev.
    destruct (N.eqb_spec v 0) as [E0|E0]; cbn [negb]; [|reflexivity]. subst v.
    assert (seen = true \/ seen = false) as [Es|Es] by (destruct seen; auto).
    - apply In_nth_error in Hr as (j & Er). destruct (stands_tree g _ s rs ds ST j r Er) as (d & Ed).
      split; [intros H; right; split; [|exact H]; intros HA|intros M; exfalso].
      { destruct (anchor_lang g _ s rs ds ST j r d Er Ed HA) as (w & Hw).
        apply (lazy_not_empty s ds false ST); [discriminate|]. cbn.
        apply (rc_bol_stop _ _ _ _ _ _ RC d w Ev); [eapply nth_error_In; eauto|exact Hw]. }
      apply (lazy_not_empty s ds false ST); [discriminate|]. cbn.
      apply (rc_bol_stop _ _ _ _ _ _ RC d (map SByte (flat_map (enc (g_bytes g)) cs)) Ev); [eapply nth_error_In; eauto|].
      apply (lang_match g seen s rs ds ST j r d true cs); auto.
    - symmetry. apply (match_unseen seen rs RB); auto.
  Qed.

  (** Words of rules are whole characters. *)
  Lemma words_whole s ds : Forall2 (stands g seen s) rs ds -> forall d (bol : bool) bs, In d ds ->
    Forall (fun b => b < 256) bs -> dr_lang g (ps_map s) d ((if bol then [SBol] else []) ++ map SByte bs) ->
    exists cs, bs = bytes_of k cs.
  Proof.
    intros ST d bol bs Hd Hb HL. pose proof (state_bols g gs SW) as RB.
    assert (TX : texty ((if bol then [SBol] else []) ++ map SByte bs)) by (exists bs; split; [auto|destruct bol; auto]).
    destruct (lang_text g seen s rs ds ST RB d _ Hd TX HL) as (b' & cs & E & _).
    exists cs. assert (E2 : bytes_of k cs = flat_map (enc (g_bytes g)) cs).
    { unfold bytes_of, char_bytes, enc. rewrite CB. reflexivity. }
    rewrite E2. unfold word in E.
      assert (IJ : forall (a b : list N), map SByte a = map SByte b -> a = b).
      { induction a as [|x a IH]; intros [|y b]; cbn; intros X; try discriminate; auto. injection X as -> X. f_equal. auto. }
      destruct bol, b'; cbn [app] in E.
      + injection E as E. auto.
      + destruct (flat_map (enc (g_bytes g)) cs); discriminate.
      + destruct bs; discriminate.
      + auto.
  Qed.

  Theorem state_takes bol p row q : matches k t inp bol p row q ->
    exists x, In x rs /\ rtakes rs inp (f_bol k && bol) p x q /\ rule_row t row x.
  Proof.
    pose proof (sees_match_lazy bol) as SM. pose proof (state_bols g gs SW) as RB.
    pose proof (text_fits k g inp CB FI) as TF.
    intros M. destruct (state_sound k g gs t inp NP CB SW TB FI bol p row q M) as (Hpq & _).
    destruct TB as (s & ds & n & RC & Hn & ST & NL & HB). assert (NR : n <= npos k) by (rewrite NP; lia).
    pose proof (fits_chars k inp FI) as CO.
    destruct (matches_sound k g _ _ ds t n RC NP NR inp CO bol p row q M) as (_ & d & Hd & F & D).
    pose proof (sees_seen s ds n bol RC HB) as HS. rewrite (word_word k g inp CB) in F.
    apply (first_match_iff g seen s rs ds ST) in F as (j & Ed & FA); auto.
    pose proof FA as [(x & Ex & Mx) HN].
    assert (FM : rfirst_match rs (f_bol k && bol) (text_of inp p q) x).
    { exists j. split; [auto|]. split.
      - apply SM; auto. eapply nth_error_In; eauto.
      - intros j' r' Hj Er' M'. apply (HN j' r' Hj Er'). apply SM; auto. eapply nth_error_In; eauto. }
    exists x. split; [eapply nth_error_In; eauto|]. split.
    - split; [auto|]. split; [auto|]. intros EA. split; [auto|]. split; [auto|].
      intros q' r' Hq Hr' M'. apply SM in M'; auto.
      apply In_nth_error in Hr' as (j' & Er'). destruct (stands_tree g _ s rs ds ST j' r' Er') as (d' & Ed').
      pose proof (matches_cut k g _ _ ds t n RC NP NR inp CO (words_whole s ds ST) bol p row q M q' d' Hq
        (nth_error_In _ _ Ed')) as HC. rewrite !(word_word k g inp CB) in HC.
      apply (lazy_first s ds _ _ ST) in HC as (y & (i & Ey & My & Hy) & NE); auto.
      + destruct (lt_eq_lt_dec i j) as [[L| ->]|L].
        * apply (HN i y L Ey My).
        * congruence.
        * apply (Hy j x L Ex Mx).
      + apply (lang_match g seen s rs ds ST j' r' d'); auto.
    - eapply rule_data; [|eauto]. eapply (stands_nth g _ s rs ds ST); eauto.
  Qed.
  Theorem state_none_lazy bol p : (p <= length inp)%nat -> unmatched k t inp bol p -> rnone rs inp (f_bol k && bol) p.
  Proof.
    pose proof (sees_match_lazy bol) as SM. pose proof (state_bols g gs SW) as RB.
    pose proof (text_fits k g inp CB FI) as TF. pose proof (fits_chars k inp FI) as CO.
    intros Hp U q r Hq Hr M.
    destruct TB as (s & ds & n & RC & Hn & ST & NL & HB). assert (NR : n <= npos k) by (rewrite NP; lia).
    pose proof (sees_seen s ds n bol RC HB) as HS. apply SM in M; auto.
    apply In_nth_error in Hr as (j & Er). destruct (stands_tree g _ s rs ds ST j r Er) as (d & Ed).
    apply (lazy_not_empty s ds (sees_bol k t bol) ST HS). rewrite <- (text_of_nil inp p).
    rewrite <- (word_word k g inp CB).
    apply (unmatched_cut k g _ _ ds t n RC NP NR inp CO (words_whole s ds ST) bol p U Hp q d Hq (nth_error_In _ _ Ed)).
    rewrite (word_word k g inp CB). apply (lang_match g seen s rs ds ST j r d); auto.
  Qed.
End State.

Section Machine.
  Variables (k : cfg) (g : gcfg) (R : grules) (m : internals).
  Hypothesis AG : agree k g.
  Hypothesis RW : rules_wf g R.
  Hypothesis MO : machine_ok g R m.
  Hypothesis LN : lazy_nonempty R.
  Variable inp : list N.
  Hypothesis FI : Forall (fits (c_bytes k)) inp.

  Lemma hits_lazy r e push next id uid q : (r_second r <= length inp)%nat -> hits k m inp r e push next id uid q ->
    exists x, rhits_lazy k R inp r x q /\ row_of x (Nat.ltb (r_second r) q) r e push next id uid.
  Proof.
    destruct AG as [NP CB]. intros Hp (t & Et & H). destruct (table_state g R m RW MO _ _ Et) as (gs & Eg & Hg & SW & TB).
    assert (LG : forall x, In x (gs_rules gs) -> ~ eager x -> ~ natural x true []) by (intros; eapply LN; eauto).
    destruct H as [(row & HM & D1 & D2 & D3 & D4 & D5)|(HU & -> & He & D1 & D2 & -> & D4 & D5)].
    - destruct (state_takes k g gs t inp NP CB SW TB FI LG _ _ _ _ HM) as (x & Hx & HL & e' & F1 & F2 & F3 & F4 & F5 & F6 & F7).
      exists x. split; [exists (gs_rules gs); split; [exists gs; auto|]; left; auto|].
      assert (Ql : (r_second r < q)%nat) by (destruct HL as [[? ?] _]; auto). apply Nat.ltb_lt in Ql. rewrite Ql.
      rewrite D1 in F1. injection F1 as <-. unfold row_of. intuition congruence.
    - destruct (proj1 (row1 g gs t SW TB)) as (x & FM & e' & F1 & F2 & F3 & F4 & F5 & F6 & F7); [exists e; auto|].
      exists x. split.
      + exists (gs_rules gs). split; [exists gs; auto|]. right. split; [|auto].
        apply (state_none_lazy k g gs t inp); auto.
      + rewrite Nat.ltb_irrefl. rewrite D1 in F1. injection F1 as <-. unfold row_of. intuition congruence.
  Qed.
  Lemma misses_lazy r : (r_second r <= length inp)%nat -> misses k m inp r -> rmisses k R inp r.
  Proof.
    destruct AG as [NP CB]. intros Hp (t & Et & HU & E1). destruct (table_state g R m RW MO _ _ Et) as (gs & Eg & Hg & SW & TB).
    assert (LG : forall x, In x (gs_rules gs) -> ~ eager x -> ~ natural x true []) by (intros; eapply LN; eauto).
    exists (gs_rules gs). split; [exists gs; auto|]. split; [apply (state_none_lazy k g gs t inp); auto|].
    apply (row1 g gs t SW TB). intros (e & Ee & He). congruence.
  Qed.
  Theorem looks_lazy first r r' o : looks k m inp first r r' o -> rlex_lazy k R inp first r r' o.
  Proof.
    apply (looks_any k R m inp (proj1 MO)).
    - intros. now apply hits_lazy.
    - intros. now apply misses_lazy.
  Qed.
End Machine.

Theorem lookup_lazy f k g R m inp r fuel inner : setting f k g R m inp r -> lazy_nonempty R ->
  match lookup fuel inner k m inp r with
  | Ok (r', o) => rlex_lazy k R inp (r_second r) r r' o /\ in_range R inp r'
  | Fuel => True
  | _ => False
  end.
Proof.
  intros SE LN.
  pose proof (lookup_looks fuel inner k m inp r (se_mwf f k g R m inp r SE) (se_chars f k g R m inp r SE) (se_rwf f k g R m inp r SE)) as H.
  destruct (lookup fuel inner k m inp r) as [[r' o]| | |]; auto. destruct H as [H1 H2].
  split; [|now apply (se_range f k g R m inp r SE)].
  pose proof (se_machine f k g R m inp r SE). destruct SE. eapply looks_lazy; eauto.
Qed.

(** If build() rejects rules that match nothing, only rules that begin with ^ are
    left to look at. *)
Theorem lazy_nonempty_plain f g R m : wide_ok g -> rules_wf g R -> zero_len_ok (gr_flags R) = false ->
  build f g R = Ok m ->
  (forall gs x, In gs (gr_states R) -> In x (gs_rules gs) -> ~ eager x -> plain_rule x) -> lazy_nonempty R.
Proof.
  intros WO RW Z B P gs x Hg Hx NE M. apply natural_rmatch, (plain_match x true []) in M; try (left; eapply P; eauto); [|eapply P; eauto].
  eapply (zero_len_complete f g R m); eauto.
Qed.

Lemma rhits_lazy_in k R inp r x q : rhits_lazy k R inp r x q -> exists rs, rules_of R (r_state r) rs /\ In x rs.
Proof.
  intros (rs & O & [(_ & F & _)|(_ & _ & F)]); exists rs; split; auto; eapply first_in; eauto.
Qed.

(** No rule is skipped or joined, no recursion. *)
Section Simple.
  Variables (f : nat) (k : cfg) (g : gcfg) (R : grules) (m : internals) (inp : list N) (r : results).
  Hypothesis SE : setting f k g R m inp r.
  Hypothesis LN : lazy_nonempty R.
  Hypothesis NR : f_rec k = false.
  Hypothesis ID : ids_plain k R.
  Variables (fuel inner : nat) (r' : results) (o : option err).
  Hypothesis HL : lookup fuel inner k m inp r = Ok (r', o).
  Theorem lazy_takes rs x0 q0 : rules_of R (r_state r) rs -> In x0 rs -> (r_second r < q0 <= length inp)%nat ->
    rmatch x0 (f_bol k && r_bol r) (text_of inp (r_second r) q0) ->
    o = None /\ r_first r' = r_second r /\
    exists x, rtakes rs inp (f_bol k && r_bol r) (r_second r) x (r_second r') /\
      r_id r' = gr_id x /\ r_uid r' = gr_uid x /\ r_state r' = (if f_multi k then gr_next x else r_state r).
  Proof.
    intros O Hx Hq M. pose proof (lookup_lazy f k g R m inp r fuel inner SE LN) as Q. rewrite HL in Q. destruct Q as [Q _].
    unfold rlex_lazy in Q. apply rlooks_simple in Q; auto; [|intros; eapply rhits_lazy_in; eauto].
    destruct Q as (-> & E1 & _ & [(E & _)|[(x & Hp & (rs' & O' & HX) & I1 & I2 & I3 & _)|(c & _ & (rs' & O' & HN & _) & _)]]).
    - exfalso. lia.
    - split; [auto|]. split; [auto|]. rewrite (rules_of_det _ _ _ _ O' O) in HX. destruct HX as [HX|(HN & _)].
      + exists x. split; [auto|]. split; [auto|]. split; [auto|]. rewrite I3.
        destruct HX as ((H & _) & _). apply Nat.ltb_lt in H. rewrite H, andb_true_r. auto.
      + exfalso. eapply HN; eauto.
    - exfalso. rewrite (rules_of_det _ _ _ _ O' O) in HN. eapply HN; eauto.
  Qed.
End Simple.
