(** lookup() stops at the first match of a rule with one abstemious repeat of
    characters when no other rule goes on. *)
From Verif Require Import Base StringToken StringTokenSpec StringTokenProofs RegexSpec StateMachine Slice
  ReToken DfaSpec Grammar Tree TreeSpec Glushkov TreeProofs Partition Parser Generator GenMap Build ParserTree
  ParserKeys ParserSound ParserLoop TreeWords ParserRule Lookup TableSpec LookupSpec LookupThms LookupTile
  RuleSpec RuleWords BuildSpec BolWords BuildTree GenRules GenTable GenWalk GenLookup GenCut BuildState BuildFuel
  BuildMachine BuildThms BuildLookup BuildErrs LazySpec LazyLookup GenLoop LoopSpec LoopBuild StopSpec.
Local Open Scope N_scope.

(** Words that begin with a character, perhaps after ^, are texts. *)
Lemma long_word g gs s ds : state_wf g gs ->
  Forall2 (stands g (has_bol (gs_features gs)) s) (gs_rules gs) ds ->
  forall j d (bol : bool) c bs w', nth_error ds j = Some d ->
  dr_lang g (ps_map s) d ((if bol then [SBol] else []) ++ map SByte (c :: bs) ++ w') ->
  exists cs, (if bol then [SBol] else []) ++ map SByte (c :: bs) ++ w' = word (g_bytes g) bol cs /\
    Forall (fits (g_bytes g)) cs /\ (bol = true -> has_bol (gs_features gs) = true).
Proof.
  intros SW ST j d bol c bs w' Ed HL. set (seen := has_bol (gs_features gs)) in *.
  assert (RB := state_bols g gs SW).
  destruct (stands_rule g seen s _ ds ST j d Ed) as (r & Er).
  destruct (stands_nth g seen s _ ds ST j r d Er Ed) as [[(ts & o & T & G & TO & W) _] Hr].
  assert (NE : no_eol ts).
  { destruct SW as [F _]. rewrite Forall_forall in F. destruct (rw_tokens _ _ _ (F r Hr)) as (ts' & T' & _ & _ & NE).
    now rewrite (rule_tokens_unique r ts ts' T T'). }
  pose proof HL as HW. apply W in HW.
  assert (BY : Forall (fun a => exists b, a = SByte b) w').
  { apply Forall_forall. intros a Ha. apply in_split in Ha as (l1 & l2 & ->). destruct a as [b| |]; [eauto| |]; exfalso.
    - assert (X : (if bol then [SBol] else []) ++ map SByte (c :: bs) ++ l1 = []).
      { apply (words_bol (g_bytes g) seen r ts o T G (RB r Hr) _ l2). now rewrite <- !app_assoc. }
      destruct bol; discriminate.
    - eapply (words_no_eol (g_bytes g) seen ts o); eauto. rewrite !in_app_iff. right. right. right. now left. }
  assert (E : exists bs', w' = map SByte bs').
  { clear - BY. induction BY as [|a w (b & ->) F (bs & ->)]; [exists []; auto|exists (b :: bs); auto]. }
  destruct E as (bs' & ->). clear BY. rewrite <- map_app in HL, HW |- *.
  assert (FI : forall x, oclang o x -> fitw (g_bytes g) x) by (intros x C; eapply ogram_fits; eauto).
  assert (FC : forall y cs, fitw (g_bytes g) (y ++ map CChar cs) -> Forall (fits (g_bytes g)) cs).
  { intros y cs F. unfold fitw in F. apply Forall_app in F as [_ F]. apply Forall_map in F. auto. }
  destruct HW as [HW|(Es & NB & v & E & HW)].
  - apply olang_oclang in HW as (x & C & E). symmetry in E.
    apply encw_text in E as (cs & -> & E). exists cs. unfold word. rewrite <- E. split; [auto|]. split; [eapply FC; eauto|].
    intros ->. apply (o_rule r ts o T G) in C. apply (RB r Hr [] _ C).
  - destruct bol; [|discriminate]. cbn [app] in E. injection E as E.
    apply olang_oclang in HW as (x & C & E2). rewrite E2 in E. symmetry in E.
    change (SByte c :: map SByte (bs ++ bs')) with ((if false then [SBol] else []) ++ map SByte (c :: bs ++ bs')) in E.
    apply encw_text in E as (cs & -> & E). exists cs. unfold word. cbn [app] in E |- *. rewrite <- E. split; [auto|].
    split; [|auto]. apply (FC []). auto.
Qed.

Section State.
  Variables (k : cfg) (g : gcfg) (gs : gstate) (t : table) (inp : list N).
  Hypothesis NP : npos k = gnpos g.
  Hypothesis CB : c_bytes k = g_bytes g.
  Hypothesis SB : g_bytes g = 1.
  Hypothesis SW : state_wf g gs.
  Hypothesis TB : state_table g gs t.
  Hypothesis LB : loop_state_table g gs t.
  Hypothesis FI : Forall (fits (c_bytes k)) inp.
  Let rs := gs_rules gs.
  Hypothesis LN : forall x, In x rs -> ~ eager x -> ~ natural x true [].
  Let seen := has_bol (gs_features gs).

  Lemma enc_one cs : flat_map (enc (g_bytes g)) cs = cs.
  Proof. rewrite SB. induction cs as [|c cs IH]; [auto|]. cbn [flat_map]. rewrite IH. reflexivity. Qed.
  Lemma bytes_one cs : bytes_of k cs = cs.
  Proof.
    unfold bytes_of, char_bytes. rewrite CB, SB. induction cs as [|c cs IH]; [auto|]. cbn [flat_map]. rewrite IH. reflexivity.
  Qed.

  Theorem state_stop bol p row q : matches k t inp bol p row q ->
    forall q1 y, (p <= q1 < q)%nat -> ~ rstops rs inp (f_bol k && bol) p q1 y.
  Proof.
    pose proof (sees_match_lazy k g gs t SW TB LN bol) as SM. pose proof (state_bols g gs SW) as RB.
    pose proof (text_fits k g inp CB FI) as TF. pose proof (fits_chars k inp FI) as CO.
    destruct LB as (s & ds & n & RC & ST & ND & HB & DR & LO & _).
    intros (start & b & Hs & (HV & _) & Eb1 & Eb2) q1 y Hq (i & Ey & LR & My & HF & HO).
    destruct TB as (s0 & ds0 & n0 & RC0 & Hn0 & _). assert (NR : n0 <= npos k) by (rewrite NP; lia).
    apply (vplus_walk k g _ _ ds0 t n0 RC0 NP NR) in HV as (_ & Hpq & Hw); auto. cbn [cpos crow fst snd] in Hpq, Hw.
    rewrite Eb2 in Hpq, Hw. rewrite Eb1 in Hw. clear b Eb1 Eb2.
    destruct (nth_error inp q1) as [c|] eqn:Ec; [|apply nth_error_None in Ec; lia].
    rewrite (text_of_split inp p q1 q) in Hw by lia. rewrite (text_of_split inp q1 (S q1) q) in Hw by lia.
    rewrite (text_of_one _ _ _ Ec) in Hw. rewrite bytes_one in Hw.
    apply walk_app in Hw as (row1 & W1 & W2). apply walk_app in W2 as (row2 & W2 & _).
    assert (HS : sees_bol k t bol = true -> seen = true).
    { intros E. unfold sees_bol in E. apply andb_true_iff in E as [_ E]. destruct (cell t 0 0) as [v|] eqn:E0; [|discriminate].
      apply negb_true_iff, N.eqb_neq in E. eauto. }
    apply start_from in Hs. set (sb := sees_bol k t bol) in *.
    destruct (stands_tree g _ s rs ds ST i y Ey) as (d & Ed).
    destruct (LO SB i y d Ey Ed LR) as (pre & loop & post & LP).
    assert (Fc : forall a, In a inp -> a < 256).
    { intros a Ha. assert (X := FI). rewrite Forall_forall in X. specialize (X a Ha). unfold fits in X. rewrite CB, SB in X. exact X. }
    refine (DR d pre loop post start _ (map SByte (text_of inp p q1)) row1 c row2 LP Hs _ _ _ _ _ _).
    - apply Forall_map. apply Forall_forall. intros a Ha. cbn. pose proof (TF p q1) as X. rewrite Forall_forall in X.
      specialize (X a Ha). unfold fits in X. rewrite SB in X. exact X.
    - now apply swalk_walk.
    - apply Fc. eapply nth_error_In; eauto.
    - replace ((if sb then [SBol] else []) ++ map SByte (text_of inp p q1)) with (word (g_bytes g) sb (text_of inp p q1))
        by (unfold word; now rewrite enc_one).
      apply (first_match_iff g seen s rs ds ST); auto. exists i. split; [auto|]. split.
      + exists y. split; [auto|]. apply SM; auto. eapply nth_error_In; eauto.
      + intros j' r' Hj Er' M'. apply (HF j' r' Hj Er'). apply SM; auto. eapply nth_error_In; eauto.
    - intros d' w' Hd' NEd HL. apply In_nth_error in Hd' as (j & Ed').
      assert (NEj : j <> i) by (intros ->; congruence).
      destruct (stands_rule g _ s rs ds ST j d' Ed') as (r' & Er').
      assert (Q : exists c0 bs, text_of inp p q1 ++ [c] = c0 :: bs).
      { destruct (text_of inp p q1) as [|c0 l]; cbn; eauto. }
      destruct Q as (c0 & bs & EQ).
      replace (map SByte (text_of inp p q1) ++ SByte c :: w') with (map SByte (c0 :: bs) ++ w') in HL
        by (rewrite <- EQ, map_app, <- app_assoc; reflexivity).
      destruct (long_word g gs s ds SW ST j d' sb c0 bs w' Ed' HL) as (cs & E & Fcs & _).
      rewrite E in HL. apply (lang_match g seen s rs ds ST j r' d') in HL; auto.
      apply SM in HL; [|eapply nth_error_In; eauto|auto].
      assert (X : exists cs', cs = text_of inp p q1 ++ c :: cs').
      { unfold word in E. rewrite enc_one in E. apply app_inv_head in E. rewrite <- EQ in E.
        assert (IJ : forall (a b : list N) w, map SByte a ++ w = map SByte b -> exists b', b = a ++ b').
        { induction a as [|x a IH]; intros b w X; [exists b; auto|]. destruct b as [|y0 b]; [discriminate|].
          cbn in X. injection X as <- X. destruct (IH b w X) as (b' & ->). exists b'. auto. }
        destruct (IJ _ _ _ E) as (b' & ->). exists b'. now rewrite <- app_assoc. }
      destruct X as (cs' & ->). eapply HO; eauto.
    - apply (swalk_walk t row1 [c]). auto.
  Qed.
End State.

Section Machine.
  Variables (k : cfg) (g : gcfg) (R : grules) (m : internals).
  Hypothesis AG : agree k g.
  Hypothesis SB : g_bytes g = 1.
  Hypothesis RW : rules_wf g R.
  Hypothesis MO : machine_ok g R m.
  Hypothesis LM : loops_machine g R m.
  Hypothesis LN : lazy_nonempty R.
  Variable inp : list N.
  Hypothesis FI : Forall (fits (c_bytes k)) inp.

  Lemma hits_stop r e push next id uid q : (r_second r <= length inp)%nat -> hits k m inp r e push next id uid q ->
    exists x, rhits_stop k R inp r x q /\ row_of x (Nat.ltb (r_second r) q) r e push next id uid.
  Proof.
    intros Hp H. pose proof AG as [NP CB].
    destruct (hits_lazy k g R m AG RW MO LN inp FI r e push next id uid q Hp H) as (x & (rs & O & D) & RO).
    exists x. split; [|auto]. exists rs. split; [auto|]. destruct D as [D|D]; [left|now right]. split; [auto|].
    destruct H as (t & Et & H). destruct (table_state g R m RW MO _ _ Et) as (gs & Eg & Hg & SW & TB).
    assert (LG : forall x, In x (gs_rules gs) -> ~ eager x -> ~ natural x true []) by (intros; eapply LN; eauto).
    destruct (LM _ _ Eg) as (t' & Et' & LB). rewrite Et in Et'. injection Et' as <-.
    assert (rs = gs_rules gs) as -> by (eapply rules_of_det; [exact O|exists gs; auto]).
    destruct H as [(row & HM & _)|(HU & -> & _)].
    - exact (state_stop k g gs t inp NP CB SB SW TB LB FI LG _ _ _ _ HM).
    - destruct D as ((D & _) & _). lia.
  Qed.
  Theorem looks_stop first r r' o : looks k m inp first r r' o -> rlex_stop k R inp first r r' o.
  Proof.
    apply (looks_any k R m inp (proj1 MO)).
    - intros. now apply hits_stop.
    - intros. eapply misses_lazy; eauto.
  Qed.
End Machine.

Theorem lookup_stop f k g R m inp r fuel inner : setting f k g R m inp r -> g_bytes g = 1 -> lazy_nonempty R ->
  match lookup fuel inner k m inp r with
  | Ok (r', o) => rlex_stop k R inp (r_second r) r r' o /\ in_range R inp r'
  | Fuel => True
  | _ => False
  end.
Proof.
  intros SE SB LN.
  pose proof (lookup_looks fuel inner k m inp r (se_mwf f k g R m inp r SE) (se_chars f k g R m inp r SE) (se_rwf f k g R m inp r SE)) as H.
  destruct (lookup fuel inner k m inp r) as [[r' o]| | |]; auto. destruct H as [H1 H2].
  split; [|now apply (se_range f k g R m inp r SE)].
  pose proof (se_machine f k g R m inp r SE). destruct SE. eapply looks_stop; eauto. eapply build_loops; eauto.
Qed.

Lemma rhits_stop_in k R inp r x q : rhits_stop k R inp r x q -> exists rs, rules_of R (r_state r) rs /\ In x rs.
Proof.
  intros (rs & O & [((_ & F & _) & _)|(_ & _ & F)]); exists rs; split; auto; eapply first_in; eauto.
Qed.

(** No rule is skipped or joined, no recursion. *)
Section Simple.
  Variables (f : nat) (k : cfg) (g : gcfg) (R : grules) (m : internals) (inp : list N) (r : results).
  Hypothesis SE : setting f k g R m inp r.
  Hypothesis SB : g_bytes g = 1.
  Hypothesis LN : lazy_nonempty R.
  Hypothesis NR : f_rec k = false.
  Hypothesis ID : ids_plain k R.
  Variables (fuel inner : nat) (r' : results) (o : option err).
  Hypothesis HL : lookup fuel inner k m inp r = Ok (r', o).
  Let bol := f_bol k && r_bol r.
  Let p := r_second r.

  (** Where no abstemious rule matches earlier. *)
  Theorem stop_exact rs x q : rules_of R (r_state r) rs -> (p < q <= length inp)%nat ->
    rstops rs inp bol p q x ->
    (forall q' x', (p < q' < q)%nat -> rfirst_match rs bol (text_of inp p q') x' -> eager x') ->
    o = None /\ r_first r' = p /\ r_second r' = q /\
    r_id r' = gr_id x /\ r_uid r' = gr_uid x /\ r_state r' = (if f_multi k then gr_next x else r_state r).
  Proof.
    intros O Hq ST EA. pose proof (lookup_stop f k g R m inp r fuel inner SE SB LN) as Q. rewrite HL in Q. destruct Q as [Q _].
    pose proof ST as (i & Ex & _ & Mx & HF & _). pose proof (nth_error_In _ _ Ex) as Hx.
    unfold rlex_stop in Q. apply rlooks_simple in Q; auto; [|intros; eapply rhits_stop_in; eauto].
    destruct Q as (-> & E1 & _ & [(E & _)|[(y & Hp & (rs' & O' & HX) & I1 & I2 & I3 & _)|(c & _ & (rs' & O' & HN & _) & _)]]).
    - exfalso. unfold p in Hq. lia.
    - rewrite (rules_of_det _ _ _ _ O' O) in HX. destruct HX as [[TK NS]|(HN & _)].
      2: { exfalso. eapply HN; eauto. }
      pose proof TK as (Hy & Fy & Ly).
      assert (EQ : r_second r' = q).
      { destruct (lt_eq_lt_dec (r_second r') q) as [[L| ->]|L]; [|auto|].
        - exfalso. assert (EY : eager y) by (apply (EA (r_second r')); auto; lia).
          destruct (Ly EY) as (_ & _ & NL). eapply (NL q x); eauto. lia.
        - exfalso. eapply (NS q x); eauto. unfold p in Hq. lia. }
      assert (y = x).
      { rewrite EQ in Fy. destruct Fy as (j & Ey & My & Fy). destruct (lt_eq_lt_dec i j) as [[L| ->]|L].
        - exfalso. eapply Fy; eauto.
        - congruence.
        - exfalso. eapply HF; eauto. }
      subst y. split; [auto|]. split; [auto|]. split; [auto|]. split; [auto|]. split; [auto|]. rewrite I3.
      destruct Hy as [Hy _]. apply Nat.ltb_lt in Hy. rewrite Hy, andb_true_r. auto.
    - exfalso. rewrite (rules_of_det _ _ _ _ O' O) in HN. eapply HN; eauto.
  Qed.

  (** No other rule goes on after the text from [p] to [q0], and those that match a
      part of it are greedy: the token ends where the rule matches first. *)
  Theorem stop_opener rs i x q0 q : rules_of R (r_state r) rs -> nth_error rs i = Some x -> loop_rule x ->
    (p < q0 <= q)%nat -> (q <= length inp)%nat ->
    (forall j r' cs, j <> i -> nth_error rs j = Some r' -> ~ rmatch r' bol (text_of inp p q0 ++ cs)) ->
    (forall j r' q', j <> i -> nth_error rs j = Some r' -> (p < q' < q0)%nat -> rmatch r' bol (text_of inp p q') -> eager r') ->
    rmatch x bol (text_of inp p q) -> (forall q', (p < q' < q)%nat -> ~ rmatch x bol (text_of inp p q')) ->
    o = None /\ r_first r' = p /\ r_second r' = q /\
    r_id r' = gr_id x /\ r_uid r' = gr_uid x /\ r_state r' = (if f_multi k then gr_next x else r_state r).
  Proof.
    intros O Ex LR Hq0 Hq NO SH Mx MN.
    assert (LONG : forall j r' q' cs, j <> i -> nth_error rs j = Some r' -> (q0 <= q' <= length inp)%nat ->
      ~ rmatch r' bol (text_of inp p q' ++ cs)).
    { intros j r0 q' cs Hj Er Hq' M. rewrite (text_of_split inp p q0 q') in M by lia. rewrite <- app_assoc in M.
      eapply NO; eauto. }
    apply (stop_exact rs x q); auto; [lia| |].
    - exists i. split; [auto|]. split; [auto|]. split; [auto|]. split.
      + intros j r0 Hj Er M. apply (LONG j r0 q []); auto; [lia|lia|now rewrite app_nil_r].
      + intros c j r0 cs _ Hj Er M. eapply LONG; eauto. lia.
    - intros q' x' Hq' (j & Ej & M & _). destruct (Nat.eq_dec j i) as [->|Hj].
      + exfalso. rewrite Ex in Ej. injection Ej as <-. eapply MN; eauto.
      + destruct (le_lt_dec q0 q') as [L|L]; [|eapply SH; eauto; lia].
        exfalso. apply (LONG j x' q' []); auto; [lia|now rewrite app_nil_r].
  Qed.
End Simple.
