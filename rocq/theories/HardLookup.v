(** lookup() never ends a token where a rule goes on with a further round of a
    greedy repeat. *)
From Verif Require Import Base StringToken StringTokenSpec StringTokenProofs RegexSpec StateMachine Slice
  ReToken DfaSpec Grammar Tree TreeSpec Glushkov TreeProofs Partition Parser Generator GenMap Build ParserTree
  ParserKeys ParserSound ParserLoop TreeWords ParserRule Lookup TableSpec LookupSpec LookupThms LookupTile
  RuleSpec RuleWords BuildSpec BolWords BuildTree GenRules GenTable GenWalk GenLookup GenCut BuildState BuildFuel
  BuildMachine BuildThms BuildLookup BuildErrs LazySpec LazyLookup GenLoop LoopSpec LoopBuild StopSpec LoopLookup
  MarkSpec MarkWords MarkTree MarkParse MarkRule GenHard KeptSpec.
Local Open Scope N_scope.

Lemma mden_fst {A} (sem : N -> A -> Prop) s n : forall W, mden sem s n W -> den sem n (map fst W).
Proof.
  induction n as [g|t p|l IHl r IHr|l IHl r IHr|n IH g|p]; cbn; intros W.
  - intros ->. reflexivity.
  - intros (a & h & -> & S & _). exists a. auto.
  - intros (u & v & -> & Hu & Hv). rewrite map_app. eauto 7.
  - intros [H|H]; auto.
  - induction 1; [constructor|]. rewrite map_app. constructor; auto.
  - tauto.
Qed.
Lemma mencw_fst b W : map fst (mencw b W) = encw b (map fst W).
Proof.
  induction W as [|[a h] W IH]; [reflexivity|]. cbn [mencw flat_map]. rewrite map_app. cbn [map encw flat_map fst].
  change (flat_map (menc b) W) with (mencw b W). rewrite IH. change (flat_map (enc1 b) (map fst W)) with (encw b (map fst W)). f_equal. destruct a as [c| |]; cbn; auto.
  unfold menc. cbn [fst snd]. destruct (map SByte (enc b c)) as [|x l]; [auto|]. cbn. f_equal.
  rewrite map_map. cbn. apply map_id.
Qed.
Lemma encw_chars b cs : encw b (map CChar cs) = map SByte (flat_map (enc b) cs).
Proof. induction cs as [|c cs IH]; [auto|]. cbn [map encw flat_map]. rewrite map_app, <- IH. reflexivity. Qed.

Section Cut.
  Variables (k : cfg) (g : gcfg) (m : charset_map) (s : store) (rules : list drule) (t : table) (n : N).
  Hypothesis RC : recognises g m s rules t n.
  Hypothesis HD : hards g m s rules t.
  Hypothesis NP : npos k = gnpos g.
  Hypothesis NR : n <= npos k.
  Variable inp : list N.
  Hypothesis CO : chars_ok k inp.
  Hypothesis WC : forall r (bol : bool) bs, In r rules -> Forall (fun b => b < 256) bs ->
    dr_lang g m r ((if bol then [SBol] else []) ++ map SByte bs) -> exists cs, bs = bytes_of k cs.

  Theorem matches_hard bol p row q : matches k t inp bol p row q ->
    forall q' r c b l W1 W2, (q < q' <= length inp)%nat -> In r rules -> nth_error inp q = Some c ->
    char_bytes k c = b :: l -> mden (token_sem g m) s (dr_tree r) (W1 ++ (SByte b, true) :: W2) ->
    map fst W1 = word_of k inp (sees_bol k t bol) p q ->
    map fst (W1 ++ (SByte b, true) :: W2) <> word_of k inp (sees_bol k t bol) p q'.
  Proof.
    intros (start & z & Hs & (HV & Ha & Hlast) & <- & <-) q' r c b l W1 W2 Hq' Hr Ec Ecb MD E1 E2.
    apply (vplus_walk k g m s rules t n RC) in HV as (Hb & Hpq & Hw); auto. cbn [cpos crow fst snd] in Hpq, Hw, Hq', Ec, E1, E2.
    destruct z as ((rb, q), eb). cbn in *. subst eb. pose proof Hs as Hs'. apply start_from in Hs. set (sb := sees_bol k t bol) in *.
    assert (SPB : forall a b c, (a <= b <= c)%nat -> (c <= length inp)%nat ->
      bytes_of k (text_of inp a c) = bytes_of k (text_of inp a b) ++ bytes_of k (text_of inp b c)).
    { intros x y z H1 H2. rewrite (text_of_split inp x y z) by auto. unfold bytes_of. apply flat_map_app. }
    assert (FB : forall a b, Forall (fun x => x < 256) (bytes_of k (text_of inp a b))) by (intros; now apply bytes_small).
    assert (BC : bytes_of k (text_of inp q (S q)) = b :: l).
    { rewrite (text_of_one _ _ _ Ec). cbn. rewrite Ecb. apply app_nil_r. }
    set (rest := l ++ bytes_of k (text_of inp (S q) q')).
    assert (BQ : bytes_of k (text_of inp q q') = b :: rest) by (rewrite (SPB q (S q) q'), BC by lia; reflexivity).
    assert (b256 : b < 256).
    { specialize (FB q (S q)). rewrite BC in FB. now inversion FB. }
    destruct (HD r start (if sb then [SBol] else []) (map SByte (bytes_of k (text_of inp p q))) rb b W1 W2 Hr MD E1 Hs)
      as (row1 & SW1); auto.
    { apply Forall_map. eapply Forall_impl; [|apply (FB p q)]. auto. }
    { now apply swalk_walk. }
    apply (swalk_walk t rb [b] row1) in SW1.
    set (bs0 := bytes_of k (text_of inp p q)) in *.
    assert (W0 : walk t start (bs0 ++ [b]) row1) by (apply walk_app; eauto).
    assert (EA : bytes_of k (text_of inp p q') = (bs0 ++ [b]) ++ rest).
    { rewrite (SPB p q q'), BQ by lia. now rewrite <- app_assoc. }
    assert (LL : dr_lang g m r ((if sb then [SBol] else []) ++ map SByte ((bs0 ++ [b]) ++ rest))).
    { rewrite <- EA. apply mden_fst in MD. rewrite E2 in MD. exact MD. }
    destruct (walk_or_stop g m s rules t n RC r start _ Hr Hs rest (bs0 ++ [b]) row1)
      as [(row' & H1)|(bs1 & bs2 & row2 & E & NE & H1 & HZ)]; auto.
    - rewrite <- EA. apply FB.
    - assert (Hw' : walk t rb (bytes_of k (text_of inp q q')) row').
      { rewrite BQ. change (b :: rest) with ([b] ++ rest). apply walk_app. eauto. }
      assert (Hw2 : walk t start (bytes_of k (text_of inp p q')) row').
      { rewrite (SPB p q q') by lia. apply walk_app. eauto. }
      apply (Hlast (row', q', false)); [eapply walk_vplus; eauto|]. cbn.
      destruct (rc_sound _ _ _ _ _ _ RC _ _ _ _ Hs (FB _ _) Hw2) as [_ H2].
      rewrite <- EA in LL.
      destruct (cell t row' ix_end) as [e|] eqn:Ee.
      + destruct (N.eq_dec e 0) as [->|He]; [|exists e; auto].
        exfalso. apply (H2) with r; auto. intros (e & Ee' & He). congruence.
      + exfalso. apply (H2) with r; auto. intros (e & Ee' & He). congruence.
    - pose proof HZ as (r1 & (j & Ej & HL1 & _) & _).
      destruct (WC r1 sb ((bs0 ++ [b]) ++ bs1)) as (cs & Ecs); auto.
      { eapply nth_error_In; eauto. }
      { specialize (FB p q'). rewrite EA, E, app_assoc in FB. apply Forall_app in FB. apply FB. }
      pose proof (bytes_pos k g n NP NR) as BP. pose proof (bytes_of_len k g n NP NR) as BL. pose proof (text_len k g n NP NR inp) as TL.
      assert (LQ : (q - p < length cs)%nat).
      { apply (f_equal (@length N)) in Ecs. unfold bs0 in Ecs. rewrite !app_length, !BL, TL in Ecs by lia. cbn [length] in Ecs. nia. }
      assert (EC : bytes_of k (text_of inp p q') = bytes_of k cs ++ bs2) by (now rewrite <- Ecs, EA, E, app_assoc).
      destruct (bytes_prefix k g n NP NR _ _ _ EC) as [E3 L1]. rewrite TL in L1 by lia.
      set (q1 := (p + length cs)%nat).
      assert (ET : firstn (length cs) (text_of inp p q') = text_of inp p q1).
      { unfold text_of, q1. rewrite firstn_firstn. f_equal. lia. }
      rewrite ET in E3.
      assert (LT : length cs <> (q' - p)%nat).
      { intros X. apply (f_equal (@length N)) in EC. rewrite app_length, !BL, TL, X in EC by lia.
        destruct bs2; [congruence|]. cbn in EC. lia. }
      assert (EB : b :: bs1 = bytes_of k (text_of inp q q1)).
      { rewrite E3 in Ecs. rewrite (SPB p q q1) in Ecs by (unfold q1; lia). rewrite <- app_assoc in Ecs. now apply app_inv_head in Ecs. }
      assert (WQ : walk t rb (bytes_of k (text_of inp q q1)) row2).
      { rewrite <- EB. change (b :: bs1) with ([b] ++ bs1). apply walk_app. eauto. }
      apply (Hlast (row2, q1, false)); [eapply walk_vplus; eauto; unfold q1; lia|]. cbn.
      apply (lazy_accepting k g m s rules t n RC inp CO bol start p q1 row2 Hs'); [unfold q1; lia| |].
      + rewrite (SPB p q q1) by (unfold q1; lia). apply walk_app. eauto.
      + unfold word_of. fold sb. rewrite <- E3, <- Ecs. exact HZ.
  Qed.
End Cut.

Section State.
  Variables (k : cfg) (g : gcfg) (gs : gstate) (t : table) (inp : list N).
  Hypothesis NP : npos k = gnpos g.
  Hypothesis CB : c_bytes k = g_bytes g.
  Hypothesis SW : state_wf g gs.
  Hypothesis TB : state_table g gs t.
  Hypothesis LB : loop_state_table g gs t.
  Hypothesis FI : Forall (fits (c_bytes k)) inp.
  Let rs := gs_rules gs.
  Hypothesis LN : forall x, In x rs -> ~ eager x -> ~ natural x true [].
  Let seen := has_bol (gs_features gs).

  Lemma char_enc c : char_bytes k c = enc (g_bytes g) c.
  Proof. unfold char_bytes, enc. now rewrite CB. Qed.
  Lemma word_enc sb p q : word_of k inp sb p q = (if sb then [SBol] else []) ++ encw (g_bytes g) (map CChar (text_of inp p q)).
  Proof.
    unfold word_of, bytes_of. rewrite encw_chars. do 2 f_equal. apply flat_map_ext. intros c. apply char_enc.
  Qed.
  Lemma gram_words r ts y v : rule_tokens r ts -> gram GRegex y ts -> xlang (g_bytes g) y (SBol :: v) ->
    exists w, rule_lang r (CBol :: w).
  Proof.
    intros T G X.
    assert (O : olang (g_bytes g) (Some y) (SBol :: v)) by exact X.
    apply olang_oclang in O as (x & C & E).
    apply (o_rule r ts (Some y) T G) in C. destruct x as [|[c| |] x]; try discriminate.
    - exfalso. cbn in E. pose proof (enc_ne (g_bytes g) c). unfold encw in E. cbn [flat_map enc1] in E.
      destruct (enc (g_bytes g) c); [easy|discriminate].
    - eauto.
  Qed.

  Theorem state_kept bol p row q : matches k t inp bol p row q -> kept rs inp (f_bol k && bol) p q.
  Proof.
    pose proof (sees_match_lazy k g gs t SW TB LN bol) as SM. pose proof (state_bols g gs SW) as RB.
    pose proof (text_fits k g inp CB FI) as TF. pose proof (fits_chars k inp FI) as CO.
    destruct LB as (s & ds & n & RC & ST & ND & HB & _ & _ & HD & MK).
    intros HM q' y c Hq Hy Ec GO. pose proof (goes_on_match _ _ _ _ _ GO) as MY.
    assert (Hpq : (p < q <= length inp)%nat) by (destruct (state_sound k g gs t inp NP CB SW TB FI bol p row q HM); auto).
    assert (TX : text_of inp p q' = text_of inp p q ++ c :: text_of inp (S q) q').
    { rewrite (text_of_split inp p q q') by lia. f_equal. rewrite (text_of_split inp q (S q) q') by lia.
      now rewrite (text_of_one _ _ _ Ec). }
    rewrite <- TX in MY. apply SM in MY; auto.
    destruct GO as (W1 & W2 & (ts & x & T & G & L) & E1 & E2).
    pose proof Hy as Hy'. apply In_nth_error in Hy' as (j & Ey).
    destruct (stands_tree g _ s rs ds ST j y Ey) as (d & Ed).
    destruct (MK j y d Ey Ed ts x _ T G L) as [M1 M2].
    assert (HS : sees_bol k t bol = true -> seen = true).
    { intros E. unfold sees_bol in E. apply andb_true_iff in E as [_ E]. destruct (cell t 0 0) as [v|] eqn:E0; [|discriminate].
      apply negb_true_iff, N.eqb_neq in E. eauto. }
    destruct TB as (s0 & ds0 & n0 & RC0 & Hn0 & ST0 & _).
    assert (NRn : n <= npos k).
    { pose proof (rc_len _ _ _ _ _ _ RC) as L1. pose proof (rc_len _ _ _ _ _ _ RC0) as L2.
      pose proof (rc_width _ _ _ _ _ _ RC) as L3. assert (Hw : t_width t <> 0) by (unfold ix_trans in L3; lia). rewrite L1 in L2. apply N.mul_cancel_r in L2; [|auto]. rewrite NP. lia. }
    assert (Hd : In d ds) by (eapply nth_error_In; eauto).
    assert (RL : rule_lang y (map fst (W1 ++ (CChar c, true) :: W2))).
    { apply marks_words; [destruct W1; discriminate|]. eexists. split; [|reflexivity]. exists ts, x. auto. }
    destruct (enc (g_bytes g) c) as [|b l] eqn:EB; [now apply (enc_ne (g_bytes g) c) in EB|].
    assert (MC : mencw (g_bytes g) (W1 ++ (CChar c, true) :: W2) =
       mencw (g_bytes g) W1 ++ (SByte b, true) :: map (fun z => (z, false)) (map SByte l) ++ mencw (g_bytes g) W2).
    { rewrite mencw_app. f_equal. cbn [mencw flat_map]. unfold menc at 1. cbn [fst snd]. rewrite EB. reflexivity. }
    pose proof (matches_hard k g (ps_map s) (snd (ps_tree s)) ds t n RC HD NP NRn inp CO (words_whole k g gs CB SW s ds ST) bol p row q HM
      q' d c b l) as K.
    rewrite MC in M1, M2.
    assert (EN : forall sb : bool, (if sb then [SBol] else []) ++ encw (g_bytes g) (map CChar (text_of inp p q)) ++
        map SByte (b :: l) ++ encw (g_bytes g) (map CChar (text_of inp (S q) q')) = word_of k inp sb p q').
    { intros sb. rewrite word_enc, TX. f_equal. rewrite map_app, encw_app. f_equal. cbn [map encw flat_map enc1]. now rewrite EB. }
    assert (NAS : map fst W1 = map CChar (text_of inp p q) -> (sees_bol k t bol = true -> ~ has_anchor y) -> False).
    { clear E1. intros E1 NA. destruct (sees_bol k t bol) eqn:Esb.
      + assert (NX : forall y0, gram GRegex y0 ts -> forall v, ~ xlang (g_bytes g) y0 (SBol :: v)).
        { intros y0 G0 v X. apply (NA eq_refl). exact (gram_words y ts y0 v T G0 X). }
        eapply (K ((SBol, false) :: mencw (g_bytes g) W1)); auto.
        * now rewrite char_enc.
        * cbn [app]. apply M2; auto.
        * rewrite word_enc. cbn. now rewrite mencw_fst, E1.
        * rewrite <- EN. cbn [app map fst]. f_equal. rewrite map_app, mencw_fst, E1. f_equal. cbn [map fst]. f_equal.
          rewrite map_app, mencw_fst, E2. f_equal. rewrite map_map. apply map_id.
      + eapply (K (mencw (g_bytes g) W1)); auto.
        * now rewrite char_enc.
        * exact M1.
        * rewrite word_enc. cbn. now rewrite mencw_fst, E1.
        * rewrite <- EN. cbn [app map fst]. rewrite map_app, mencw_fst, E1. f_equal. cbn [map fst]. f_equal.
          rewrite map_app, mencw_fst, E2. f_equal. rewrite map_map. apply map_id. }
    destruct (f_bol k && bol) eqn:Eb; [destruct E1 as [E1|[NA E1]]|].
    - assert (Esb : sees_bol k t bol = true).
      { destruct (sees_bol k t bol) eqn:Esb; [auto|]. exfalso. apply (sees_no_anchor k g gs t SW TB LN bol y Hy Eb Esb).
        rewrite map_app, E1 in RL. exists (map CChar (text_of inp p q) ++ map fst ((CChar c, true) :: W2)). exact RL. }
      rewrite Esb in K. eapply (K (mencw (g_bytes g) W1)); auto.
      * now rewrite char_enc.
      * exact M1.
      * rewrite word_enc. cbn. now rewrite mencw_fst, E1.
      * rewrite <- EN. cbn [app map fst]. rewrite map_app, mencw_fst, E1. cbn. f_equal. f_equal. f_equal.
        rewrite map_app, mencw_fst, E2. f_equal. rewrite map_map. apply map_id.
    - apply NAS; auto.
    - apply NAS; [auto|]. unfold sees_bol. rewrite Eb. discriminate.
  Qed.
End State.

Section Machine.
  Variables (k : cfg) (g : gcfg) (R : grules) (m : internals).
  Hypothesis AG : agree k g.
  Hypothesis RW : rules_wf g R.
  Hypothesis MO : machine_ok g R m.
  Hypothesis LM : loops_machine g R m.
  Hypothesis LN : lazy_nonempty R.
  Variable inp : list N.
  Hypothesis FI : Forall (fits (c_bytes k)) inp.

  Lemma hits_kept r e push next id uid q : (r_second r <= length inp)%nat -> hits k m inp r e push next id uid q ->
    exists x, rhits_kept k R inp r x q /\ row_of x (Nat.ltb (r_second r) q) r e push next id uid.
  Proof.
    intros Hp H. pose proof AG as [NP CB].
    destruct (hits_lazy k g R m AG RW MO LN inp FI r e push next id uid q Hp H) as (x & (rs & O & D) & RO).
    exists x. split; [|auto]. exists rs. split; [auto|]. destruct D as [D|D]; [left|now right]. split; [auto|].
    destruct H as (t & Et & H). destruct (table_state g R m RW MO _ _ Et) as (gs & Eg & Hg & SW & TB).
    assert (LG : forall x, In x (gs_rules gs) -> ~ eager x -> ~ natural x true []) by (intros; eapply LN; eauto).
    destruct (LM _ _ Eg) as (t' & Et' & LB). rewrite Et in Et'. injection Et' as <-.
    assert (rs = gs_rules gs) as -> by (eapply rules_of_det; [exact O|exists gs; auto]).
    destruct H as [(row & HM & _)|(HU & -> & _)].
    - exact (state_kept k g gs t inp NP CB SW TB LB FI LG _ _ _ _ HM).
    - destruct D as ((D & _) & _). lia.
  Qed.
  Theorem looks_kept first r r' o : looks k m inp first r r' o -> rlex_kept k R inp first r r' o.
  Proof.
    apply (looks_any k R m inp (proj1 MO)).
    - intros. now apply hits_kept.
    - intros. eapply misses_lazy; eauto.
  Qed.
End Machine.

Theorem lookup_kept f k g R m inp r fuel inner : setting f k g R m inp r -> lazy_nonempty R ->
  match lookup fuel inner k m inp r with
  | Ok (r', o) => rlex_kept k R inp (r_second r) r r' o /\ in_range R inp r'
  | Fuel => True
  | _ => False
  end.
Proof.
  intros SE LN.
  pose proof (lookup_looks fuel inner k m inp r (se_mwf f k g R m inp r SE) (se_chars f k g R m inp r SE) (se_rwf f k g R m inp r SE)) as H.
  destruct (lookup fuel inner k m inp r) as [[r' o]| | |]; auto. destruct H as [H1 H2].
  split; [|now apply (se_range f k g R m inp r SE)].
  pose proof (se_machine f k g R m inp r SE). destruct SE. eapply looks_kept; eauto. eapply build_loops; eauto.
Qed.

Lemma rhits_kept_in k R inp r x q : rhits_kept k R inp r x q -> exists rs, rules_of R (r_state r) rs /\ In x rs.
Proof.
  intros (rs & O & [((_ & F & _) & _)|(_ & _ & F)]); exists rs; split; auto; eapply first_in; eauto.
Qed.
(** No rule is skipped or joined, no recursion. *)
Theorem kept_token f k g R m inp r fuel inner r' o rs x0 q0 : setting f k g R m inp r -> lazy_nonempty R ->
  f_rec k = false -> ids_plain k R -> lookup fuel inner k m inp r = Ok (r', o) ->
  rules_of R (r_state r) rs -> In x0 rs -> (r_second r < q0 <= length inp)%nat ->
  rmatch x0 (f_bol k && r_bol r) (text_of inp (r_second r) q0) ->
  o = None /\ r_first r' = r_second r /\
  exists x, rtakes_kept rs inp (f_bol k && r_bol r) (r_second r) x (r_second r') /\
    r_id r' = gr_id x /\ r_uid r' = gr_uid x /\ r_state r' = (if f_multi k then gr_next x else r_state r).
Proof.
  intros SE LN NR ID HL O Hx Hq M. pose proof (lookup_kept f k g R m inp r fuel inner SE LN) as Q. rewrite HL in Q. destruct Q as [Q _].
  unfold rlex_kept in Q. apply rlooks_simple in Q; auto; [|intros; eapply rhits_kept_in; eauto].
  destruct Q as (-> & E1 & _ & [(E & _)|[(x & Hp & (rs' & O' & HX) & I1 & I2 & I3 & _)|(c & _ & (rs' & O' & HN & _) & _)]]).
  - exfalso. lia.
  - split; [auto|]. split; [auto|]. rewrite (rules_of_det _ _ _ _ O' O) in HX. destruct HX as [HX|(HN & _)].
    + exists x. split; [auto|]. split; [auto|]. split; [auto|]. rewrite I3.
      destruct HX as [((H & _) & _) _]. apply Nat.ltb_lt in H. rewrite H, andb_true_r. auto.
    + exfalso. eapply HN; eauto.
  - exfalso. rewrite (rules_of_det _ _ _ _ O' O) in HN. eapply HN; eauto.
Qed.
