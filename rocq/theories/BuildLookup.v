(** Lexing with a built machine: lookup() finds what the rules say. *)
From Verif Require Import Base StringToken StringTokenSpec StringTokenProofs RegexSpec StateMachine Slice
  ReToken DfaSpec Grammar Tree TreeSpec Glushkov TreeProofs Partition Parser Generator GenMap Build ParserTree
  ParserKeys ParserSound ParserLoop TreeWords ParserRule Lookup TableSpec LookupSpec LookupThms LookupTile
  RuleSpec RuleWords BuildSpec BolWords BuildTree GenRules GenTable GenWalk GenLookup BuildState BuildFuel BuildMachine
  BuildThms.
Local Open Scope N_scope.

(** Row [row] carries the data of rule [x]. *)
Definition rule_row (t : table) (row : N) (x : grule) : Prop :=
  exists e, cell t row ix_end = Some e /\ e <> 0 /\ (N.land e sb_pop <> 0 <-> gr_pop x = true) /\
    cell t row ix_id = Some (gr_id x) /\ cell t row ix_uid = Some (gr_uid x) /\
    cell t row ix_push = Some (gr_push x) /\ cell t row ix_next = Some (gr_next x).

Lemma end_bits_ok e : end_bits e <> 0 /\ (N.land (end_bits e) sb_pop <> 0 <-> e_pop e = true).
Proof. unfold end_bits. destruct (greedyb (e_greedy e)), (e_pop e); vm_compute; split; try split; easy. Qed.

Section State.
  Variables (k : cfg) (g : gcfg) (gs : gstate) (t : table) (inp : list N).
  Hypothesis NP : npos k = gnpos g.
  Hypothesis CB : c_bytes k = g_bytes g.
  Hypothesis SW : state_wf g gs.
  Hypothesis TB : state_table g gs t.
  Hypothesis FI : Forall (fits (c_bytes k)) inp.
  Let rs := gs_rules gs.

  Lemma fits_chars : chars_ok k inp.
  Proof. intros E. revert FI. apply Forall_impl. intros c. rewrite E. unfold fits. auto. Qed.
  Lemma text_incl p q c : In c (text_of inp p q) -> In c inp.
  Proof.
    unfold text_of. intros H. rewrite <- (firstn_skipn p inp). apply in_or_app. right.
    rewrite <- (firstn_skipn (q - p) (skipn p inp)). apply in_or_app. auto.
  Qed.
  Lemma text_fits p q : Forall (fits (g_bytes g)) (text_of inp p q).
  Proof.
    rewrite <- CB. rewrite Forall_forall in *. intros c Hc. apply FI. eapply text_incl; eauto.
  Qed.
  Lemma word_word bol p q : word_of k inp bol p q = word (g_bytes g) bol (text_of inp p q).
  Proof. unfold word_of, word, bytes_of, char_bytes, enc. rewrite CB. reflexivity. Qed.
  Lemma state_bols : forall r, In r rs -> bol_rule (has_bol (gs_features gs)) r.
  Proof. destruct SW as [F _]. rewrite Forall_forall in F. intros r Hr. apply (F r Hr). Qed.

  Lemma rule_data s r d row : stands g (has_bol (gs_features gs)) s r d -> row_data t row (dr_info d) -> rule_row t row r.
  Proof.
    intros [_ (v & gr & E & _)] (D1 & D2 & D3 & D4 & D5). rewrite E in *.
    exists (end_bits (end_info (rule_info r v) gr)). split; [auto|].
    destruct (end_bits_ok (end_info (rule_info r v) gr)) as [Q1 Q2]. split; [auto|]. split; [exact Q2|]. auto.
  Qed.

  (** What was matched is in the language of the first rule that has it. *)
  Theorem state_sound bol p row q : matches k t inp bol p row q ->
    (p < q <= length inp)%nat /\ exists b x, (b = true -> f_bol k && bol = true) /\
      rfirst_match rs b (text_of inp p q) x /\ rule_row t row x.
  Proof.
    pose proof state_bols as RB.
    destruct TB as (s & ds & n & RC & Hn & ST & NL & HB). intros M. assert (NR : n <= npos k) by (rewrite NP; lia).
    destruct (matches_sound k g _ _ ds t n RC NP NR inp fits_chars bol p row q M) as (Hpq & d & Hd & F & D).
    split; [auto|]. rewrite word_word in F.
    assert (HS : sees_bol k t bol = true -> has_bol (gs_features gs) = true).
    { unfold sees_bol. intros E. apply andb_true_iff in E as [_ E]. destruct (cell t 0 0) as [v|] eqn:Ec; [|discriminate].
      apply negb_true_iff, N.eqb_neq in E. eauto. }
    apply (first_match_iff g (has_bol (gs_features gs)) s rs ds ST) in F as (j & Ed & FA); auto using text_fits.
    pose proof FA as [(x & Ex & _) _]. exists (sees_bol k t bol), x. split; [|split].
    - unfold sees_bol. intros E. apply andb_true_iff in E. apply E.
    - apply rfirst_at. eauto.
    - eapply rule_data; [|eauto]. eapply (stands_nth g _ s rs ds ST); eauto.
  Qed.

  Hypothesis EA : Forall eager rs.
  Lemma sees_match bol r cs : In r rs -> Forall (fits (g_bytes g)) cs ->
    (rmatch r (sees_bol k t bol) cs <-> rmatch r (f_bol k && bol) cs).
  Proof.
    destruct TB as (s & ds & n & RC & Hn & ST & NL & HB). intros Hr Fc. assert (NR : n <= npos k) by (rewrite NP; lia). unfold sees_bol.
    destruct (f_bol k && bol) eqn:Eb; cbn [andb]; [|reflexivity].
    destruct (rc_cell0 _ _ _ _ _ _ RC) as (v & Ev & _). rewrite Ev.
    destruct (N.eqb_spec v 0) as [E0|E0]; cbn [negb]; [|reflexivity]. subst v.
    assert (has_bol (gs_features gs) = true \/ has_bol (gs_features gs) = false) as [Es|Es] by (destruct has_bol; auto).
    - apply In_nth_error in Hr as (j & Er). destruct (stands_tree g _ s rs ds ST j r Er) as (d & Ed).
      split; [intros H; right; split; [|exact H]; intros HA|intros M; exfalso].
      { destruct (anchor_lang g _ s rs ds ST j r d Er Ed HA) as (w & Hw).
        apply (rc_bol _ _ _ _ _ _ RC (NL EA) Ev d w); [eapply nth_error_In; eauto|exact Hw]. }
      apply (rc_bol _ _ _ _ _ _ RC (NL EA) Ev d (map SByte (flat_map (enc (g_bytes g)) cs))); [eapply nth_error_In; eauto|].
      apply (lang_match g (has_bol (gs_features gs)) s rs ds ST j r d true cs); auto.
    - symmetry. apply (match_unseen (has_bol (gs_features gs)) rs state_bols); auto.
  Qed.

  Theorem state_longest bol p row q : matches k t inp bol p row q ->
    exists x, In x rs /\ rlongest rs inp (f_bol k && bol) p x q /\ rule_row t row x.
  Proof.
    pose proof (sees_match bol) as SM.
    destruct TB as (s & ds & n & RC & Hn & ST & NL & HB). intros M. assert (NR : n <= npos k) by (rewrite NP; lia).
    destruct (matches_longest k g _ _ ds t n RC NP NR inp fits_chars bol p row q (NL EA) M) as (d & Hd & (Hpq & F & HL) & D).
    assert (HS : sees_bol k t bol = true -> has_bol (gs_features gs) = true).
    { unfold sees_bol. intros E. apply andb_true_iff in E as [_ E]. destruct (cell t 0 0) as [v|] eqn:Ec; [|discriminate].
      apply negb_true_iff, N.eqb_neq in E. eauto. }
    rewrite word_word in F.
    apply (first_match_iff g (has_bol (gs_features gs)) s rs ds ST) in F as (j & Ed & FA); auto using text_fits.
    pose proof FA as [(x & Ex & Mx) HN]. exists x. split; [eapply nth_error_In; eauto|]. split.
    - split; [auto|]. split.
      + exists j. split; [auto|]. split.
        * apply SM; auto using text_fits. eapply nth_error_In; eauto.
        * intros j' r' Hj Er' M'. apply (HN j' r' Hj Er'). apply SM; auto using text_fits. eapply nth_error_In; eauto.
      + intros q' r' Hq Hr' M'. apply SM in M'; auto using text_fits.
        apply In_nth_error in Hr' as (j' & Er'). destruct (stands_tree g _ s rs ds ST j' r' Er') as (d' & Ed').
        apply (HL q' d' Hq (nth_error_In _ _ Ed')). rewrite word_word.
        apply (lang_match g (has_bol (gs_features gs)) s rs ds ST j' r' d'); auto using text_fits.
    - eapply rule_data; [|eauto]. eapply (stands_nth g _ s rs ds ST); eauto.
  Qed.
  Theorem state_none bol p : unmatched k t inp bol p -> rnone rs inp (f_bol k && bol) p.
  Proof.
    pose proof (sees_match bol) as SM.
    destruct TB as (s & ds & n & RC & Hn & ST & NL & HB). intros U q r Hq Hr M. assert (NR : n <= npos k) by (rewrite NP; lia).
    assert (HS : sees_bol k t bol = true -> has_bol (gs_features gs) = true).
    { unfold sees_bol. intros E. apply andb_true_iff in E as [_ E]. destruct (cell t 0 0) as [v|] eqn:Ec; [|discriminate].
      apply negb_true_iff, N.eqb_neq in E. eauto. }
    apply SM in M; auto using text_fits.
    apply In_nth_error in Hr as (j & Er). destruct (stands_tree g _ s rs ds ST j r Er) as (d & Ed).
    apply (unmatched_none k g _ _ ds t n RC NP NR inp fits_chars bol p (NL EA) U q d Hq (nth_error_In _ _ Ed)).
    rewrite word_word.
    apply (lang_match g (has_bol (gs_features gs)) s rs ds ST j r d); auto using text_fits.
  Qed.
End State.

(** ** Any notion of hit and miss the machine agrees with *)
Section Lexing.
  Variables (k : cfg) (R : grules) (m : internals) (inp : list N).
  Hypothesis EO : i_eoi m = gr_eoi R.

  Definition row_of (x : grule) (moved : bool) (r : results) (e push next id uid : N) : Prop :=
    (N.land e sb_pop <> 0 <-> gr_pop x = true) /\ push = gr_push x /\ id = gr_id x /\ uid = gr_uid x /\
    next = if moved then gr_next x else r_state r.

  Lemma pop_test (x : grule) e : (N.land e sb_pop <> 0 <-> gr_pop x = true) ->
    negb (N.land e sb_pop =? 0) = gr_pop x.
  Proof.
    intros H. destruct (N.eqb_spec (N.land e sb_pop) 0) as [E|E]; destruct (gr_pop x); cbn; auto.
    - exfalso. apply H; auto.
    - apply H in E. discriminate.
  Qed.
  Lemma joins_rjoins e id x st : (N.land e sb_pop <> 0 <-> gr_pop x = true) -> id = gr_id x ->
    (joins k m e id st <-> rjoins k R x st).
  Proof.
    intros HP ->. unfold joins, rjoins. rewrite EO. tauto.
  Qed.
  Section Any.
  Variables (hit : results -> grule -> nat -> Prop) (miss : results -> Prop).
  Hypothesis HH : forall r e push next id uid q, (r_second r <= length inp)%nat ->
    hits k m inp r e push next id uid q ->
    exists x, hit r x q /\ row_of x (Nat.ltb (r_second r) q) r e push next id uid.
  Hypothesis HM : forall r, (r_second r <= length inp)%nat -> misses k m inp r -> miss r.
  Lemma eats_reats r e id uid r' : (r_second r <= length inp)%nat -> eats k m inp r e id uid r' ->
    exists x, reats k inp hit r x r' /\ (N.land e sb_pop <> 0 <-> gr_pop x = true) /\ id = gr_id x /\ uid = gr_uid x.
  Proof.
    intros Hp (push & next & q & Hh & HS & H1 & H2). apply HH in Hh as (x & HX & P1 & P2 & P3 & P4 & P5); auto.
    exists x. split; [|auto]. exists q. split; [auto|]. split; [|auto]. unfold rstack. unfold stack_step in HS.
    rewrite (pop_test x e P1) in HS. subst push next id. exact HS.
  Qed.
  Lemma looks_any first r r' o : looks k m inp first r r' o -> rlooks k R inp hit miss first r r' o.
  Proof.
    induction 1 as [first r r' Hp ->|first r e id uid r' Hp He Hs Hj Hi Hu Hf|first r e uid r1 r' o Hp He HL IH|
                    first r e id uid r1 r' o Hp He Hs Hj HL IH|first r c r' Hc Hm ->|
                    first r e push next id uid q r' Hp Hh Hu H1 H2 H3 H4 H5].
    - apply rl_eoi; [auto|]. now rewrite EO.
    - apply eats_reats in He as (x & Hx & P1 & P2 & P3); [|lia]. apply (rl_token _ _ _ _ _ _ _ x); auto; try congruence.
      intros HJ. apply Hj. apply (joins_rjoins e id x); auto.
    - apply eats_reats in He as (x & Hx & P1 & P2 & P3); [|lia]. apply (rl_skip _ _ _ _ _ _ _ x r1); auto.
    - apply eats_reats in He as (x & Hx & P1 & P2 & P3); [|lia]. apply (rl_join _ _ _ _ _ _ _ x r1); auto; try congruence.
      apply (joins_rjoins e id x); auto.
    - apply (rl_none _ _ _ _ _ _ _ c); auto. apply HM; [|auto].
      apply Nat.lt_le_incl, nth_error_Some. congruence.
    - apply HH in Hh as (x & HX & P1 & P2 & P3 & P4 & P5); [|lia]. destruct Hu as (U1 & U2 & U3).
      apply (rl_throw _ _ _ _ _ _ _ x q); auto. apply P1; auto.
  Qed.
  End Any.
End Lexing.

(** ** The whole machine *)
Section Machine.
  Variables (k : cfg) (g : gcfg) (R : grules) (m : internals).
  Hypothesis AG : agree k g.
  Hypothesis RW : rules_wf g R.
  Hypothesis MO : machine_ok g R m.

  Lemma table_state st t : get_table m st = Some t ->
    exists gs, nth_error (gr_states R) (N.to_nat st) = Some gs /\ In gs (gr_states R) /\
      state_wf g gs /\ state_table g gs t.
  Proof.
    intros E. destruct MO as (_ & L & H).
    destruct (nth_error (gr_states R) (N.to_nat st)) as [gs|] eqn:Eg.
    - exists gs. destruct (H st gs Eg) as (t' & E' & S). rewrite E in E'. injection E' as <-.
      pose proof (nth_error_In _ _ Eg) as Hg. split; [auto|]. split; [auto|]. split; [|auto].
      unfold rules_wf in RW. rewrite Forall_forall in RW. auto.
    - exfalso. apply nth_error_None in Eg. unfold get_table in E.
      assert (X : nth_error (i_dfa m) (N.to_nat st) = None) by (apply nth_error_None; lia). rewrite X in E.
      destruct (nth_error (i_lookup m) (N.to_nat st)), (nth_error (i_alphabet m) (N.to_nat st)); discriminate.
  Qed.

  (** Accepting rows carry the data of rules. *)
  Lemma row_rule gs t row : state_table g gs t -> row <> 0 -> accepting t row ->
    exists x, In x (gs_rules gs) /\ rule_row t row x.
  Proof.
    intros (s & ds & n & RC & Hn & ST & _ & _) R0 (e & Ee & He).
    assert (Hr : row < n).
    { destruct (N.lt_ge_cases row n) as [?|Hr]; [auto|]. exfalso. unfold cell in Ee.
      assert (X : nth_error (t_dfa t) (N.to_nat (row * t_width t + ix_end)) = None).
      { apply nth_error_None. pose proof (rc_len _ _ _ _ _ _ RC). nia. }
      congruence. }
    destruct (rc_info _ _ _ _ _ _ RC row) as [H|(d & Hd & D)]; [lia|congruence|].
    apply In_nth_error in Hd as (j & Ed). destruct (nth_error (gs_rules gs) j) as [x|] eqn:Ex.
    - exists x. split; [eapply nth_error_In; eauto|]. eapply rule_data; [|eauto]. eapply stands_nth; eauto.
    - exfalso. apply nth_error_None in Ex. pose proof (stands_len _ _ _ _ _ ST) as L.
      assert (j < length ds)%nat by (apply nth_error_Some; congruence). lia.
  Qed.

  Theorem built_mwf : targets_ok g R ->
    (forall gs x, In gs (gr_states R) -> In x (gs_rules gs) -> gr_pop x = true -> f_rec k = true) -> mwf k m.
  Proof.
    intros TO PO st Hst. pose proof MO as (_ & L & H).
    destruct (nth_error (gr_states R) (N.to_nat st)) as [gs|] eqn:Eg; [|apply nth_error_None in Eg; lia].
    destruct (H st gs Eg) as (t & Et & TB). pose proof TB as (s & ds & n & RC & Hn & ST & NL & HB).
    destruct AG as [NP CB]. exists t, n. split; [auto|].
    split; [eapply rec_twf; eauto; rewrite NP; lia|]. rewrite L.
    intros row Hr Ha. destruct (N.eq_dec row 0) as [->|R0].
    - pose proof (rc_width _ _ _ _ _ _ RC) as W. unfold ix_trans in W. split; exists 0.
      + rewrite (rc_row0 _ _ _ _ _ _ RC) by (unfold ix_next; lia). split; [auto|left; lia].
      + rewrite (rc_row0 _ _ _ _ _ _ RC) by (unfold ix_push; lia). split; [auto|]. right. lia.
    - destruct (row_rule gs t row TB R0 Ha) as (x & Hx & e & E0 & _ & EP & _ & _ & E1 & E2).
      destruct (TO gs x (nth_error_In _ _ Eg) Hx) as [T1 T2]. split; eexists; split; eauto; [|rewrite NP; auto].
      destruct T1 as [T1|T1]; [auto|right]. split; [auto|]. split; [eapply PO; eauto using nth_error_In|].
      exists e. split; [auto|]. now apply EP.
  Qed.
  Theorem built_acyclic : eol_acyclic m 0.
  Proof.
    intros st t Et. destruct (table_state st t Et) as (gs & _ & _ & _ & (s & ds & n & RC & _)).
    exists (fun _ => O). intros row. split; [lia|]. intros e Ee He. exfalso. apply He.
    destruct (N.lt_ge_cases row n) as [Hr|Hr].
    - rewrite (rc_eol _ _ _ _ _ _ RC) in Ee by auto. now injection Ee.
    - unfold cell in Ee. assert (X : nth_error (t_dfa t) (N.to_nat (row * t_width t + ix_eol)) = None).
      { apply nth_error_None. pose proof (rc_len _ _ _ _ _ _ RC). nia. }
      congruence.
  Qed.
  Lemma row1 gs t : state_wf g gs -> state_table g gs t ->
    (accepting t 1 -> exists x, rfirst_match (gs_rules gs) false [] x /\ rule_row t 1 x) /\
    (~ accepting t 1 -> forall x, In x (gs_rules gs) -> ~ rmatch x false []).
  Proof.
    intros SW (s & ds & n & RC & Hn & ST & NL & HB). pose proof (state_bols g gs SW) as RB.
    destruct (row1_empty _ _ _ _ _ _ RC) as [H1 H2]. split.
    - intros Ha. destruct (H1 Ha) as (d & Hd & F & D).
      apply (first_match_iff g (has_bol (gs_features gs)) s _ ds ST false []) in F as (j & Ed & FA); [|constructor|discriminate].
      pose proof FA as [(x & Ex & _) _]. exists x. split; [apply rfirst_at; eauto|].
      eapply rule_data; [|eauto]. eapply stands_nth; eauto.
    - intros Ha x Hx M. apply In_nth_error in Hx as (j & Ex). destruct (stands_tree g _ s _ ds ST j x Ex) as (d & Ed).
      apply (H2 Ha d (nth_error_In _ _ Ed)).
      apply (lang_match g (has_bol (gs_features gs)) s _ ds ST j x d false []); auto; discriminate.
  Qed.
  Theorem built_no_empty : (forall gs x, In gs (gr_states R) -> In x (gs_rules gs) -> ~ rmatch x false []) ->
    no_empty_match k m.
  Proof.
    intros NE st t Et. destruct (table_state st t Et) as (gs & _ & Hg & SW & TB). split.
    - intros Ha. destruct (proj1 (row1 gs t SW TB) Ha) as (x & (j & Ex & Mx & _) & _).
      apply (NE gs x Hg (nth_error_In _ _ Ex) Mx).
    - intros bol row row' _ HC. exfalso.
      assert (exists a b, eol_to k t a b) as (a & b & _ & E & Hn) by (destruct HC; eauto).
      destruct (built_acyclic st t Et) as (rank & HR). destruct (HR a) as [H1 H2]. specialize (H2 b E Hn). lia.
  Qed.
  (** Ids in the tables are ids of rules. *)
  Theorem built_ids id : (forall gs x, In gs (gr_states R) -> In x (gs_rules gs) -> gr_id x <> id) -> no_row_id m id.
  Proof.
    intros H st t row Et R0 Ha E. destruct (table_state st t Et) as (gs & _ & Hg & _ & TB).
    destruct (row_rule gs t row TB R0 Ha) as (x & Hx & e & _ & _ & _ & E' & _).
    apply (H gs x Hg Hx). congruence.
  Qed.

  (** ** One piece of text *)
  Variable inp : list N.
  Hypothesis FI : Forall (fits (c_bytes k)) inp.
  Definition all_eager : Prop := Forall (fun gs => Forall eager (gs_rules gs)) (gr_states R).

  Lemma hits_rhits r e push next id uid q : all_eager -> hits k m inp r e push next id uid q ->
    exists x, rhits k R inp r x q /\ row_of x (Nat.ltb (r_second r) q) r e push next id uid.
  Proof.
    destruct AG as [NP CB]. intros EA (t & Et & H). destruct (table_state _ _ Et) as (gs & Eg & Hg & SW & TB).
    assert (Eag : Forall eager (gs_rules gs)) by (unfold all_eager in EA; rewrite Forall_forall in EA; auto).
    destruct H as [(row & HM & D1 & D2 & D3 & D4 & D5)|(HU & -> & He & D1 & D2 & -> & D4 & D5)].
    - destruct (state_longest k g gs t inp NP CB SW TB FI Eag _ _ _ _ HM) as (x & Hx & HL & e' & F1 & F2 & F3 & F4 & F5 & F6 & F7).
      exists x. split; [exists (gs_rules gs); split; [exists gs; auto|]; left; auto|].
      assert (Ql : (r_second r < q)%nat) by apply HL. apply Nat.ltb_lt in Ql. rewrite Ql.
      rewrite D1 in F1. injection F1 as <-. unfold row_of. intuition congruence.
    - destruct (proj1 (row1 gs t SW TB)) as (x & FM & e' & F1 & F2 & F3 & F4 & F5 & F6 & F7); [exists e; auto|].
      exists x. split.
      + exists (gs_rules gs). split; [exists gs; auto|]. right. split; [|auto].
        apply (state_none k g gs t inp); auto.
      + rewrite Nat.ltb_irrefl. rewrite D1 in F1. injection F1 as <-. unfold row_of. intuition congruence.
  Qed.
  Lemma misses_rmisses r : all_eager -> misses k m inp r -> rmisses k R inp r.
  Proof.
    destruct AG as [NP CB]. intros EA (t & Et & HU & E1). destruct (table_state _ _ Et) as (gs & Eg & Hg & SW & TB).
    assert (Eag : Forall eager (gs_rules gs)) by (unfold all_eager in EA; rewrite Forall_forall in EA; auto).
    exists (gs_rules gs). split; [exists gs; auto|]. split; [apply (state_none k g gs t inp); auto|].
    apply (row1 gs t SW TB). intros (e & Ee & He). congruence.
  Qed.
  Theorem looks_rlex first r r' o : all_eager -> looks k m inp first r r' o -> rlex k R inp first r r' o.
  Proof.
    intros EA. apply (looks_any k R m inp (proj1 MO)).
    - intros. now apply hits_rhits.
    - intros. now apply misses_rmisses.
  Qed.

  (** With abstemious repeats: what is returned is justified by a rule. *)
  Lemma hits_justified r e push next id uid q : (r_second r <= length inp)%nat -> hits k m inp r e push next id uid q ->
    exists x, rjustified k R inp r x q /\ row_of x (Nat.ltb (r_second r) q) r e push next id uid.
  Proof.
    destruct AG as [NP CB]. intros Hp (t & Et & H). destruct (table_state _ _ Et) as (gs & Eg & Hg & SW & TB).
    destruct H as [(row & HM & D1 & D2 & D3 & D4 & D5)|(HU & -> & He & D1 & D2 & -> & D4 & D5)].
    - destruct (state_sound k g gs t inp NP CB SW TB FI _ _ _ _ HM) as (Hq & b & x & Hb & FM & e' & F1 & F2 & F3 & F4 & F5 & F6 & F7).
      exists x. split.
      + exists (gs_rules gs), b. split; [exists gs; auto|]. split; [auto|]. split; [lia|auto].
      + apply proj1, Nat.ltb_lt in Hq. rewrite Hq. rewrite D1 in F1. injection F1 as <-. unfold row_of. intuition congruence.
    - destruct (proj1 (row1 gs t SW TB)) as (x & FM & e' & F1 & F2 & F3 & F4 & F5 & F6 & F7); [exists e; auto|].
      exists x. split.
      + exists (gs_rules gs), false. split; [exists gs; auto|]. split; [discriminate|]. split; [lia|]. now rewrite text_of_nil.
      + rewrite Nat.ltb_irrefl. rewrite D1 in F1. injection F1 as <-. unfold row_of. intuition congruence.
  Qed.
  Theorem looks_justified first r r' o : looks k m inp first r r' o ->
    rlooks k R inp (rjustified k R inp) (fun _ => True) first r r' o.
  Proof. apply (looks_any k R m inp (proj1 MO)); [|auto]. intros. now apply hits_justified. Qed.
End Machine.

(** ** Top level *)
Section Top.
  Variables (f : nat) (k : cfg) (g : gcfg) (R : grules) (m : internals) (inp : list N) (r : results).
  Hypothesis SE : setting f k g R m inp r.
  Lemma se_machine : machine_ok g R m.
  Proof. destruct SE. eapply build_machine; eauto. Qed.
  Lemma se_mwf : mwf k m.
  Proof. pose proof se_machine. destruct SE. eapply built_mwf; eauto. Qed.
  Lemma se_chars : chars_ok k inp.
  Proof. destruct SE. eapply fits_chars; eauto. Qed.
  Lemma se_range r' : rwf m inp r' <-> in_range R inp r'.
  Proof. destruct se_machine as (_ & L & _). unfold rwf, in_range. now rewrite L. Qed.
  Lemma se_rwf : rwf m inp r.
  Proof. apply se_range. apply SE. Qed.
  Theorem lookup_rlex fuel inner : Forall (fun gs => Forall eager (gs_rules gs)) (gr_states R) ->
    match lookup fuel inner k m inp r with
    | Ok (r', o) => rlex k R inp (r_second r) r r' o /\ in_range R inp r'
    | Fuel => True
    | _ => False
    end.
  Proof.
    intros EA. pose proof (lookup_looks fuel inner k m inp r se_mwf se_chars se_rwf) as H.
    destruct (lookup fuel inner k m inp r) as [[r' o]| | |]; auto. destruct H as [H1 H2]. split; [|now apply se_range].
    pose proof se_machine. destruct SE. eapply looks_rlex; eauto.
  Qed.
  Theorem lookup_justified fuel inner :
    match lookup fuel inner k m inp r with
    | Ok (r', o) => rlooks k R inp (rjustified k R inp) (fun _ => True) (r_second r) r r' o /\ in_range R inp r'
    | Fuel => True
    | _ => False
    end.
  Proof.
    pose proof (lookup_looks fuel inner k m inp r se_mwf se_chars se_rwf) as H.
    destruct (lookup fuel inner k m inp r) as [[r' o]| | |]; auto. destruct H as [H1 H2]. split; [|now apply se_range].
    pose proof se_machine. destruct SE. eapply looks_justified; eauto.
  Qed.
  (** No rule matches the empty string, checked by build or not. *)
  Lemma se_no_empty : zero_len_ok (gr_flags R) = false -> no_empty_match k m.
  Proof.
    intros Z. pose proof se_machine as MO. destruct SE as [AG WO RW TO PO EB FI IR].
    eapply built_no_empty; eauto. intros gs x Hg Hx M.
    destruct (build_machine f g R m WO RW EB) as (_ & os & _ & F & _).
    assert (SO : exists o, state_ok g (gr_flags R) gs o).
    { clear - F Hg. induction F as [|a b c d H F IH]; [destruct Hg|]. destruct Hg as [<-|Hg]; eauto. }
    destruct SO as (o & [_ _ _ [S|S]]); [congruence|]. eapply S; eauto.
  Qed.
  Theorem lookup_total fuel inner : zero_len_ok (gr_flags R) = false ->
    (length inp < fuel)%nat -> (length inp < inner)%nat ->
    exists r' o, lookup fuel inner k m inp r = Ok (r', o).
  Proof.
    intros Z Hf Hi. apply (lookup_terminates k m inp r 0); auto using se_mwf, se_chars, se_rwf, se_no_empty; [|lia].
    pose proof se_machine. destruct SE. eapply built_acyclic; eauto.
  Qed.
  Theorem lookup_forward fuel inner r' : zero_len_ok (gr_flags R) = false -> f_adv k = true ->
    lookup fuel inner k m inp r = Ok (r', None) -> r_id r' <> gr_eoi R ->
    (r_second r < r_second r' <= length inp)%nat.
  Proof.
    intros Z HA HL Hid. apply (lookup_progress k m inp r fuel inner r'); auto using se_mwf, se_chars, se_rwf, se_no_empty.
    destruct se_machine as (E & _). congruence.
  Qed.
  Theorem loop_ends : zero_len_ok (gr_flags R) = false -> f_adv k = true -> f_rec k = false ->
    exists j r', (j <= length inp - r_second r + 1)%nat /\ calls k m inp j r r' /\ r_id r' = gr_eoi R.
  Proof.
    intros Z HA HR. destruct se_machine as (E & _). rewrite <- E.
    apply (lex_loop_ends k m inp 0); auto using se_mwf, se_chars, se_rwf, se_no_empty.
    pose proof se_machine. destruct SE. eapply built_acyclic; eauto.
  Qed.
End Top.

(** ** The rules determine the result *)
Lemma rmatch_first_det rs bol cs x y : rfirst_match rs bol cs x -> rfirst_match rs bol cs y -> x = y.
Proof.
  intros (i & Ei & Mi & Hi) (j & Ej & Mj & Hj). destruct (lt_eq_lt_dec i j) as [[L| ->]|L].
  - exfalso. eapply Hj; eauto.
  - congruence.
  - exfalso. eapply Hi; eauto.
Qed.
Lemma first_in rs bol cs x : rfirst_match rs bol cs x -> In x rs /\ rmatch x bol cs.
Proof. intros (i & E & M & _). split; [eapply nth_error_In; eauto|auto]. Qed.
Lemma rlongest_det rs inp bol p x q y q' : rlongest rs inp bol p x q -> rlongest rs inp bol p y q' -> x = y /\ q = q'.
Proof.
  intros (H1 & F1 & L1) (H2 & F2 & L2). assert (q = q').
  { destruct (lt_eq_lt_dec q q') as [[L|E]|L]; [|auto|]; exfalso.
    - destruct (first_in _ _ _ _ F2). eapply L1; eauto. lia.
    - destruct (first_in _ _ _ _ F1). eapply L2; eauto. lia. }
  subst q'. split; [eapply rmatch_first_det; eauto|auto].
Qed.
Lemma rnone_longest rs inp bol p x q : rnone rs inp bol p -> rlongest rs inp bol p x q -> False.
Proof. intros H (H1 & F1 & _). destruct (first_in _ _ _ _ F1). eapply H; eauto. Qed.
Lemma rules_of_det R st a b : rules_of R st a -> rules_of R st b -> a = b.
Proof. intros (g & E & <-) (h & E' & <-). congruence. Qed.
(** The parts of the results a call looks at. *)
Definition renv (r : results) := (r_second r, r_bol r, r_state r, r_stack r).
Section Det.
  Variables (k : cfg) (R : grules) (inp : list N).
  Lemma rhits_det r s x y q q' : renv r = renv s -> rhits k R inp r x q -> rhits k R inp s y q' -> x = y /\ q = q'.
  Proof.
    intros [= E1 E2 E3 E4] (rs & O1 & H1) (rs' & O2 & H2). rewrite <- E3 in O2. rewrite <- E1, <- E2 in H2.
    rewrite <- (rules_of_det _ _ _ _ O1 O2) in H2.
    destruct H1 as [H1|(N1 & -> & F1)], H2 as [H2|(N2 & -> & F2)].
    - eapply rlongest_det; eauto.
    - exfalso. eapply rnone_longest; eauto.
    - exfalso. eapply rnone_longest; eauto.
    - split; [eapply rmatch_first_det; eauto|auto].
  Qed.
  Lemma rhits_rmisses r s x q : renv r = renv s -> rhits k R inp r x q -> rmisses k R inp s -> False.
  Proof.
    intros [= E1 E2 E3 E4] (rs & O1 & H1) (rs' & O2 & N2 & M2). rewrite <- E3 in O2. rewrite <- E1, <- E2 in N2.
    rewrite <- (rules_of_det _ _ _ _ O1 O2) in *. destruct H1 as [H1|(_ & _ & F1)].
    - eapply rnone_longest; eauto.
    - destruct (first_in _ _ _ _ F1). eapply M2; eauto.
  Qed.
  Lemma rstack_det x mv st s1 s2 a b1 b2 : rstack k x mv st s1 a b1 -> rstack k x mv st s2 a b2 -> s1 = s2 /\ b1 = b2.
  Proof.
    unfold rstack. destruct (f_rec k).
    - destruct (gr_pop x); [intros (s & i & E & ->) (s' & i' & E' & ->)|intros (-> & ->) (-> & ->)]; [|auto].
      rewrite E in E'. injection E' as <- <- <-. auto.
    - intros (-> & ->) (-> & ->). auto.
  Qed.
  Lemma reats_det r s x y r' s' : renv r = renv s -> reats k inp (rhits k R inp) r x r' ->
    reats k inp (rhits k R inp) s y s' -> x = y /\ renv r' = renv s'.
  Proof.
    intros E (q & H1 & S1 & A1 & B1) (q' & H2 & S2 & A2 & B2).
    destruct (rhits_det _ _ _ _ _ _ E H1 H2) as [<- <-]. split; [auto|]. injection E as E1 E2 E3 E4.
    rewrite <- E1, <- E3, <- E4 in S2. destruct (rstack_det _ _ _ _ _ _ _ _ S1 S2) as [Q1 Q2].
    unfold renv. rewrite A1, A2, B1, B2, Q1, Q2, E1, E2. reflexivity.
  Qed.
  Lemma reats_stack r x r' : reats k inp (rhits k R inp) r x r' -> f_rec k = true -> gr_pop x = true -> r_stack r <> [].
  Proof. intros (q & _ & S & _) HR HP. unfold rstack in S. rewrite HR, HP in S. destruct S as (s & i & E & _). congruence. Qed.
  Theorem rlex_det first r r1 o1 : rlex k R inp first r r1 o1 -> forall s r2 o2, renv r = renv s ->
    rlex k R inp first s r2 o2 -> o1 = o2 /\ renv r1 = renv r2 /\ (o1 = None -> r1 = r2).
  Proof.
    induction 1 as [first r r' Hp ->|first r x r' Hp He Hs Hj Hi Hu Hf|first r x r1 r' o Hp He Hs HL IH|
                    first r x r1 r' o Hp He Hs Hj HL IH|first r c r' Hc Hm ->|
                    first r x q r' Hp Hh U1 U2 U3 H1 H2 H3 H4 H5];
      intros s r2 o2 EV HX; pose proof EV as [= E1 E2 E3 E4];
      inversion HX as [f' s' r2' Gp|f' s' y r2' Gp Ge Gs Gj Gi Gu Gf|f' s' y s1 r2' o' Gp Ge Gs GL|
                    f' s' y s1 r2' o' Gp Ge Gs Gj GL|f' s' d r2' Gc Gm|
                    f' s' y q' r2' Gp Gh V1 V2 V3 G1 G2 G3 G4 G5]; subst; try (exfalso; lia).
    all: try (assert (r_second r < length inp)%nat by (apply nth_error_Some; congruence); exfalso; lia).
    all: try (assert (r_second s < length inp)%nat by (apply nth_error_Some; congruence); exfalso; lia).
    all: try (destruct (reats_det _ _ _ _ _ _ EV He Ge) as [<- ER]).
    all: try contradiction.
    all: try (pose proof ER as [= ? ? ? ER4]; rewrite ER4 in *; contradiction).
    all: try solve [destruct He as (q0 & He & _); exfalso; eapply rhits_rmisses; eauto].
    all: try solve [destruct Ge as (q0 & Ge & _); exfalso; eapply rhits_rmisses; [symmetry; exact EV|eauto|eauto]].
    all: try solve [exfalso; eapply rhits_rmisses; eauto].
    all: try solve [exfalso; eapply rhits_rmisses; [symmetry; exact EV|eauto|eauto]].
    all: try solve [pose proof He as (q0 & He0 & _); destruct (rhits_det _ _ _ _ _ _ EV He0 Gh) as [-> _];
                    exfalso; eapply reats_stack; eauto; congruence].
    all: try solve [pose proof Ge as (q0 & Ge0 & _); destruct (rhits_det _ _ _ _ _ _ EV Hh Ge0) as [-> _];
                    exfalso; eapply reats_stack; eauto; congruence].
    - unfold renv. cbn. rewrite E1, E2, E3, E4. auto.
    - split; [auto|]. split; [auto|]. intros _. injection ER as R1 R2 R3 R4.
      destruct r', r2; cbn in *. congruence.
    - apply (IH s1); auto. injection ER as R1 R2 R3 R4. now rewrite R1.
    - apply (IH s1); auto.
    - rewrite E1 in Hc. assert (c = d) by congruence. subst d. unfold renv. cbn. rewrite E1, E3, E4. auto.
    - split; [auto|]. split; [|discriminate]. unfold renv. rewrite H2, H3, H4, H5, G2, G3, G4, G5. auto.
  Qed.
End Det.

(** ** Without skip rules, rules without an id and recursion *)
Section Simple.
  Variables (k : cfg) (R : grules) (inp : list N) (hit : results -> grule -> nat -> Prop) (miss : results -> Prop).
  Lemma rlooks_simple first r r' o : f_rec k = false ->
    (forall gs x, In gs (gr_states R) -> In x (gs_rules gs) -> gr_id x <> gr_eoi R /\ gr_id x <> skip_id k) ->
    (forall r x q, hit r x q -> exists rs, rules_of R (r_state r) rs /\ In x rs) ->
    first = r_second r -> rlooks k R inp hit miss first r r' o ->
    o = None /\ r_first r' = r_second r /\ r_stack r' = r_stack r /\
    ((r_second r = length inp /\ r_id r' = gr_eoi R /\ r_uid r' = npos k /\ r_second r' = r_second r /\
      r_state r' = r_state r /\ r_bol r' = r_bol r) \/
     (exists x, (r_second r < length inp)%nat /\ hit r x (r_second r') /\ r_id r' = gr_id x /\ r_uid r' = gr_uid x /\
        r_state r' = (if f_multi k && Nat.ltb (r_second r) (r_second r') then gr_next x else r_state r) /\
        r_bol r' = (if f_bol k then bol_at inp (r_bol r) (r_second r) (r_second r') else r_bol r)) \/
     (exists c, nth_error inp (r_second r) = Some c /\ miss r /\ r_id r' = npos k /\ r_uid r' = npos k /\
        r_second r' = (if f_adv k then S (r_second r) else r_second r) /\
        r_state r' = r_state r /\ r_bol r' = (c =? 10))).
  Proof.
    intros NR IDS HIT Ef HL.
    assert (ID : forall r x q, hit r x q -> gr_id x <> gr_eoi R /\ gr_id x <> skip_id k).
    { intros r0 x q H. destruct (HIT r0 x q H) as (rs & (gs & Eg & <-) & Hx). eapply IDS; eauto. eapply nth_error_In; eauto. }
    assert (NJ : forall x st, gr_id x <> gr_eoi R -> ~ rjoins k R x st).
    { intros x st Hx [H|(H & _)]; congruence. }
    destruct HL as [first r r' Hp ->|first r x r' Hp He Hs Hj Hi Hu Hf|first r x r1 r' o Hp He Hs HL|
                    first r x r1 r' o Hp He Hs Hj HL|first r c r' Hc Hm ->|
                    first r x q r' Hp Hh U1 U2 U3 H1 H2 H3 H4 H5]; cbn [r_first r_stack].
    - split; [auto|]. split; [auto|]. split; [auto|]. left. cbn. repeat (split; [auto|]). auto.
    - destruct He as (q & HX & HS & Hq & HB). unfold rstack in HS. rewrite NR in HS. destruct HS as [S1 S2].
      split; [auto|]. split; [congruence|]. split; [auto|]. right. left. exists x.
      rewrite Hq. split; [auto|]. split; [auto|]. split; [auto|]. split; [auto|]. split; [|auto].
      rewrite S2. destruct (f_multi k); cbn [andb]; auto.
    - exfalso. destruct He as (q & HX & _). destruct (ID _ _ _ HX). congruence.
    - exfalso. destruct He as (q & HX & _). destruct (ID _ _ _ HX). eapply NJ; eauto.
    - split; [auto|]. split; [auto|]. split; [auto|]. right. right. exists c. cbn. repeat (split; [auto|]). auto.
    - congruence.
  Qed.
End Simple.
Lemma rhits_in k R inp r x q : rhits k R inp r x q -> exists rs, rules_of R (r_state r) rs /\ In x rs.
Proof.
  intros (rs & O & [(_ & F & _)|(_ & _ & F)]); exists rs; split; auto; eapply first_in; eauto.
Qed.
Lemma rjustified_in k R inp r x q : rjustified k R inp r x q -> exists rs, rules_of R (r_state r) rs /\ In x rs.
Proof. intros (rs & b & O & _ & _ & F). exists rs. split; [auto|]. eapply first_in; eauto. Qed.
Lemma rlooks_mono k R inp (h h' : results -> grule -> nat -> Prop) (s s' : results -> Prop) :
  (forall r x q, h r x q -> h' r x q) -> (forall r, s r -> s' r) ->
  forall first r r' o, rlooks k R inp h s first r r' o -> rlooks k R inp h' s' first r r' o.
Proof.
  intros HH HS. assert (HE : forall r x r', reats k inp h r x r' -> reats k inp h' r x r').
  { intros r x r' (q & H & X). exists q. auto. }
  induction 1; [eapply rl_eoi|eapply rl_token|eapply rl_skip|eapply rl_join|eapply rl_none|eapply rl_throw]; eauto.
Qed.

Section TopSimple.
  Variables (f : nat) (k : cfg) (g : gcfg) (R : grules) (m : internals) (inp : list N) (r : results).
  Hypothesis SE : setting f k g R m inp r.
  Hypothesis EA : Forall (fun gs => Forall eager (gs_rules gs)) (gr_states R).
  Hypothesis NR : f_rec k = false.
  Hypothesis ID : ids_plain k R.
  Variables (fuel inner : nat) (r' : results) (o : option err).
  Hypothesis HL : lookup fuel inner k m inp r = Ok (r', o).
  Theorem simple_shape : o = None /\ r_first r' = r_second r /\ r_stack r' = r_stack r /\
    ((r_second r = length inp /\ r_id r' = gr_eoi R /\ r_uid r' = npos k /\ r_second r' = r_second r /\
      r_state r' = r_state r /\ r_bol r' = r_bol r) \/
     (exists x, (r_second r < length inp)%nat /\ rhits k R inp r x (r_second r') /\ r_id r' = gr_id x /\ r_uid r' = gr_uid x /\
        r_state r' = (if f_multi k && Nat.ltb (r_second r) (r_second r') then gr_next x else r_state r) /\
        r_bol r' = (if f_bol k then bol_at inp (r_bol r) (r_second r) (r_second r') else r_bol r)) \/
     (exists c, nth_error inp (r_second r) = Some c /\ rmisses k R inp r /\ r_id r' = npos k /\ r_uid r' = npos k /\
        r_second r' = (if f_adv k then S (r_second r) else r_second r) /\
        r_state r' = r_state r /\ r_bol r' = (c =? 10))).
  Proof.
    pose proof (lookup_rlex f k g R m inp r SE fuel inner EA) as Q. rewrite HL in Q. destruct Q as [Q _].
    eapply rlooks_simple; eauto. intros. eapply rhits_in; eauto.
  Qed.
  (** Some rule matches a prefix: the longest match is returned. *)
  Theorem simple_longest rs x0 q0 : rules_of R (r_state r) rs -> In x0 rs -> (r_second r < q0 <= length inp)%nat ->
    rmatch x0 (f_bol k && r_bol r) (text_of inp (r_second r) q0) ->
    o = None /\ r_first r' = r_second r /\
    exists x, rlongest rs inp (f_bol k && r_bol r) (r_second r) x (r_second r') /\
      r_id r' = gr_id x /\ r_uid r' = gr_uid x /\ r_state r' = (if f_multi k then gr_next x else r_state r).
  Proof.
    intros O Hx Hq M. destruct simple_shape as (-> & E1 & _ & [(E & _)|[(x & Hp & (rs' & O' & HX) & I1 & I2 & I3 & _)|(c & _ & (rs' & O' & HN & _) & _)]]).
    - exfalso. lia.
    - split; [auto|]. split; [auto|]. rewrite (rules_of_det _ _ _ _ O' O) in HX. destruct HX as [HX|(HN & _)].
      + exists x. split; [auto|]. split; [auto|]. split; [auto|]. rewrite I3.
        destruct HX as ((H & _) & _). apply Nat.ltb_lt in H. rewrite H, andb_true_r. auto.
      + exfalso. eapply HN; eauto.
    - exfalso. rewrite (rules_of_det _ _ _ _ O' O) in HN. eapply HN; eauto.
  Qed.
  Theorem simple_first rs j x : (r_second r < r_second r')%nat -> r_id r' <> npos k ->
    rules_of R (r_state r) rs -> nth_error rs j = Some x ->
    rmatch x (f_bol k && r_bol r) (text_of inp (r_second r) (r_second r')) ->
    (forall i y, (i < j)%nat -> nth_error rs i = Some y ->
       ~ rmatch y (f_bol k && r_bol r) (text_of inp (r_second r) (r_second r'))) ->
    r_id r' = gr_id x /\ r_uid r' = gr_uid x /\ r_state r' = (if f_multi k then gr_next x else r_state r).
  Proof.
    intros Hp NP O Hx M HF. destruct simple_shape as (-> & E1 & _ & [(E & _ & _ & E2 & _)|[(y & _ & (rs' & O' & HX) & I1 & I2 & I3 & _)|(c & _ & _ & E & _)]]);
      [lia| |congruence].
    rewrite (rules_of_det _ _ _ _ O' O) in HX. destruct HX as [(_ & F & _)|(_ & E & _)]; [|lia].
    assert (y = x) as -> by (eapply rmatch_first_det; [exact F|]; exists j; auto).
    apply Nat.ltb_lt in Hp. rewrite Hp, andb_true_r in I3. auto.
  Qed.
  (** No rule matches a prefix, not even an empty one: one character is reported. *)
  Theorem simple_unmatched rs : rules_of R (r_state r) rs -> (r_second r < length inp)%nat -> f_adv k = true ->
    rnone rs inp (f_bol k && r_bol r) (r_second r) -> (forall x, In x rs -> ~ rmatch x false []) ->
    o = None /\ r_first r' = r_second r /\ r_id r' = npos k /\ r_uid r' = npos k /\
    r_second r' = S (r_second r) /\ r_state r' = r_state r.
  Proof.
    intros O Hp HA HN HE. destruct simple_shape as (-> & E1 & _ & [(E & _)|[(x & _ & (rs' & O' & HX) & _)|(c & _ & _ & I1 & I2 & I3 & I4 & _)]]).
    - lia.
    - exfalso. rewrite (rules_of_det _ _ _ _ O' O) in HX. destruct HX as [HX|(_ & _ & F)]; [eapply rnone_longest; eauto|].
      destruct (first_in _ _ _ _ F). eapply HE; eauto.
    - rewrite HA in I3. auto 10.
  Qed.
End TopSimple.
Section TopJustified.
  Variables (f : nat) (k : cfg) (g : gcfg) (R : grules) (m : internals) (inp : list N) (r : results).
  Hypothesis SE : setting f k g R m inp r.
  Hypothesis NR : f_rec k = false.
  Hypothesis ID : ids_plain k R.
  Theorem simple_justified fuel inner r' o : lookup fuel inner k m inp r = Ok (r', o) ->
    r_id r' <> gr_eoi R -> r_id r' <> npos k ->
    exists rs x, rules_of R (r_state r) rs /\ In x rs /\ r_id r' = gr_id x /\ r_uid r' = gr_uid x /\
      r_first r' = r_second r /\ natural x (f_bol k && r_bol r) (text_of inp (r_first r') (r_second r')).
  Proof.
    intros HL I1 I2. pose proof (lookup_justified f k g R m inp r SE fuel inner) as Q. rewrite HL in Q. destruct Q as [Q _].
    apply rlooks_simple in Q as (-> & E1 & _ & [(_ & E & _)|[(x & _ & HX & I3 & I4 & _)|(c & _ & _ & E & _)]]); try congruence; auto.
    - destruct HX as (rs & b & O & Hb & Hq & F). destruct (first_in _ _ _ _ F) as [Hx M]. exists rs, x.
      rewrite E1. repeat (split; [auto|]). eapply rmatch_natural; eauto.
    - intros. eapply rjustified_in; eauto.
  Qed.
End TopJustified.

(** ^ *)
Theorem anchored_hits k R inp r x q : rhits k R inp r x q -> anchored_rule x -> f_bol k = true /\ r_bol r = true.
Proof.
  intros H A. apply andb_true_iff.
  assert (NM : forall cs, ~ rule_lang x (map CChar cs)).
  { intros cs H'. destruct (A _ H') as (v & E & _). destruct cs; discriminate. }
  destruct H as (rs & _ & [(_ & F & _)|(_ & _ & F)]); apply first_in in F as [_ M]; apply rmatch_natural with (bol := f_bol k && r_bol r) in M; try discriminate; auto;
    destruct M as [M|[E M]]; auto; exfalso; eapply NM; eauto.
Qed.
Lemma rjustified_bol k R inp r x q : rjustified k R inp r x q -> anchored_rule x -> f_bol k = true /\ r_bol r = true.
Proof.
  intros (rs & b & _ & Hb & _ & F) A. apply andb_true_iff. apply first_in in F as [_ M]. apply (rmatch_natural _ _ _ _ M) in Hb as [H|[E _]]; [|exact E].
  destruct (A _ H) as (v & E & _). destruct (text_of inp (r_second r) q); discriminate.
Qed.
Theorem lookup_anchored f k g R m inp r fuel inner r' o : setting f k g R m inp r ->
  lookup fuel inner k m inp r = Ok (r', o) ->
  rlooks k R inp (fun s x q => rjustified k R inp s x q /\ (anchored_rule x -> f_bol k = true /\ r_bol s = true))
    (fun _ => True) (r_second r) r r' o.
Proof.
  intros SE HL. pose proof (lookup_justified f k g R m inp r SE fuel inner) as Q. rewrite HL in Q. destruct Q as [Q _].
  eapply rlooks_mono; [| |exact Q]; auto. intros s x q H. split; [auto|]. eapply rjustified_bol; eauto.
Qed.
(** A rule some of whose words begin with ^ is matched by these at the beginning of a
    line and by the others elsewhere. *)
Lemma mixed_hits k R inp r x q : rhits k R inp r x q -> (r_second r < q)%nat -> has_anchor x ->
  if f_bol k && r_bol r then rule_lang x (CBol :: map CChar (text_of inp (r_second r) q)) else rule_lang x (map CChar (text_of inp (r_second r) q)).
Proof.
  intros (rs & _ & [(_ & F & _)|(_ & -> & _)]) L H; [|lia]. apply first_in in F as [_ M]. unfold rmatch in M.
  destruct (f_bol k && r_bol r); [|exact M]. destruct M as [M|[N _]]; [exact M|contradiction].
Qed.
Theorem lookup_mixed f k g R m inp r fuel inner r' o : setting f k g R m inp r ->
  Forall (fun gs => Forall eager (gs_rules gs)) (gr_states R) -> lookup fuel inner k m inp r = Ok (r', o) ->
  rlooks k R inp (fun s x q => rhits k R inp s x q /\ ((r_second s < q)%nat -> has_anchor x ->
      if f_bol k && r_bol s then rule_lang x (CBol :: map CChar (text_of inp (r_second s) q)) else rule_lang x (map CChar (text_of inp (r_second s) q))))
    (rmisses k R inp) (r_second r) r r' o.
Proof.
  intros SE EA HL. pose proof (lookup_rlex f k g R m inp r SE fuel inner EA) as Q. rewrite HL in Q. destruct Q as [Q _].
  eapply rlooks_mono; [| |exact Q]; auto. intros s x q H. split; [exact H|]. intros L A. exact (mixed_hits k R inp s x q H L A).
Qed.
Lemma rlooks_bol k R inp first r r' o : f_bol k = true -> f_adv k = true -> (r_second r <= length inp)%nat ->
  rlooks k R inp (rjustified k R inp) (fun _ => True) first r r' o ->
  (r_second r' = r_second r /\ r_bol r' = r_bol r) \/
  ((r_second r < r_second r')%nat /\ exists c, nth_error inp (r_second r' - 1) = Some c /\ r_bol r' = (c =? 10)).
Proof.
  intros HB HA Hr H.
  assert (EAT : forall r x r', reats k inp (rjustified k R inp) r x r' -> (r_second r' <= length inp)%nat /\
    ((r_second r' = r_second r /\ r_bol r' = r_bol r) \/
     ((r_second r < r_second r')%nat /\ exists c, nth_error inp (r_second r' - 1) = Some c /\ r_bol r' = (c =? 10)))).
  { clear - HB. intros r x r' (q & (rs & b & _ & _ & Hq & _) & _ & -> & E). split; [lia|]. rewrite HB in E. unfold bol_at in E.
    destruct (Nat.eqb_spec (r_second r) q) as [->|NE]; [now left|]. right. split; [lia|].
    destruct (nth_error inp (q - 1)) as [c|] eqn:Ec; [eauto|]. apply nth_error_None in Ec. lia. }
  induction H as [first r r' Hp ->|first r x r' Hp He Hs Hj Hi Hu Hf|first r x r1 r' o Hp He Hs HL IH|
                    first r x r1 r' o Hp He Hs Hj HL IH|first r c r' Hc Hm ->|
                    first r x q r' Hp Hh U1 U2 U3 H1 H2 H3 H4 H5].
  - now left.
  - now apply (EAT r x r').
  - destruct (EAT r x r1 He) as [L [[E1 E2]|[E1 E2]]]; specialize (IH L); destruct IH as [[F1 F2]|[F1 F2]].
    + left. split; congruence.
    + right. split; [lia|auto].
    + right. rewrite F1, F2. auto.
    + right. split; [lia|auto].
  - destruct (EAT r x r1 He) as [L [[E1 E2]|[E1 E2]]]; specialize (IH L); destruct IH as [[F1 F2]|[F1 F2]].
    + left. split; congruence.
    + right. split; [lia|auto].
    + right. rewrite F1, F2. auto.
    + right. split; [lia|auto].
  - right. cbn. rewrite HA. split; [lia|]. exists c. rewrite Nat.sub_succ, Nat.sub_0_r. auto.
  - left. auto.
Qed.
Theorem lookup_bol f k g R m inp r fuel inner r' : setting f k g R m inp r -> f_bol k = true -> f_adv k = true ->
  lookup fuel inner k m inp r = Ok (r', None) -> (r_second r < r_second r')%nat ->
  exists c, nth_error inp (r_second r' - 1) = Some c /\ r_bol r' = (c =? 10).
Proof.
  intros SE HB HA HL Hp. pose proof (lookup_justified f k g R m inp r SE fuel inner) as Q. rewrite HL in Q. destruct Q as [Q _].
  apply rlooks_bol in Q as [[E _]|[_ H]]; auto; [lia|]. apply (se_results _ _ _ _ _ _ _ SE).
Qed.
Theorem simple_next f k g R m inp r fuel inner r' o : setting f k g R m inp r -> f_rec k = false -> f_multi k = true ->
  ids_plain k R -> lookup fuel inner k m inp r = Ok (r', o) -> r_id r' <> gr_eoi R -> r_id r' <> npos k ->
  (r_second r < r_second r')%nat ->
  exists rs x, rules_of R (r_state r) rs /\ In x rs /\ r_id r' = gr_id x /\ r_uid r' = gr_uid x /\
    natural x (f_bol k && r_bol r) (text_of inp (r_first r') (r_second r')) /\ r_state r' = gr_next x.
Proof.
  intros SE NR FM ID HL I1 I2 Hp. pose proof (lookup_justified f k g R m inp r SE fuel inner) as Q. rewrite HL in Q. destruct Q as [Q _].
  apply rlooks_simple in Q as (-> & E1 & _ & [(_ & E & _)|[(x & _ & HX & I3 & I4 & I5 & _)|(c & _ & _ & E & _)]]); try congruence; auto.
  - destruct HX as (rs & b & O & Hb & Hq & F). destruct (first_in _ _ _ _ F) as [Hx M]. exists rs, x.
    apply Nat.ltb_lt in Hp. rewrite FM, Hp in I5.
    split; [auto|]. split; [auto|]. split; [auto|]. split; [auto|]. split; [|auto].
    rewrite E1. eapply rmatch_natural; eauto.
  - intros. eapply rjustified_in; eauto.
Qed.
Theorem lookup_defined f k g R m inp r : setting f k g R m inp r -> forall fuel inner,
  lookup fuel inner k m inp r <> UB /\ forall r' o, lookup fuel inner k m inp r = Ok (r', o) -> in_range R inp r'.
Proof.
  intros SE fuel inner. pose proof (lookup_justified f k g R m inp r SE fuel inner) as Q.
  destruct (lookup fuel inner k m inp r) as [[r1 o1]| | |]; [|destruct Q|destruct Q|]; split; try discriminate.
  intros ? ? [= <- <-]. apply Q.
Qed.
Theorem setting_calls f k g R m inp n r r' : setting f k g R m inp r -> calls k m inp n r r' ->
  setting f k g R m inp r'.
Proof.
  intros SE C. induction C as [r|n r r1 r2 fuel inner E C IH]; [auto|]. apply IH.
  destruct (lookup_defined f k g R m inp r SE fuel inner) as [_ H]. specialize (H _ _ E). destruct SE. constructor; auto.
Qed.
