(** Lexing with a machine built from rules ended by $. *)
From Verif Require Import Base StringToken StringTokenSpec StringTokenProofs RegexSpec StateMachine Slice
  ReToken DfaSpec Grammar Tree TreeSpec Glushkov TreeProofs Partition Parser Generator GenMap Build ParserTree
  ParserKeys ParserSound ParserLoop TreeWords ParserRule Lookup TableSpec LookupSpec LookupThms LookupTile
  RuleSpec RuleWords BuildSpec BolWords BuildTree GenRules GenTable GenWalk GenLookup BuildState BuildFuel BuildMachine
  BuildThms BuildLookup EolSpec EolFix EolBuild EolCheck EolLookup EolPrune EolExact EolWalk EolLexSpec TokeniseSpec.
Local Open Scope N_scope.

(** ** Words with an end of line *)
(** Encodings are read off from the left. *)
Lemma encw_prefix b x : forall w z, fitw b x -> fitw b w -> encw b w = encw b x ++ z ->
  exists y, w = x ++ y /\ encw b y = z.
Proof.
  induction x as [|a x IH]; intros w z Fx Fw E; [exists w; auto|].
  destruct w as [|a' w].
  { exfalso. destruct a as [c| |]; cbn in E; try discriminate.
    destruct (enc b c) as [|n l] eqn:Q; [now apply enc_ne in Q|]. cbn in E. discriminate. }
  inversion Fx as [|? ? F1 F2]; inversion Fw as [|? ? F3 F4]; subst. unfold encw in E. cbn [flat_map] in E.
  rewrite <- app_assoc in E. fold (encw b w) (encw b x) in E.
  assert (Q : a' = a /\ encw b w = encw b x ++ z).
  { destruct a' as [c'| |], a as [c| |]; cbn [enc1] in E.
    - apply app_inv_len in E as [E1 E2]; [|rewrite !map_length; apply enc_len]. apply sbyte_inj in E1.
      apply enc_inj in E1; auto. now subst.
    - exfalso. destruct (enc b c') as [|n l] eqn:Q; [now apply enc_ne in Q|]. discriminate.
    - exfalso. destruct (enc b c') as [|n l] eqn:Q; [now apply enc_ne in Q|]. discriminate.
    - exfalso. destruct (enc b c) as [|n l] eqn:Q; [now apply enc_ne in Q|]. discriminate.
    - injection E as E. auto.
    - discriminate.
    - exfalso. destruct (enc b c) as [|n l] eqn:Q; [now apply enc_ne in Q|]. discriminate.
    - discriminate.
    - injection E as E. auto. }
  destruct Q as [-> Q]. destruct (IH w z F2 F4 Q) as (y & -> & Ey). exists y. auto.
Qed.

Section Words.
Variables (k : gcfg) (seen : bool) (s : pstate) (rs : list grule) (ds : list drule).
Hypothesis WO : wide_ok k.
Hypothesis ST : Forall2 (stands k seen s) rs ds.
Hypothesis RB : forall r, In r rs -> bol_rule seen r.
Let b := g_bytes k.
Let m := ps_map s.

Lemma stands_in d : In d ds -> exists r, In r rs /\ stands k seen s r d.
Proof.
  clear RB. intros Hd. induction ST as [|x y xs ys H F IH]; [destruct Hd|]. destruct Hd as [<-|Hd].
  - exists x. split; [now left|auto].
  - destruct (IH F Hd) as (r & Hr & HS). exists r. split; [now right|auto].
Qed.
(** Words of trees are encodings of what the rules read. *)
Lemma lang_reading d w : In d ds -> dr_lang k m d w -> exists r x, In r rs /\ reading r x /\ fitw b x /\ w = encw b x.
Proof.
  intros Hd HL. destruct (stands_in d Hd) as (r & Hr & [(ts & o & T & G & TO & W) _]).
  apply W in HL. destruct HL as [HL|(_ & _ & v & -> & HL)]; apply olang_oclang in HL as (x & C & ->);
    assert (F : fitw b x) by (eapply ogram_fits; eauto); apply (rule_lang_o r ts o _ T G) in C.
  - exists r, x. split; [auto|]. split; [now left|]. auto.
  - exists r, (CBol :: x). split; [auto|]. split; [right; eauto|]. split; [|auto]. constructor; [exact Logic.I|auto].
Qed.
Lemma apart_clash_free : lines_apart b rs -> clash_free k m ds.
Proof.
  intros LA d1 d2 w v1 v2 j x H1 H2 Hx Hj L1 L2.
  destruct (lang_reading d1 _ H1 L1) as (r1 & x1 & Hr1 & R1 & F1 & E1).
  destruct (lang_reading d2 _ H2 L2) as (r2 & x2 & Hr2 & R2 & F2 & E2).
  symmetry in E1. apply (encw_eol_split k x1) in E1 as (y & z & -> & -> & _).
  assert (Fy : fitw b y) by (unfold fitw in F1 |- *; apply Forall_app in F1; tauto).
  symmetry in E2. apply (encw_prefix b y x2 _ Fy F2) in E2 as (u & -> & E).
  assert (Fu : fitw b u) by (unfold fitw in F2 |- *; apply Forall_app in F2; tauto).
  destruct u as [|a u]; [destruct j; discriminate|].
  assert (Q : exists c, a = CChar c).
  { destruct a as [c| |]; [eauto| |]; destruct j; discriminate. }
  destruct Q as (c & ->). apply (LA r1 r2 y z u c Hr1 Hr2 R1 R2).
  inversion Fu as [|? ? Fc _]; subst. cbn in Fc. unfold encw in E. cbn [flat_map enc1] in E.
  unfold breaks, fits, enc, compressed, lim, wide_ok in *. fold b in WO, Hj.
  destruct WO as [Eb|[Eb|Eb]]; [rewrite Eb in *..|];
    [change (1 =? 1) with true in *; change (2 =? 1) with false in *; change (2 =? 2) with true in *;
     change (1 <? 1) with false in *; change (2 <? 2) with false in *; cbn [map app hd] in *..|
     rewrite (proj2 (N.eqb_neq b 1)), (proj2 (N.eqb_neq b 2)) in * by (clear - Eb; subst b; lia);
     replace (2 <? b) with true in * by (symmetry; apply N.ltb_lt; exact Eb);
     replace (1 <? b) with true in * by (symmetry; apply N.ltb_lt; clear - Eb; subst b; lia); cbn [map app hd] in *].
  - destruct Hj as [->|[? _]]; [|discriminate]. cbn in E. injection E as -> _. destruct Hx; auto.
  - destruct Hj as [->|[_ ->]]; cbn in E.
    + injection E as E _. rewrite E. destruct Hx; auto.
    + injection E as Ea Eb' _. rewrite N.mod_small in Ea by (apply N.div_lt_upper_bound; lia).
      apply N.div_small_iff in Ea; [|lia]. rewrite N.mod_small in Eb' by lia. subst c. destruct Hx; auto.
  - destruct Hj as [->|[_ ->]]; cbn in E.
    + injection E as E _. rewrite E. destruct Hx; auto.
    + injection E as Ea Eb' Ec _. rewrite N.mod_small in Ea by (apply N.div_lt_upper_bound; lia).
      apply N.div_small_iff in Ea; [|lia]. rewrite N.mod_small in Eb' by (apply N.div_lt_upper_bound; lia).
      apply N.div_small_iff in Eb'; [|lia]. rewrite N.mod_small in Ec by lia. subst c. destruct Hx; auto.
Qed.
Lemma last_lang : Forall dollar_last rs -> forall d x y, In d ds -> dr_lang k m d (x ++ SEol :: y) -> y = [].
Proof.
  intros DL d x y Hd HL. destruct (lang_reading d _ Hd HL) as (r & w & Hr & R & F & E).
  symmetry in E. apply (encw_eol_split k w) in E as (u & v & -> & _ & ->).
  rewrite Forall_forall in DL. destruct (DL r Hr) as (ts & T & L).
  enough (v = []) by (now subst).
  destruct R as [R|(z & E & R)]; [eapply last_tokens; eauto|].
  destruct u as [|a u]; cbn in E; [discriminate|]. injection E as -> <-. eapply last_tokens; eauto.
Qed.

Definition eword (bol : bool) (cs : list N) : list sym := word b bol cs ++ [SEol].
Lemma eol_chars cs : map SByte (flat_map (enc b) cs) ++ [SEol] = encw b (map CChar cs ++ [CEol]).
Proof. now rewrite RuleWords.encw_app, encw_chars. Qed.
Lemma chars_fitw cs : Forall (fits b) cs -> fitw b (map CChar cs ++ [CEol]).
Proof. intros F. apply Forall_app. split; [apply Forall_map; exact F|repeat constructor]. Qed.
Lemma lang_ematch j r d bol cs : nth_error rs j = Some r -> nth_error ds j = Some d ->
  Forall (fits b) cs -> (bol = true -> seen = true) ->
  (dr_lang k m d (eword bol cs) <-> ematch r bol cs).
Proof.
  intros Er Ed F HS. destruct (stands_nth k seen s rs ds ST j r d Er Ed) as [[(ts & o & T & G & TO & W) _] Hr].
  unfold m. rewrite W. unfold eword, word, ematch.
  assert (FO : forall x, oclang o x -> fitw b x) by (intros x C; eapply ogram_fits; eauto).
  assert (RO : forall w, rule_lang r w <-> oclang o w) by (intros w; apply (rule_lang_o r ts o w T G)).
  assert (P : olang b o (map SByte (flat_map (enc b) cs) ++ [SEol]) <-> rule_lang r (map CChar cs ++ [CEol])).
  { rewrite eol_chars, olang_oclang, RO. split; [|eauto]. intros (w & C & E).
    apply encw_inj in E; [now subst|now apply chars_fitw|auto]. }
  assert (PB : olang b o (SBol :: map SByte (flat_map (enc b) cs) ++ [SEol]) <-> rule_lang r (CBol :: map CChar cs ++ [CEol])).
  { rewrite eol_chars. change (SBol :: encw b (map CChar cs ++ [CEol])) with (encw b (CBol :: map CChar cs ++ [CEol])).
    rewrite olang_oclang, RO. split; [|eauto]. intros (w & C & E).
    apply encw_inj in E; [now subst| |auto]. constructor; [exact Logic.I|now apply chars_fitw]. }
  destruct bol; cbn [app].
  - split.
    + intros [H|(_ & NB & v & E & H)].
      * left. now apply PB.
      * injection E as <-. right. split; [|now apply P]. intros HA. apply (anchor_words b r ts o T G) in HA as (v & Hv).
        exact (NB v Hv).
    + intros [H|[HA H]].
      * left. now apply PB.
      * right. split; [auto|]. split; [|eexists; split; [reflexivity|now apply P]].
        intros v Hv. apply HA. apply (anchor_words b r ts o T G). eauto.
  - split.
    + intros [H|(_ & _ & v & E & _)].
      * now apply P.
      * destruct (flat_map (enc b) cs); discriminate.
    + intros H. left. now apply P.
Qed.
Lemma efirst_iff bol cs d : Forall (fits b) cs -> (bol = true -> seen = true) ->
  first_rule k m ds (eword bol cs) d ->
  exists j x, nth_error ds j = Some d /\ nth_error rs j = Some x /\ ematch x bol cs /\
    forall j' r', (j' < j)%nat -> nth_error rs j' = Some r' -> ~ ematch r' bol cs.
Proof.
  intros F HS (j & Ed & HL & HN). destruct (stands_rule k seen s rs ds ST j d Ed) as (r & Er). exists j, r.
  split; [auto|]. split; [auto|]. split; [apply (lang_ematch j r d); auto|].
  intros j' r' Hj Er'. destruct (stands_tree k seen s rs ds ST j' r' Er') as (d' & Ed'). intros M.
  apply (HN j' d' Hj Ed'). apply (lang_ematch j' r' d'); auto.
Qed.
Lemma ematch_unseen r cs : seen = false -> In r rs -> (ematch r true cs <-> ematch r false cs).
Proof.
  intros Es Hr. assert (NA : forall v, ~ rule_lang r (CBol :: v)).
  { intros v H. destruct (RB r Hr [] v H). congruence. }
  unfold ematch, has_anchor. split; [intros [H|[_ H]]; [destruct (NA _ H)|auto]|]. intros H. right. split; [|auto].
  intros (v & Hv). exact (NA v Hv).
Qed.
End Words.

(** ** One start state *)
Definition line_state_table (k : gcfg) (g : gstate) (t : table) : Prop :=
  exists s ds n, erecognises k (ps_map s) (snd (ps_tree s)) ds t n /\ live k (ps_map s) ds t /\
    clash_free k (ps_map s) ds /\ (forall r x y, In r ds -> dr_lang k (ps_map s) r (x ++ SEol :: y) -> y = []) /\
    n < gnpos k /\ Forall2 (stands k (has_bol (gs_features g)) s) (gs_rules g) ds /\
    no_lazy (snd (ps_tree s)) ds /\
    (forall b, cell t 0 0 = Some b -> b <> 0 -> has_bol (gs_features g) = true).

Theorem build_one_exact k fl g u st used f o u' st' : wide_ok k -> state_fair k g -> line_rules (g_bytes k) g ->
  build_one f k fl g u st used = Ok (o, u', st') -> line_state_table k g (out_table o).
Proof.
  intros WO [RW (A & HA & KA)] LR E. set (seen := has_bol (gs_features g)) in *.
  assert (NE : gs_rules g <> []) by (intros E0; unfold build_one in E; rewrite E0 in E; discriminate).
  assert (FR : Forall (fair_rule k A) (gs_rules g)).
  { apply Forall_forall. intros r Hr. split; [rewrite Forall_forall in RW; apply RW; auto|]. intros t Ht. eauto. }
  assert (RB : forall r, In r (gs_rules g) -> bol_rule seen r).
  { pose proof (ll_bol _ _ LR) as F. rewrite Forall_forall in F. exact F. }
  unfold build_one in E.
  replace (match gs_rules g with [] => Throw EEmptyState | _ :: _ => _ end) with
    (do t <- build_tree k g u st;
     let '(root, u, s) := t in
     do z <- check_zero_len fl (snd (ps_tree s)) root;
     do o <- build_dfa f k fl (snd (ps_tree s)) root (ps_map s) (ps_cr s) (ps_nl s) used;
     if gnpos k <=? N.of_nat (length (concat (o_rows o))) / o_width o then Throw EOverflow
     else Ok (o, u, snd (ps_tree s))) in E by (destruct (gs_rules g); [congruence|reflexivity]).
  destruct (build_tree_ok k A g u st WO HA NE FR) as [(root & u1 & s & ds & ET & BT)|(e & r & ET & _)];
    rewrite ET in E; [|discriminate]. cbn [bind] in E.
  apply bind_ok in E as (z & _ & E). apply bind_ok in E as (o1 & ED & E).
  pose proof (built_fine _ _ _ _ _ HA _ _ _ _ _ BT) as FM.
  pose proof (built_rules_ok _ _ _ _ _ _ _ _ _ _ BT FR) as RO.
  pose proof (built_root_ok _ _ _ _ _ _ _ _ _ _ BT FR NE) as RT.
  pose proof (built_stands _ _ _ _ _ HA _ _ _ _ _ BT FR) as ST.
  destruct (bt_nl _ _ _ _ _ _ _ _ _ _ BT) as [NL1 NL2].
  pose proof (apart_clash_free k _ s _ ds WO ST RB (ll_apart _ _ LR)) as CF.
  destruct (build_dfa_exact f k fl (snd (ps_tree s)) root (ps_map s) (ps_cr s) (ps_nl s) used ds o1
    (proj1 FM) (proj2 FM) RO RT CF NL1 NL2 ED) as [ER LV].
  destruct (build_dfa_shaped f k fl (snd (ps_tree s)) root (ps_map s) (ps_cr s) (ps_nl s) used ds o1
    (proj1 FM) (proj2 FM) RO RT ltac:(destruct NL1; eauto) ltac:(destruct NL2; eauto) ED) as [_ WD].
  destruct (gnpos k <=? _) eqn:LE in E; [discriminate|]. injection E as <- <- <-.
  assert (W : ix_trans <= o_width o1) by apply (er_width _ _ _ _ _ _ ER).
  assert (DV : N.of_nat (length (concat (o_rows o1))) / o_width o1 = N.of_nat (length (o_rows o1))).
  { rewrite <- (rows_div (N.to_nat (o_width o1)) (o_rows o1)); [now rewrite N2Nat.id| |auto].
    unfold ix_trans in W. lia. }
  rewrite DV in LE. apply N.leb_gt in LE.
  exists s, ds, (N.of_nat (length (o_rows o1))). split; [auto|]. split; [auto|]. split; [auto|].
  split; [exact (last_lang k _ s _ ds ST (ll_dollar _ _ LR))|].
  split; [auto|]. split; [auto|]. split; [eapply built_no_lazy; eauto; apply (ll_eager _ _ LR)|].
  intros b Eb Hb. destruct (er_bol_leaf _ _ _ _ _ _ ER b Eb Hb) as (d & p & Hd & Hp & Hl).
  eapply (built_bol k seen); eauto.
Qed.

Section State.
  Variables (k : cfg) (g : gcfg) (gs : gstate) (t : table) (inp : list N).
  Hypothesis CB : c_bytes k = g_bytes g.
  Hypothesis WO : wide_ok g.
  Hypothesis LR : line_rules (g_bytes g) gs.
  Hypothesis TB : line_state_table g gs t.
  Hypothesis FI : Forall (fits (c_bytes k)) inp.
  Let rs := gs_rules gs.

  Lemma line_bols : forall r, In r rs -> bol_rule (has_bol (gs_features gs)) r.
  Proof. pose proof (ll_bol _ _ LR) as F. rewrite Forall_forall in F. exact F. Qed.
  Lemma sees_has bol : sees_bol k t bol = true -> has_bol (gs_features gs) = true.
  Proof.
    destruct TB as (s & ds & n & _ & _ & _ & _ & _ & _ & _ & HB).
    unfold sees_bol. intros E. apply andb_true_iff in E as [_ E]. destruct (cell t 0 0) as [v|] eqn:Ec; [|discriminate].
    apply negb_true_iff, N.eqb_neq in E. eauto.
  Qed.
  Lemma sees_either bol r cs : In r rs -> Forall (fits (g_bytes g)) cs ->
    (rmatch r (sees_bol k t bol) cs <-> rmatch r (f_bol k && bol) cs) /\
    (ematch r (sees_bol k t bol) cs <-> ematch r (f_bol k && bol) cs).
  Proof.
    destruct TB as (s & ds & n & RC & _ & _ & _ & Hn & ST & NL & HB). intros Hr Fc. unfold sees_bol.
    destruct (f_bol k && bol) eqn:Eb; cbn [andb]; [|split; reflexivity].
    destruct (er_cell0 _ _ _ _ _ _ RC) as (v & Ev & _). rewrite Ev.
    destruct (N.eqb_spec v 0) as [E0|E0]; cbn [negb]; [|split; reflexivity]. subst v.
    assert (has_bol (gs_features gs) = true \/ has_bol (gs_features gs) = false) as [Es|Es] by (destruct has_bol; auto).
    - pose proof Hr as Hr'. apply In_nth_error in Hr as (j & Er). destruct (stands_tree g _ s rs ds ST j r Er) as (d & Ed).
      assert (NA : ~ has_anchor r).
      { intros HA. destruct (anchor_lang g _ s rs ds ST j r d Er Ed HA) as (w & Hw).
        apply (er_bol _ _ _ _ _ _ RC NL Ev d w); [eapply nth_error_In; eauto|exact Hw]. }
      split; (split; [intros H; right; split; [exact NA|exact H]|]); intros M; exfalso.
      + apply (er_bol _ _ _ _ _ _ RC NL Ev d (map SByte (flat_map (enc (g_bytes g)) cs))); [eapply nth_error_In; eauto|].
        apply (lang_match g (has_bol (gs_features gs)) s rs ds ST j r d true cs); auto.
      + apply (er_bol _ _ _ _ _ _ RC NL Ev d (map SByte (flat_map (enc (g_bytes g)) cs) ++ [SEol])); [eapply nth_error_In; eauto|].
        apply (lang_ematch g (has_bol (gs_features gs)) s rs ds ST j r d true cs); auto.
    - split; symmetry.
      + apply (match_unseen (has_bol (gs_features gs)) rs line_bols); auto.
      + apply (ematch_unseen (has_bol (gs_features gs)) rs line_bols); auto.
  Qed.
  Lemma eol_word_eword bol p q : eol_word k inp bol p q = eword g bol (text_of inp p q).
  Proof. unfold eol_word, eword. now rewrite (word_word k g inp CB). Qed.

  Theorem line_longest bol p row q : (p <= length inp)%nat -> matches k t inp bol p row q ->
    exists x, In x rs /\ llongest k rs inp (f_bol k && bol) p x q /\ rule_row t row x.
  Proof.
    pose proof (sees_either bol) as SE. pose proof (sees_has bol) as HS.
    pose proof (text_fits k g inp CB FI) as TF.
    destruct TB as (s & ds & n & RC & LV & CF & EL & Hn & ST & NL & HB). intros Hp M.
    destruct (ematches_longest k g _ _ ds t n RC LV CF EL WO CB inp (fits_chars k inp FI) NL bol p row q Hp M)
      as (Hpq & d & Hd & HD & HF & HX).
    set (bl := sees_bol k t bol) in *. set (bb := f_bol k && bol) in *.
    assert (LA : forall q' r', (q < q' <= length inp)%nat -> In r' rs -> ~ lmatch k inp bb p q' r').
    { intros q' r' Hq' Hr' L. pose proof Hr' as Hr2. apply In_nth_error in Hr' as (j' & Er').
      destruct (stands_tree g _ s rs ds ST j' r' Er') as (d' & Ed').
      apply (HX q' d' Hq' (nth_error_In _ _ Ed')). destruct L as [L|(Fe & Ae & L)].
      - left. rewrite (word_word k g inp CB).
        apply (lang_match g (has_bol (gs_features gs)) s rs ds ST j' r' d'); auto.
        apply SE; auto.
      - right. split; [auto|]. split; [auto|]. rewrite eol_word_eword.
        apply (lang_ematch g (has_bol (gs_features gs)) s rs ds ST j' r' d'); auto.
        apply SE; auto. }
    destruct HF as [(Lt & HF & HE)|(Fe & Ae & HF)].
    - rewrite (word_word k g inp CB) in HF.
      apply (first_match_iff g (has_bol (gs_features gs)) s rs ds ST) in HF as (j & Ed & FA); auto.
      pose proof FA as [(x & Ex & Mx) HN]. exists x. split; [eapply nth_error_In; eauto|]. split.
      + split; [lia|]. split; [|exact LA]. right. split.
        * exists j. split; [auto|]. split.
          -- apply SE; auto. eapply nth_error_In; eauto.
          -- intros j' r' Hj Er' M'. apply (HN j' r' Hj Er'). apply SE; auto. eapply nth_error_In; eauto.
        * intros Fe Ae r' Hr' M'. pose proof Hr' as Hr2. apply In_nth_error in Hr' as (j' & Er').
          destruct (stands_tree g _ s rs ds ST j' r' Er') as (d' & Ed').
          apply (HE Fe Ae d' (nth_error_In _ _ Ed')). rewrite eol_word_eword.
          apply (lang_ematch g (has_bol (gs_features gs)) s rs ds ST j' r' d'); auto.
          apply SE; auto.
      + eapply rule_data; [|eauto]. eapply (stands_nth g _ s rs ds ST); eauto.
    - rewrite eol_word_eword in HF.
      apply (efirst_iff g (has_bol (gs_features gs)) s rs ds ST) in HF as (j & x & Ed & Ex & Mx & HN); auto.
      assert (Hx : In x rs) by (eapply nth_error_In; eauto).
      exists x. split; [auto|]. split.
      + assert (p <> q).
        { intros <-. rewrite text_of_nil in Mx. pose proof (ll_alone _ _ LR) as AL. rewrite Forall_forall in AL.
          apply (AL x Hx). unfold ematch in Mx. unfold only_place. destruct bl; [destruct Mx as [Mx|[_ Mx]]|]; auto. }
        split; [lia|]. split; [|exact LA]. left. split; [auto|]. split; [auto|]. exists j. split; [auto|]. split.
        * apply SE; auto.
        * intros j' r' Hj Er' M'. apply (HN j' r' Hj Er'). apply SE; auto. eapply nth_error_In; eauto.
      + eapply rule_data; [|eauto]. eapply (stands_nth g _ s rs ds ST); eauto.
  Qed.
  Theorem line_none bol p : (p <= length inp)%nat -> unmatched k t inp bol p -> lnone k rs inp (f_bol k && bol) p.
  Proof.
    pose proof (sees_either bol) as SE. pose proof (sees_has bol) as HS.
    pose proof (text_fits k g inp CB FI) as TF.
    destruct TB as (s & ds & n & RC & LV & CF & EL & Hn & ST & NL & HB). intros Hp U q r Hq Hr M.
    pose proof Hr as Hr2. apply In_nth_error in Hr as (j & Er).
    destruct (stands_tree g _ s rs ds ST j r Er) as (d & Ed).
    destruct (eunmatched_none k g _ _ ds t n RC LV CF EL WO CB inp (fits_chars k inp FI) NL bol p Hp U q d (nth_error_In _ _ Ed))
      as [H1 H2].
    destruct M as [M|(Fe & Ae & M)].
    - apply H1; [auto|]. rewrite (word_word k g inp CB).
      apply (lang_match g (has_bol (gs_features gs)) s rs ds ST j r d); auto. apply SE; auto.
    - apply H2; [lia|auto|auto|]. rewrite eol_word_eword.
      apply (lang_ematch g (has_bol (gs_features gs)) s rs ds ST j r d); auto. apply SE; auto.
  Qed.
  Lemma line_row1 : (accepting t 1 -> exists x, rfirst_match rs false [] x /\ rule_row t 1 x) /\
    (~ accepting t 1 -> forall x, In x rs -> ~ rmatch x false []).
  Proof.
    destruct TB as (s & ds & n & RC & LV & CF & EL & Hn & ST & NL & HB).
    destruct (erow1_empty g _ _ ds t n RC) as [H1 H2]. split.
    - intros Ha. destruct (H1 Ha) as (d & Hd & F & D).
      apply (first_match_iff g (has_bol (gs_features gs)) s _ ds ST false []) in F as (j & Ed & FA); [|constructor|discriminate].
      pose proof FA as [(x & Ex & _) _]. exists x. split; [apply rfirst_at; eauto|].
      eapply rule_data; [|eauto]. eapply stands_nth; eauto.
    - intros Ha x Hx M. apply In_nth_error in Hx as (j & Ex). destruct (stands_tree g _ s _ ds ST j x Ex) as (d & Ed).
      apply (H2 Ha d (nth_error_In _ _ Ed)).
      apply (lang_match g (has_bol (gs_features gs)) s _ ds ST j x d false []); auto; discriminate.
  Qed.
End State.

(** ** The whole machine *)
Definition lines_machine (k : gcfg) (R : grules) (m : internals) : Prop :=
  forall st g, nth_error (gr_states R) (N.to_nat st) = Some g ->
    exists t, get_table m st = Some t /\ line_state_table k g t.
Definition all_line_rules (b : N) (R : grules) : Prop := Forall (line_rules b) (gr_states R).

Lemma build_states_exact k fl : wide_ok k -> forall gs f u st used os u' used', Forall (state_fair k) gs ->
  Forall (line_rules (g_bytes k)) gs -> build_states f k fl gs u st used = Ok (os, u', used') ->
  Forall2 (fun g o => line_state_table k g (out_table o)) gs os.
Proof.
  intros WO. induction gs as [|g gs IH]; intros f u st used os u' used' F LR E; cbn [build_states] in E.
  - injection E as <- <- <-. constructor.
  - inversion F; inversion LR; subst. apply bind_ok in E as (((o & u1) & st1) & E1 & E).
    apply bind_ok in E as (((os1 & u2) & used2) & E2 & E). injection E as <- <- <-. constructor.
    + eapply build_one_exact; eauto.
    + eapply IH; eauto.
Qed.
Theorem build_exact f k R m : wide_ok k -> rules_fair k R -> all_line_rules (g_bytes k) R -> build f k R = Ok m ->
  lines_machine k R m.
Proof.
  intros WO RF LR E. unfold build in E. apply bind_ok in E as (((os & u) & used) & E1 & E).
  apply bind_ok in E as (z & _ & E). injection E as <-.
  pose proof (build_states_exact k (gr_flags R) WO _ _ _ _ _ _ _ _ RF LR E1) as F.
  intros st g E. unfold get_table, create. cbn [i_lookup i_alphabet i_dfa]. rewrite !nth_error_map.
  assert (X : exists o, nth_error os (N.to_nat st) = Some o /\ line_state_table k g (out_table o)).
  { clear E1 z. revert E. generalize (N.to_nat st).
    induction F as [|g' o gs os H F IH]; intros i E; [destruct i; discriminate|].
    destruct i as [|i]; [|apply IH; auto]. cbn in *. injection E as <-. eauto. }
  destruct X as (o & -> & LT). cbn. exists (out_table o). split; [reflexivity|auto].
Qed.

Section Top.
  Variables (f : nat) (k : cfg) (g : gcfg) (R : grules) (m : internals) (inp : list N) (r : results).
  Hypothesis SE : fair_setting f k g R m inp r.
  Hypothesis LR : all_line_rules (g_bytes g) R.

  Lemma fs_exact : lines_machine g R m.
  Proof. destruct SE. eapply build_exact; eauto. Qed.
  Lemma exact_state st t : get_table m st = Some t ->
    exists gs, nth_error (gr_states R) (N.to_nat st) = Some gs /\ line_rules (g_bytes g) gs /\ line_state_table g gs t.
  Proof.
    intros E. destruct (fs_machine f k g R m inp r SE) as (_ & L & _).
    destruct (nth_error (gr_states R) (N.to_nat st)) as [gs|] eqn:Eg.
    - exists gs. split; [auto|]. destruct (fs_exact st gs Eg) as (t' & E' & S). rewrite E in E'. injection E' as <-.
      split; [|auto]. unfold all_line_rules in LR. rewrite Forall_forall in LR. apply LR. eapply nth_error_In; eauto.
    - exfalso. apply nth_error_None in Eg. unfold get_table in E.
      assert (X : nth_error (i_dfa m) (N.to_nat st) = None) by (apply nth_error_None; lia). rewrite X in E.
      destruct (nth_error (i_lookup m) (N.to_nat st)), (nth_error (i_alphabet m) (N.to_nat st)); discriminate.
  Qed.
  Lemma hits_lhits r0 e push next id uid q : (r_second r0 <= length inp)%nat -> hits k m inp r0 e push next id uid q ->
    exists x, lhits k R inp r0 x q /\ row_of x (Nat.ltb (r_second r0) q) r0 e push next id uid.
  Proof.
    destruct (fs_agree _ _ _ _ _ _ _ SE) as [NP CB]. pose proof (fs_input _ _ _ _ _ _ _ SE) as FI.
    pose proof (fs_wide _ _ _ _ _ _ _ SE) as WO.
    intros Hp (t & Et & H). destruct (exact_state _ _ Et) as (gs & Eg & HL & TB).
    destruct H as [(row & HM & D1 & D2 & D3 & D4 & D5)|(HU & -> & He & D1 & D2 & -> & D4 & D5)].
    - destruct (line_longest k g gs t inp CB WO HL TB FI _ _ _ _ Hp HM) as (x & Hx & HLo & e' & F1 & F2 & F3 & F4 & F5 & F6 & F7).
      exists x. split; [exists (gs_rules gs); split; [exists gs; auto|]; left; auto|].
      assert (Ql : (r_second r0 < q)%nat) by apply HLo. apply Nat.ltb_lt in Ql. rewrite Ql.
      rewrite D1 in F1. injection F1 as <-. unfold row_of. intuition congruence.
    - destruct (proj1 (line_row1 g gs t TB)) as (x & FM & e' & F1 & F2 & F3 & F4 & F5 & F6 & F7); [exists e; auto|].
      exists x. split.
      + exists (gs_rules gs). split; [exists gs; auto|]. right. split; [|auto].
        apply (line_none k g gs t inp); auto.
      + rewrite Nat.ltb_irrefl. rewrite D1 in F1. injection F1 as <-. unfold row_of. intuition congruence.
  Qed.
  Lemma misses_lmisses r0 : (r_second r0 <= length inp)%nat -> misses k m inp r0 -> lmisses k R inp r0.
  Proof.
    destruct (fs_agree _ _ _ _ _ _ _ SE) as [NP CB]. pose proof (fs_input _ _ _ _ _ _ _ SE) as FI.
    pose proof (fs_wide _ _ _ _ _ _ _ SE) as WO.
    intros Hp (t & Et & HU & E1). destruct (exact_state _ _ Et) as (gs & Eg & HL & TB).
    exists (gs_rules gs). split; [exists gs; auto|]. split; [apply (line_none k g gs t inp); auto|].
    apply (line_row1 g gs t TB). intros (e & Ee & He). congruence.
  Qed.
  Theorem lookup_llex fuel inner :
    match lookup fuel inner k m inp r with
    | Ok (r', o) => llex k R inp (r_second r) r r' o /\ in_range R inp r'
    | Fuel => True
    | _ => False
    end.
  Proof.
    pose proof (lookup_looks fuel inner k m inp r (fs_mwf _ _ _ _ _ _ _ SE) (fs_chars _ _ _ _ _ _ _ SE)
      (fs_rwf _ _ _ _ _ _ _ SE)) as H.
    destruct (lookup fuel inner k m inp r) as [[r' o]| | |]; auto. destruct H as [H1 H2].
    split; [|now apply (fs_range f k g R m inp r SE)].
    destruct (fs_machine _ _ _ _ _ _ _ SE) as (EO & _).
    apply (looks_any k R m inp EO); auto.
    - intros. now apply hits_lhits.
    - intros. now apply misses_lmisses.
  Qed.
End Top.
