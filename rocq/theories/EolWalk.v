(** lookup() on a table that recognises rules with $ at the end: the longest
    match, and at its end a rule ended by $ before the others. *)
From Verif Require Import Base StringToken StateMachine Tree TreeSpec Partition Generator Lookup TableSpec
  LookupSpec DfaSpec GenTable GenLookup EolSpec EolPrune EolExact.
From Verif Require ParserTree.
Local Open Scope N_scope.

Lemma swalk_app t a b : forall row row', swalk t row (a ++ b) row' <->
  exists x, swalk t row a x /\ swalk t x b row'.
Proof.
  induction a as [|c a IH]; intros row row'; cbn [app].
  - split; [intros H; exists row; split; [constructor|auto]|].
    intros (x & H1 & H2). inversion H1; subst. auto.
  - split.
    + intros H. inversion H as [|? ? col row1 ? ? H1 H2 H3 H4|? row1 ? ? H2 H3 H4]; subst;
        apply IH in H4 as (x & A & C); exists x; (split; [|auto]).
      * eapply sw_byte; eauto.
      * eapply sw_eol; eauto.
    + intros (x & H & C). inversion H as [|? ? col row1 ? ? H1 H2 H3 H4|? row1 ? ? H2 H3 H4]; subst.
      * eapply sw_byte; eauto. apply IH. eauto.
      * eapply sw_eol; eauto. apply IH. eauto.
Qed.
Lemma swalk_det t w : forall row a b, swalk t row w a -> swalk t row w b -> a = b.
Proof.
  induction w as [|c w IH]; intros row a b HA HB.
  - inversion HA; inversion HB; subst; congruence.
  - inversion HA as [|? ? col row1 ? ? H1 H2 H3 H4|? row1 ? ? H2 H3 H4]; subst;
    inversion HB as [|? ? col' row1' ? ? H1' H2' H3' H4'|? row1' ? ? H2' H3' H4']; subst.
    + rewrite H1 in H1'. injection H1' as <-. rewrite H2 in H2'. injection H2' as <-. eauto.
    + rewrite H2 in H2'. injection H2' as <-. eauto.
Qed.

Section Lookup.
  Variables (k : cfg) (g : gcfg) (m : charset_map) (s : store) (rules : list drule) (t : table) (n : N).
  Hypothesis RC : erecognises g m s rules t n.
  Hypothesis LV : live g m rules t.
  Hypothesis CF : clash_free g m rules.
  (** Nothing follows an end of line token. *)
  Hypothesis EL : forall r x y, In r rules -> dr_lang g m r (x ++ SEol :: y) -> y = [].
  Hypothesis WO : ParserTree.wide_ok g.
  Hypothesis CB : c_bytes k = g_bytes g.
  Variable inp : list N.
  Hypothesis CO : chars_ok k inp.

  (** What may be read from [p] to [q]: the bytes of the characters, and end of
      line symbols at the ends of lines. *)
  Definition line_bytes (p q : nat) : list sym := map SByte (bytes_of k (text_of inp p q)).
  Inductive reads : nat -> nat -> list sym -> Prop :=
  | rd_nil p : reads p p []
  | rd_char p q c w : nth_error inp p = Some c -> reads (S p) q w -> reads p q (map SByte (char_bytes k c) ++ w)
  | rd_eol p q w : f_eol k = true -> at_line_end inp p -> reads p q w -> reads p q (SEol :: w).

  Lemma reads_le p q w : reads p q w -> (p <= q)%nat /\ (p <= length inp -> q <= length inp)%nat.
  Proof.
    induction 1 as [p|p q c w E H IH|p q w _ _ H IH]; [lia| |auto].
    assert (p < length inp)%nat by (apply nth_error_Some; congruence). lia.
  Qed.
  Lemma line_bytes_split p q r : (p <= q <= r)%nat -> (r <= length inp)%nat ->
    line_bytes p r = line_bytes p q ++ line_bytes q r.
  Proof. intros H Hr. unfold line_bytes, bytes_of. now rewrite (text_of_split inp p q r), flat_map_app, map_app. Qed.
  Lemma line_bytes_one p c : nth_error inp p = Some c -> line_bytes p (S p) = map SByte (char_bytes k c).
  Proof. intros E. unfold line_bytes. rewrite (text_of_one _ _ _ E). cbn. now rewrite app_nil_r. Qed.
  Lemma line_bytes_nil p : line_bytes p p = [].
  Proof. unfold line_bytes. now rewrite text_of_nil. Qed.
  Lemma reads_cases p q w : (p <= length inp)%nat -> reads p q w ->
    w = line_bytes p q \/
    exists q' w2, (p <= q' <= q)%nat /\ w = line_bytes p q' ++ SEol :: w2 /\ f_eol k = true /\ at_line_end inp q' /\ reads q' q w2.
  Proof.
    intros Hp R. induction R as [p|p q c w E H IH|p q w F A H IH].
    - left. now rewrite line_bytes_nil.
    - assert (Hl : (p < length inp)%nat) by (apply nth_error_Some; congruence).
      pose proof (reads_le _ _ _ H) as [L1 L2].
      destruct IH as [->|(q' & w2 & Hq & -> & F & A & R2)]; [lia| |].
      + left. rewrite (line_bytes_split p (S p) q) by lia. now rewrite (line_bytes_one p c E).
      + right. exists q', w2. split; [lia|]. split; [|auto].
        rewrite (line_bytes_split p (S p) q') by lia. now rewrite (line_bytes_one p c E), <- app_assoc.
    - right. exists p, w. split; [apply reads_le in H; lia|]. rewrite line_bytes_nil. auto.
  Qed.
  Lemma reads_nil p q : reads p q [] -> q = p.
  Proof.
    intros R. remember [] as w eqn:E. destruct R as [|p q c w _ _|]; [auto| |discriminate].
    exfalso. revert E. unfold char_bytes. destruct (c_bytes k =? 1), (c_bytes k =? 2); discriminate.
  Qed.
  Lemma line_bytes_sym p q : Forall line_sym (line_bytes p q).
  Proof. apply Forall_map. exact (bytes_small k inp CO p q). Qed.
  Lemma line_eol_sym p q : Forall line_sym (line_bytes p q ++ [SEol]).
  Proof. apply Forall_app. split; [apply line_bytes_sym|repeat constructor]. Qed.
  Lemma char_sym p c : nth_error inp p = Some c -> Forall line_sym (map SByte (char_bytes k c)).
  Proof. intros E. rewrite <- (line_bytes_one p c E). apply line_bytes_sym. Qed.

  (** Steps read. *)
  Lemma ended_stops a b : vplus k t inp a b -> snd a = true -> False.
  Proof. destruct 1 as [? ? H|? ? ? H]; inversion H; subst; discriminate. Qed.
  Lemma vstep_reads a b : vstep k t inp a b ->
    exists w, swalk t (crow a) w (crow b) /\ Forall line_sym w /\ w <> [] /\ (snd b = true -> In SEol w) /\
      (forall q v, reads (cpos b) q v -> reads (cpos a) q (w ++ v)).
  Proof.
    intros H. inversion H as [row p c row' E _ Hw|row p c e E Hc He|row e He]; subst; cbn [crow cpos fst snd].
    - exists (map SByte (char_bytes k c)). split; [now apply swalk_walk|]. split; [eapply char_sym; eauto|]. split.
      + unfold char_bytes. destruct (c_bytes k =? 1), (c_bytes k =? 2); discriminate.
      + split; [discriminate|]. intros q v R. now apply rd_char.
    - destruct He as (F & Ec & Ne). exists [SEol]. split; [eapply sw_eol; eauto; constructor|].
      split; [repeat constructor|]. split; [discriminate|]. split; [discriminate|]. intros q v R. apply rd_eol; auto.
      unfold at_line_end. destruct Hc as [->| ->]; auto.
    - destruct He as (F & Ec & Ne). exists [SEol]. split; [eapply sw_eol; eauto; constructor|].
      split; [repeat constructor|]. split; [discriminate|]. split; [now left|]. intros q v R. apply rd_eol; auto.
      unfold at_line_end. auto.
  Qed.
  Lemma vplus_reads a b : vplus k t inp a b ->
    exists w, swalk t (crow a) w (crow b) /\ Forall line_sym w /\ w <> [] /\ (snd b = true -> In SEol w) /\
      reads (cpos a) (cpos b) w.
  Proof.
    induction 1 as [a b H|a b c H HP (w & S1 & F1 & N1 & E1 & R1)].
    - apply vstep_reads in H as (w & S & F & N & E & R). exists w. split; [auto|]. split; [auto|]. split; [auto|].
      split; [auto|]. rewrite <- (app_nil_r w). apply R. constructor.
    - apply vstep_reads in H as (v & S & F & N & E & R). exists (v ++ w). split; [apply swalk_app; eauto|].
      split; [apply Forall_app; auto|]. split; [destruct v; [congruence|discriminate]|].
      split; [intros Q; apply in_or_app; auto|]. now apply R.
  Qed.
  Lemma line_bytes_eol p q : ~ In SEol (line_bytes p q).
  Proof. intros H. apply in_map_iff in H as (x & E & _). discriminate. Qed.

  (** ** Words accepted *)
  Section From.
    Variables (row0 : N) (w0 : list sym) (p : nat).
    Hypothesis FR : from_row t row0 w0.
    Hypothesis Hp : (p <= length inp)%nat.

    (** An accepted row was reached by text, or by text and one end of line. *)
    Lemma accepted_word b : vplus k t inp (row0, p, false) b -> accepting t (crow b) ->
      (p <= cpos b <= length inp)%nat /\
      (((p < cpos b)%nat /\ swalk t row0 (line_bytes p (cpos b)) (crow b) /\ snd b = false) \/
       (f_eol k = true /\ at_line_end inp (cpos b) /\ swalk t row0 (line_bytes p (cpos b) ++ [SEol]) (crow b))).
    Proof.
      intros HV HA. pose proof (vplus_reads _ _ HV) as (w & SW & F & NE & EE & R). cbn [crow cpos fst snd] in SW, R.
      pose proof (reads_le _ _ _ R) as [L1 L2]. split; [auto|].
      destruct (proj1 (er_sound _ _ _ _ _ _ RC _ _ _ _ FR F SW) HA) as (r & (j & Er & HL & _) & _).
      apply nth_error_In in Er.
      destruct (reads_cases _ _ _ Hp R) as [->|(q' & w2 & Hq & -> & Fe & A & R2)].
      - left. assert (p <> cpos b) by (intros E; apply NE; rewrite <- E; apply line_bytes_nil).
        split; [lia|]. split; [auto|].
        destruct (snd b); [|auto]. exfalso. apply (line_bytes_eol p (cpos b)); auto.
      - right. rewrite app_assoc in HL. apply EL in HL; [|auto]. subst w2.
        apply reads_nil in R2. subst q'. auto.
    Qed.
    (** After an end of line nothing more is accepted. *)
    Lemma eol_ends e row q c : swalk t row0 (line_bytes p q ++ [SEol]) row ->
      vplus k t inp (row, q, e) c -> ~ accepting t (crow c).
    Proof.
      intros SW HV HA. apply vplus_reads in HV as (w & SW2 & F & NE & _ & _). cbn [crow fst] in SW2.
      assert (SW' : swalk t row0 ((line_bytes p q ++ [SEol]) ++ w) (crow c)) by (apply swalk_app; eauto).
      assert (FW : Forall line_sym ((line_bytes p q ++ [SEol]) ++ w)) by (apply Forall_app; split; [apply line_eol_sym|auto]).
      destruct (proj1 (er_sound _ _ _ _ _ _ RC _ _ _ _ FR FW SW') HA) as (r & (j & Er & HL & _) & _).
      apply nth_error_In in Er. rewrite <- app_assoc in HL. cbn [app] in HL. rewrite app_assoc in HL.
      apply EL in HL; auto.
    Qed.
    Lemma char_line c : c = 13 \/ c = 10 -> exists j, (j = O \/ (compressed g = true /\ j = lim g)) /\
      map SByte (char_bytes k c) = repeat (SByte 0) j ++ [SByte c].
    Proof.
      intros Hc. unfold char_bytes, compressed, lim. rewrite CB.
      destruct WO as [E|[E|E]].
      - rewrite E. exists O. split; [now left|]. destruct Hc as [->| ->]; reflexivity.
      - rewrite E. exists 1%nat. split; [now right|]. destruct Hc as [->| ->]; reflexivity.
      - rewrite (proj2 (N.eqb_neq (g_bytes g) 1)), (proj2 (N.eqb_neq (g_bytes g) 2)) by (clear - E; lia). exists 2%nat.
        rewrite (proj2 (N.ltb_lt 1 (g_bytes g))), (proj2 (N.ltb_lt 2 (g_bytes g))) by (clear - E; lia). split; [now right|]. destruct Hc as [->| ->]; reflexivity.
    Qed.
    (** At a row with an end of line transition no rule goes on with \r or \n. *)
    Lemma no_line_char q row c e r v : swalk t row0 (line_bytes p q) row -> c = 13 \/ c = 10 -> eol_to k t row e ->
      In r rules -> ~ dr_lang g m r (w0 ++ line_bytes p q ++ map SByte (char_bytes k c) ++ v).
    Proof.
      intros SW Hc (_ & Ee & Ne) Hr HL.
      assert (SW' : swalk t row0 (line_bytes p q ++ [SEol]) e).
      { apply swalk_app. exists row. split; [auto|]. eapply sw_eol; eauto. constructor. }
      destruct (LV _ _ _ _ FR (line_eol_sym _ _) SW') as (r1 & v1 & Hr1 & H1).
      rewrite <- app_assoc in H1. cbn [app] in H1.
      destruct (char_line c Hc) as (j & Hj & E). rewrite E, <- app_assoc in HL. cbn [app] in HL.
      rewrite app_assoc in H1, HL. apply (CF r1 r (w0 ++ line_bytes p q) v1 v j c); auto. destruct Hc; auto.
    Qed.
    Lemma text_vplus r v q2 : (q2 <= length inp)%nat -> In r rules -> dr_lang g m r (w0 ++ line_bytes p q2 ++ v) ->
      forall d q1 row1 row2, (q2 = q1 + S d)%nat -> (p <= q1)%nat -> swalk t row0 (line_bytes p q1) row1 ->
      swalk t row1 (line_bytes q1 q2) row2 -> vplus k t inp (row1, q1, false) (row2, q2, false).
    Proof.
      intros Hq Hr HL. induction d as [|d IH]; intros q1 row1 row2 E Hp1 S1 S2.
      - destruct (nth_error inp q1) as [c|] eqn:Ec; [|apply nth_error_None in Ec; lia].
        replace q2 with (S q1) in * by lia. rewrite (line_bytes_one q1 c Ec) in S2.
        apply vp_one. apply vs_char with (c := c); [auto| |now apply swalk_walk].
        intros Hc e He. rewrite (line_bytes_split p q1 (S q1)), (line_bytes_one q1 c Ec), <- app_assoc in HL by lia.
        eapply no_line_char; eauto.
      - destruct (nth_error inp q1) as [c|] eqn:Ec; [|apply nth_error_None in Ec; lia].
        rewrite (line_bytes_split q1 (S q1) q2) in S2 by lia. apply swalk_app in S2 as (x & S2 & S3).
        apply vp_more with (b := (x, S q1, false)).
        + rewrite (line_bytes_one q1 c Ec) in S2. apply vs_char with (c := c); [auto| |now apply swalk_walk].
          intros Hc e He. rewrite (line_bytes_split p q1 q2), (line_bytes_split q1 (S q1) q2), (line_bytes_one q1 c Ec), <- !app_assoc in HL by lia.
          eapply no_line_char; eauto.
        + apply IH; [lia|lia| |auto]. rewrite (line_bytes_split p q1 (S q1)) by lia. apply swalk_app. eauto.
    Qed.
    Lemma vplus_snoc a b c : vplus k t inp a b -> vstep k t inp b c -> vplus k t inp a c.
    Proof. induction 1 as [a b H|a b x H HP IH]; intros HS; [eapply vp_more; [eauto|now constructor]|eapply vp_more; eauto]. Qed.
    Lemma eol_step q row e : (q <= length inp)%nat -> at_line_end inp q -> eol_to k t row e ->
      exists b, vstep k t inp (row, q, false) (e, q, b).
    Proof.
      intros Hq [A|[A|A]] He.
      - exists false. eapply vs_eol; eauto.
      - exists false. eapply vs_eol; eauto.
      - exists true. rewrite A. now apply vs_end.
    Qed.
    Lemma eol_vplus r q2 : (q2 <= length inp)%nat -> In r rules -> dr_lang g m r (w0 ++ line_bytes p q2 ++ [SEol]) ->
      f_eol k = true -> at_line_end inp q2 -> forall q1 row1 row2, (p <= q1 <= q2)%nat -> swalk t row0 (line_bytes p q1) row1 ->
      swalk t row1 (line_bytes q1 q2 ++ [SEol]) row2 -> exists b, vplus k t inp (row1, q1, false) (row2, q2, b).
    Proof.
      intros Hq Hr HL Fe A q1 row1 row2 Hp1 S1 S2. apply swalk_app in S2 as (x & S2 & S3).
      assert (He : eol_to k t x row2).
      { inversion S3 as [| |? row' ? ? H2 H3 H4]; subst. inversion H4; subst. repeat split; auto. }
      destruct (eol_step q2 x row2 Hq A He) as (b & HS). exists b.
      destruct (Nat.eq_dec q1 q2) as [->|NE].
      - rewrite line_bytes_nil in S2. inversion S2; subst. now constructor.
      - eapply vplus_snoc; [|exact HS]. apply (text_vplus r [SEol] q2 Hq Hr HL (q2 - S q1)); auto; lia.
    Qed.
  End From.

  (** ** Matches *)
  Definition eol_word (bol : bool) (p q : nat) : list sym := word_of k inp bol p q ++ [SEol].
  Lemma word_line bol p q : word_of k inp bol p q = (if bol then [SBol] else []) ++ line_bytes p q.
  Proof. reflexivity. Qed.
  Definition dmatch (bol : bool) (p q : nat) (r : drule) : Prop :=
    dr_lang g m r (word_of k inp bol p q) \/
    (f_eol k = true /\ at_line_end inp q /\ dr_lang g m r (eol_word bol p q)).

  Theorem ematches_sound bol p row q : (p <= length inp)%nat -> matches k t inp bol p row q ->
    (p <= q <= length inp)%nat /\ exists r, In r rules /\ row_data t row (dr_info r) /\
      (((p < q)%nat /\ first_rule g m rules (word_of k inp (sees_bol k t bol) p q) r) \/
       (f_eol k = true /\ at_line_end inp q /\ first_rule g m rules (eol_word (sees_bol k t bol) p q) r)).
  Proof.
    intros Hp (start & b & Hs & (HV & Ha & _) & <- & <-). apply start_from in Hs.
    destruct (accepted_word _ _ _ Hs Hp b HV Ha) as (Hq & [(Hpq & SW & _)|(Fe & A & SW)]); (split; [auto|]).
    - destruct (proj1 (er_sound _ _ _ _ _ _ RC _ _ _ _ Hs (line_bytes_sym _ _) SW) Ha) as (r & HF & HD).
      exists r. split; [destruct HF as (j & E & _); eapply nth_error_In; eauto|]. split; [auto|]. left. auto.
    - destruct (proj1 (er_sound _ _ _ _ _ _ RC _ _ _ _ Hs (line_eol_sym _ _) SW) Ha)
        as (r & HF & HD).
      exists r. split; [destruct HF as (j & E & _); eapply nth_error_In; eauto|]. split; [auto|]. right.
      split; [auto|]. split; [auto|]. unfold eol_word. rewrite word_line, <- app_assoc. auto.
  Qed.
  Hypothesis NL : no_lazy s rules.
  Theorem ematches_longest bol p row q : (p <= length inp)%nat -> matches k t inp bol p row q ->
    (p <= q <= length inp)%nat /\ exists r, In r rules /\ row_data t row (dr_info r) /\
      (((p < q)%nat /\ first_rule g m rules (word_of k inp (sees_bol k t bol) p q) r /\
          (f_eol k = true -> at_line_end inp q -> forall r', In r' rules -> ~ dr_lang g m r' (eol_word (sees_bol k t bol) p q))) \/
       (f_eol k = true /\ at_line_end inp q /\ first_rule g m rules (eol_word (sees_bol k t bol) p q) r)) /\
      (forall q' r', (q < q' <= length inp)%nat -> In r' rules -> ~ dmatch (sees_bol k t bol) p q' r').
  Proof.
    intros Hp HMt. destruct (ematches_sound bol p row q Hp HMt) as (Hpq & _).
    split; [auto|].
    destruct HMt as (start & b & Hs & (HV & Ha & Hlast) & <- & <-). apply start_from in Hs.
    set (bl := sees_bol k t bol) in *. set (w0 := if bl then [SBol] else []) in *.
    assert (LS : forall a c, Forall line_sym (line_bytes a c ++ [SEol])).
    { intros a c. apply Forall_app. split; [apply line_bytes_sym|repeat constructor]. }
    destruct (accepted_word _ _ _ Hs Hp b HV Ha) as (_ & [(Hq & SW & Sb)|(Fe & A & SW)]).
    - (* reached by text *)
      assert (XE : forall q' r', (cpos b <= q' <= length inp)%nat -> f_eol k = true -> at_line_end inp q' -> In r' rules ->
        ~ dr_lang g m r' (w0 ++ line_bytes p q' ++ [SEol])).
      { intros q' r' Hq' Fe A Hr' HL.
        destruct (er_complete _ _ _ _ _ _ RC _ _ _ _ NL Hs (LS _ _) Hr' HL) as (row' & SW' & Ha').
        pose proof SW' as SW2. rewrite (line_bytes_split p (cpos b) q') in SW2 by lia. rewrite <- app_assoc in SW2.
        apply swalk_app in SW2 as (x & S1 & S2). rewrite (swalk_det _ _ _ _ _ S1 SW) in S2.
        destruct (eol_vplus _ _ _ Hs Hp r' q' ltac:(lia) Hr' HL Fe A (cpos b) (crow b) row' ltac:(lia) SW S2) as (e & HV').
        apply (Hlast (row', q', e)); [|auto]. destruct b as ((rb, pb), eb). cbn in Sb. subst eb. exact HV'. }
      destruct (proj1 (er_sound _ _ _ _ _ _ RC _ _ _ _ Hs (line_bytes_sym _ _) SW) Ha) as (r & HF & HD).
      exists r. split; [destruct HF as (j & E & _); eapply nth_error_In; eauto|]. split; [auto|].
      split.
      + left. split; [auto|]. split; [auto|]. intros Fe A r' Hr' HL. unfold eol_word in HL. rewrite word_line, <- app_assoc in HL.
        apply (XE (cpos b) r'); auto. lia.
      + intros q' r' Hq' Hr' [HL|(Fe & A & HL)].
        * rewrite word_line in HL. fold w0 in HL.
          destruct (er_complete _ _ _ _ _ _ RC _ _ _ _ NL Hs (line_bytes_sym _ _) Hr' HL) as (row' & SW' & Ha').
          rewrite (line_bytes_split p (cpos b) q') in SW' by lia. apply swalk_app in SW' as (x & S1 & S2).
          rewrite (swalk_det _ _ _ _ _ S1 SW) in S2.
          apply (Hlast (row', q', false)); [|auto]. destruct b as ((rb, pb), eb). cbn in Sb. subst eb.
          apply (text_vplus _ _ _ Hs Hp r' [] q' ltac:(lia) Hr' ltac:(rewrite app_nil_r; exact HL) (q' - S pb)); auto; cbn in *; lia.
        * unfold eol_word in HL. rewrite word_line, <- app_assoc in HL. apply (XE q' r'); auto. lia.
    - (* reached by an end of line *)
      assert (NX : forall q' r' v, (cpos b < q' <= length inp)%nat -> In r' rules ->
        ~ dr_lang g m r' (w0 ++ line_bytes p q' ++ v)).
      { intros q' r' v Hq' Hr' HL. apply swalk_app in SW as (x & S1 & S2).
        assert (He : eol_to k t x (crow b)).
        { inversion S2 as [| |? row' ? ? H2 H3 H4]; subst. inversion H4; subst. repeat split; auto. }
        destruct (nth_error inp (cpos b)) as [c|] eqn:Ec; [|apply nth_error_None in Ec; lia].
        assert (Hc : c = 13 \/ c = 10).
        { destruct A as [A|[A|A]]; [left; congruence|right; congruence|lia]. }
        rewrite (line_bytes_split p (cpos b) q'), (line_bytes_split (cpos b) (S (cpos b)) q'), (line_bytes_one _ c Ec), <- !app_assoc in HL by lia.
        exact (no_line_char _ _ _ Hs (cpos b) x c (crow b) r' _ S1 Hc He Hr' HL). }
      destruct (proj1 (er_sound _ _ _ _ _ _ RC _ _ _ _ Hs (LS _ _) SW) Ha) as (r & HF & HD).
      exists r. split; [destruct HF as (j & E & _); eapply nth_error_In; eauto|]. split; [auto|].
      rewrite app_assoc in HF.
      split; [right; auto|].
      intros q' r' Hq' Hr' [HL|(_ & _ & HL)].
      + apply (NX q' r' []); auto. rewrite app_nil_r. exact HL.
      + unfold eol_word in HL. rewrite word_line, <- app_assoc in HL. apply (NX q' r' [SEol]); auto.
  Qed.
  Theorem eunmatched_none bol p : (p <= length inp)%nat -> unmatched k t inp bol p ->
    forall q r, In r rules ->
      ((p < q <= length inp)%nat -> ~ dr_lang g m r (word_of k inp (sees_bol k t bol) p q)) /\
      ((p <= q <= length inp)%nat -> f_eol k = true -> at_line_end inp q -> ~ dr_lang g m r (eol_word (sees_bol k t bol) p q)).
  Proof.
    intros Hp (start & Hs & HN) q r Hr. apply start_from in Hs.
    set (w0 := if sees_bol k t bol then [SBol] else []) in *.
    assert (S0 : swalk t start (line_bytes p p) start) by (rewrite line_bytes_nil; constructor).
    split.
    - intros Hq HL. rewrite word_line in HL. fold w0 in HL.
      destruct (er_complete _ _ _ _ _ _ RC _ _ _ _ NL Hs (line_bytes_sym _ _) Hr HL) as (row' & SW & Ha').
      apply (HN (row', q, false)); [|auto].
      apply (text_vplus _ _ _ Hs Hp r [] q ltac:(lia) Hr ltac:(rewrite app_nil_r; exact HL) (q - S p)); auto; lia.
    - intros Hq Fe A HL. unfold eol_word in HL. rewrite word_line, <- app_assoc in HL. fold w0 in HL.
      destruct (er_complete _ _ _ _ _ _ RC _ _ _ _ NL Hs (line_eol_sym _ _) Hr HL)
        as (row' & SW & Ha').
      destruct (eol_vplus _ _ _ Hs Hp r q ltac:(lia) Hr HL Fe A p start row' ltac:(lia) S0 SW) as (e & HV).
      apply (HN (row', q, e)); auto.
  Qed.
  Theorem erow1_empty : (accepting t 1 -> exists r, In r rules /\ first_rule g m rules [] r /\
       row_data t 1 (dr_info r)) /\
    (~ accepting t 1 -> forall r, In r rules -> ~ dr_lang g m r []).
  Proof.
    destruct (er_sound _ _ _ _ _ _ RC 1 [] [] 1) as [H1 H2].
    { left; auto. } { constructor. } { constructor. }
    split; [|exact H2]. intros Ha. destruct (H1 Ha) as (r & Hr & HD). exists r.
    split; [|split; auto]. destruct Hr as (j & E & _). eapply nth_error_In; eauto.
  Qed.
End Lookup.
