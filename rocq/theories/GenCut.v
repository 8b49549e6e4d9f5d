(** lookup() on a table with abstemious rules: a match is shorter than the
    longest one only if its rule is abstemious. *)
From Verif Require Import Base StringToken StateMachine Tree TreeSpec Partition Generator Lookup TableSpec
  LookupSpec DfaSpec GenLookup.
Local Open Scope N_scope.

Section Cut.
  Variables (k : cfg) (g : gcfg) (m : charset_map) (s : store) (rules : list drule) (t : table) (n : N).
  Hypothesis RC : recognises g m s rules t n.
  Hypothesis NP : npos k = gnpos g.
  Hypothesis NR : n <= npos k.
  Variable inp : list N.
  Hypothesis CO : chars_ok k inp.
  (** Words of rules are whole characters. *)
  Hypothesis WC : forall r (bol : bool) bs, In r rules -> Forall (fun b => b < 256) bs ->
    dr_lang g m r ((if bol then [SBol] else []) ++ map SByte bs) -> exists cs, bs = bytes_of k cs.

  Lemma walk_or_stop r row0 w0 : In r rules -> from_row t row0 w0 -> forall bs bs0 row,
    Forall (fun b => b < 256) (bs0 ++ bs) -> walk t row0 bs0 row ->
    dr_lang g m r (w0 ++ map SByte (bs0 ++ bs)) ->
    (exists row', walk t row bs row') \/
    exists bs1 bs2 row1, bs = bs1 ++ bs2 /\ bs2 <> [] /\ walk t row bs1 row1 /\
      lazy_at g m rules (w0 ++ map SByte (bs0 ++ bs1)).
  Proof.
    intros Hr HF. induction bs as [|b bs IH]; intros bs0 row Hb Hw HL.
    - left. exists row. constructor.
    - pose proof Hb as Hb'. apply Forall_app in Hb' as [Hb1 Hb2]. inversion Hb2 as [|x y Hb3 Hb4]; subst.
      rewrite map_app in HL. cbn [map] in HL.
      destruct (rc_stop _ _ _ _ _ _ RC row0 w0 bs0 row b (map SByte bs) r HF Hb1 Hw Hb3 Hr HL) as [(row1 & H1)|H1].
      + assert (Hw1 : walk t row0 (bs0 ++ [b]) row1) by (apply walk_app; eauto).
        destruct (IH (bs0 ++ [b]) row1) as [(row' & H2)|(bs1 & bs2 & row2 & E & NE & H2 & HZ)].
        * now rewrite <- app_assoc.
        * auto.
        * rewrite <- app_assoc, map_app. exact HL.
        * left. exists row'. change (b :: bs) with ([b] ++ bs). apply walk_app. eauto.
        * right. exists (b :: bs1), bs2, row2. split; [now rewrite E|]. split; [auto|]. split.
          -- change (b :: bs1) with ([b] ++ bs1). apply walk_app. eauto.
          -- rewrite <- app_assoc in HZ. exact HZ.
      + right. exists [], (b :: bs), row. split; [auto|]. split; [discriminate|]. split; [constructor|]. now rewrite app_nil_r.
  Qed.

  Lemma bytes_len c : length (char_bytes k c) = length (char_bytes k 0).
  Proof. unfold char_bytes. destruct (c_bytes k =? 1), (c_bytes k =? 2); reflexivity. Qed.
  Lemma bytes_pos : (0 < length (char_bytes k 0))%nat.
  Proof. unfold char_bytes. destruct (c_bytes k =? 1), (c_bytes k =? 2); cbn; lia. Qed.
  Lemma bytes_of_len cs : length (bytes_of k cs) = (length cs * length (char_bytes k 0))%nat.
  Proof. unfold bytes_of. induction cs as [|c cs IH]; cbn [flat_map]; [auto|]. rewrite app_length, bytes_len, IH. cbn. lia. Qed.
  Lemma bytes_prefix cs : forall ds bs, bytes_of k cs = bytes_of k ds ++ bs ->
    bytes_of k ds = bytes_of k (firstn (length ds) cs) /\ (length ds <= length cs)%nat.
  Proof.
    intros ds bs E. assert (L : (length ds <= length cs)%nat).
    { apply (f_equal (@length N)) in E. rewrite app_length, !bytes_of_len in E. pose proof bytes_pos. nia. }
    split; [|auto].
    assert (E2 : bytes_of k cs = bytes_of k (firstn (length ds) cs) ++ bytes_of k (skipn (length ds) cs)).
    { rewrite <- (firstn_skipn (length ds) cs) at 1. unfold bytes_of. apply flat_map_app. }
    rewrite E2 in E. assert (L2 : length (bytes_of k (firstn (length ds) cs)) = length (bytes_of k ds)).
    { rewrite !bytes_of_len, firstn_length. f_equal. lia. }
    symmetry. revert E L2. generalize (bytes_of k (firstn (length ds) cs)), (bytes_of k ds), (bytes_of k (skipn (length ds) cs)).
    clear. induction l as [|x l IH]; intros l0 l1 E L; destruct l0; cbn in *; try discriminate; auto.
    injection E as -> E. f_equal. eapply IH; eauto.
  Qed.
  Lemma text_len p q : (p <= q <= length inp)%nat -> length (text_of inp p q) = (q - p)%nat.
  Proof. intros H. unfold text_of. rewrite firstn_length, skipn_length. lia. Qed.

  (** From a configuration on the way of the rule's word: the scan arrives, or stops
      at a position where the first rule is abstemious. *)
  Lemma scan_or_stop bol start p q q' row r : start_row k t bol start -> In r rules ->
    (p <= q <= q')%nat -> (q' <= length inp)%nat ->
    walk t start (bytes_of k (text_of inp p q)) row ->
    dr_lang g m r (word_of k inp (sees_bol k t bol) p q') ->
    (exists row', walk t row (bytes_of k (text_of inp q q')) row' /\ accepting t row') \/
    exists q1 row1, (q <= q1 < q')%nat /\ walk t row (bytes_of k (text_of inp q q1)) row1 /\
      lazy_at g m rules (word_of k inp (sees_bol k t bol) p q1).
  Proof.
    intros Hs Hr Hq Hq' Hw HL. apply start_from in Hs. unfold word_of in *.
    assert (SPB : forall a b c, (a <= b <= c)%nat -> (c <= length inp)%nat ->
      bytes_of k (text_of inp a c) = bytes_of k (text_of inp a b) ++ bytes_of k (text_of inp b c)).
    { intros a b c H1 H2. rewrite (text_of_split inp a b c) by auto. unfold bytes_of. apply flat_map_app. }
    assert (FB : forall a b, Forall (fun x => x < 256) (bytes_of k (text_of inp a b))) by (intros; now apply bytes_small).
    destruct (walk_or_stop r start _ Hr Hs (bytes_of k (text_of inp q q')) (bytes_of k (text_of inp p q)) row)
      as [(row' & H1)|(bs1 & bs2 & row1 & E & NE & H1 & HZ)]; auto.
    - apply Forall_app; auto.
    - now rewrite <- SPB by lia.
    - left. exists row'. split; [auto|].
      assert (Hw' : walk t start (bytes_of k (text_of inp p q')) row') by (rewrite (SPB p q q') by lia; apply walk_app; eauto).
      destruct (rc_sound _ _ _ _ _ _ RC _ _ _ _ Hs (FB _ _) Hw') as [_ H2].
      destruct (cell t row' ix_end) as [e|] eqn:Ee.
      + destruct (N.eq_dec e 0) as [->|He]; [|exists e; auto].
        exfalso. apply (H2) with r; auto. intros (e & Ee' & He). congruence.
      + exfalso. apply (H2) with r; auto. intros (e & Ee' & He). congruence.
    - right. pose proof HZ as (r1 & (j & Ej & HL1 & _) & _).
      assert (EA : bytes_of k (text_of inp p q') = (bytes_of k (text_of inp p q) ++ bs1) ++ bs2).
      { rewrite (SPB p q q') by lia. now rewrite E, app_assoc. }
      destruct (WC r1 (sees_bol k t bol) (bytes_of k (text_of inp p q) ++ bs1)) as (cs & Ecs); auto.
      { eapply nth_error_In; eauto. }
      { specialize (FB p q'). rewrite EA in FB. apply Forall_app in FB. apply FB. }
      assert (LQ : (q - p <= length cs)%nat).
      { apply (f_equal (@length N)) in Ecs. rewrite app_length, !bytes_of_len, text_len in Ecs by lia.
        pose proof bytes_pos. nia. }
      assert (EC : bytes_of k (text_of inp p q') = bytes_of k cs ++ bs2) by (now rewrite <- Ecs).
      destruct (bytes_prefix _ _ _ EC) as [E1 L1]. rewrite text_len in L1 by lia.
      set (q1 := (p + length cs)%nat).
      assert (ET : firstn (length cs) (text_of inp p q') = text_of inp p q1).
      { unfold text_of, q1. rewrite firstn_firstn. f_equal. lia. }
      rewrite ET in E1.
      assert (EB : bs1 = bytes_of k (text_of inp q q1)).
      { rewrite E1 in Ecs. rewrite (SPB p q q1) in Ecs by (unfold q1; lia). now apply app_inv_head in Ecs. }
      exists q1, row1. split; [|split].
      + assert (length cs <> (q' - p)%nat); [|unfold q1; lia].
        intros X. apply (f_equal (@length N)) in EC. rewrite app_length, !bytes_of_len, text_len, X in EC by lia.
        destruct bs2; [congruence|]. cbn in EC. lia.
      + now rewrite <- EB.
      + rewrite (SPB p q q1) by (unfold q1; lia). now rewrite <- EB.
  Qed.

  Lemma lazy_accepting bol start p q row : start_row k t bol start -> (p <= q <= length inp)%nat ->
    walk t start (bytes_of k (text_of inp p q)) row ->
    lazy_at g m rules (word_of k inp (sees_bol k t bol) p q) -> accepting t row.
  Proof.
    intros Hs Hq Hw (r & (j & Ej & HL & _) & _). apply start_from in Hs.
    destruct (rc_sound _ _ _ _ _ _ RC _ _ _ _ Hs (bytes_small k inp CO _ _) Hw) as [_ H2].
    destruct (cell t row ix_end) as [e|] eqn:Ee.
    - destruct (N.eq_dec e 0) as [->|He]; [|exists e; auto].
      exfalso. apply (H2) with r; auto; [|eapply nth_error_In; eauto]. intros (e & Ee' & He). congruence.
    - exfalso. apply (H2) with r; auto; [|eapply nth_error_In; eauto]. intros (e & Ee' & He). congruence.
  Qed.

  Theorem matches_cut bol p row q : matches k t inp bol p row q ->
    forall q' r, (q < q' <= length inp)%nat -> In r rules ->
    dr_lang g m r (word_of k inp (sees_bol k t bol) p q') ->
    lazy_at g m rules (word_of k inp (sees_bol k t bol) p q).
  Proof.
    intros (start & b & Hs & (HV & Ha & Hlast) & <- & <-) q' r Hq' Hr HL.
    apply (vplus_walk k g m s rules t n RC) in HV as (Hb & Hpq & Hw); auto. cbn [cpos crow fst snd] in Hpq, Hw, Hq', HL |- *.
    destruct b as ((rb, pb), eb). cbn in *. subst eb.
    destruct (scan_or_stop bol start p pb q' rb r Hs Hr) as [(row' & H1 & H2)|(q1 & row1 & H1 & H2 & H3)]; auto; try lia.
    - exfalso. apply (Hlast (row', q', false)); [|auto]. eapply walk_vplus; eauto.
    - destruct (Nat.eq_dec q1 pb) as [->|Hne]; [auto|]. exfalso.
      apply (Hlast (row1, q1, false)); [eapply walk_vplus; eauto; lia|]. cbn.
      apply (lazy_accepting bol start p q1 row1 Hs); [lia| |auto].
      rewrite (text_of_split inp p pb q1) by lia. unfold bytes_of. rewrite flat_map_app. apply walk_app. eauto.
  Qed.
  Theorem unmatched_cut bol p : unmatched k t inp bol p -> (p <= length inp)%nat ->
    forall q r, (p < q <= length inp)%nat -> In r rules ->
    dr_lang g m r (word_of k inp (sees_bol k t bol) p q) ->
    lazy_at g m rules (word_of k inp (sees_bol k t bol) p p).
  Proof.
    intros (start & Hs & HN) Hp q r Hq Hr HL.
    destruct (scan_or_stop bol start p p q start r Hs Hr) as [(row' & H1 & H2)|(q1 & row1 & H1 & H2 & H3)]; auto; try lia.
    - rewrite text_of_nil. constructor.
    - exfalso. apply (HN (row', q, false)); [|auto]. eapply walk_vplus; eauto.
    - destruct (Nat.eq_dec q1 p) as [->|Hne]; [auto|]. exfalso.
      apply (HN (row1, q1, false)); [eapply walk_vplus; eauto; lia|]. cbn.
      apply (lazy_accepting bol start p q1 row1 Hs); [lia|auto|auto].
  Qed.
End Cut.
