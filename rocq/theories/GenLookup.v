(** lookup() on a table that recognises a list of rules. *)
From Verif Require Import Base StringToken StateMachine Tree TreeSpec Partition Generator Lookup TableSpec
  LookupSpec DfaSpec.
Local Open Scope N_scope.

Lemma walk_app t a b : forall row row', walk t row (a ++ b) row' <->
  exists x, walk t row a x /\ walk t x b row'.
Proof.
  induction a as [|c a IH]; intros row row'; cbn [app].
  - split; [intros H; exists row; split; [constructor|auto]|].
    intros (x & H1 & H2). inversion H1; subst. auto.
  - split.
    + intros H. inversion H as [|? ? col row1 ? ? H1 H2 H3 H4]; subst.
      apply IH in H4 as (x & A & C). exists x. split; [econstructor; eauto|auto].
    + intros (x & H & C). inversion H as [|? ? col row1 ? ? H1 H2 H3 H4]; subst.
      econstructor; eauto. apply IH. eauto.
Qed.
Lemma walk_det t bs : forall row a b, walk t row bs a -> walk t row bs b -> a = b.
Proof.
  induction bs as [|c bs IH]; intros row a b HA HB.
  - inversion HA; inversion HB; subst; congruence.
  - inversion HA as [|? ? col row1 ? ? H1 H2 H3 H4]; inversion HB as [|? ? col' row1' ? ? H1' H2' H3' H4']; subst.
    rewrite H1 in H1'. injection H1' as <-. rewrite H2 in H2'. injection H2' as <-. eauto.
Qed.

Lemma text_of_split inp p q r : (p <= q <= r)%nat -> (r <= length inp)%nat ->
  text_of inp p r = text_of inp p q ++ text_of inp q r.
Proof.
  intros H Hr. unfold text_of.
  replace (r - p)%nat with ((q - p) + (r - q))%nat by lia.
  assert (E : skipn q inp = skipn (q - p) (skipn p inp)).
  { replace q with ((q - p) + p)%nat at 1 by lia. generalize (q - p)%nat as a. intros a.
    clear H Hr. revert a inp. induction p as [|p IH]; intros a inp.
    - now rewrite Nat.add_0_r.
    - rewrite Nat.add_succ_r. destruct inp; cbn; [now rewrite skipn_nil|]. apply IH. }
  rewrite E. clear E. generalize (skipn p inp) as l. generalize (q - p)%nat as a. intros a l.
  revert l. induction a as [|a IH]; intros l; cbn; [auto|]. destruct l; cbn.
  - now rewrite firstn_nil.
  - f_equal. apply IH.
Qed.
Lemma text_of_one inp p c : nth_error inp p = Some c -> text_of inp p (S p) = [c].
Proof.
  intros H. unfold text_of. replace (S p - p)%nat with 1%nat by lia.
  apply nth_error_split in H as (l1 & l2 & -> & <-). rewrite skipn_app, skipn_all, Nat.sub_diag. reflexivity.
Qed.
Lemma text_of_nil inp p : text_of inp p p = [].
Proof. unfold text_of. now rewrite Nat.sub_diag. Qed.

Section Lookup.
  Variables (k : cfg) (g : gcfg) (m : charset_map) (s : store) (rules : list drule) (t : table) (n : N).
  Hypothesis RC : recognises g m s rules t n.
  Hypothesis NP : npos k = gnpos g.
  Hypothesis NR : n <= npos k.
  Variable inp : list N.
  Hypothesis CO : chars_ok k inp.

  Lemma rec_twf : twf k t n.
  Proof.
    repeat split; try apply RC; auto.
    intros v E. destruct (rc_cell0 _ _ _ _ _ _ RC) as (v' & E' & H). congruence.
  Qed.
  Lemma no_eol_to row e : ~ eol_to k t row e.
  Proof.
    intros (_ & E & H). destruct (N.lt_ge_cases row n) as [Hr|Hr].
    - rewrite (rc_eol _ _ _ _ _ _ RC) in E by auto. congruence.
    - unfold cell in E. assert (X : nth_error (t_dfa t) (N.to_nat (row * t_width t + ix_eol)) = None).
      { apply nth_error_None. assert (L := rc_len _ _ _ _ _ _ RC). nia. }
      congruence.
  Qed.
  Lemma bytes_small : forall p q, Forall (fun b => b < 256) (bytes_of k (text_of inp p q)).
  Proof.
    intros p q. apply Forall_forall. intros b Hb. unfold bytes_of in Hb.
    apply in_flat_map in Hb as (c & Hc & Hb).
    assert (Hi : In c inp).
    { unfold text_of in Hc. assert (F : forall a (l : list N) x, In x (firstn a l) -> In x l).
      { induction a; intros l x; cbn; [intros []|]. destruct l; [intros []|]. intros [->|H]; [left; auto|right; auto]. }
      assert (G : forall a (l : list N) x, In x (skipn a l) -> In x l).
      { induction a; intros l x; cbn; [auto|]. destruct l; [auto|]. intros H; right; auto. }
      eauto. }
    unfold char_bytes in Hb. unfold chars_ok in CO.
    destruct (N.eqb_spec (c_bytes k) 1) as [E|E].
    - specialize (CO E). rewrite Forall_forall in CO. destruct Hb as [<-|[]]. auto.
    - destruct (c_bytes k =? 2); cbn in Hb; decompose [or] Hb; try contradiction; subst b;
        apply N.mod_lt; discriminate.
  Qed.

  (** Steps read the text. *)
  Lemma vstep_walk a b : vstep k t inp a b -> snd a = false ->
    exists c, nth_error inp (cpos a) = Some c /\ b = (crow b, S (cpos a), false) /\
      walk t (crow a) (char_bytes k c) (crow b).
  Proof.
    intros H Ha. inversion H as [row p c row' E _ Hw|row p c e E Hc He|row e He]; subst; cbn.
    - eauto.
    - exfalso. eapply no_eol_to; eauto.
    - exfalso. eapply no_eol_to; eauto.
  Qed.
  Lemma vplus_walk a b : vplus k t inp a b -> snd a = false ->
    snd b = false /\ (cpos a < cpos b <= length inp)%nat /\
    walk t (crow a) (bytes_of k (text_of inp (cpos a) (cpos b))) (crow b).
  Proof.
    induction 1 as [a b H|a b c H HP IH]; intros Ha.
    - apply vstep_walk in H as (c & Ec & Eb & Hw); auto. 
      assert (Hp : cpos b = S (cpos a)) by (rewrite Eb; auto).
      split; [rewrite Eb; auto|].
      assert (cpos a < length inp)%nat by (apply nth_error_Some; congruence). split; [lia|].
      rewrite Hp, (text_of_one _ _ _ Ec). cbn [bytes_of flat_map]. now rewrite app_nil_r.
    - apply vstep_walk in H as (c0 & Ec & Eb & Hw); auto.
      assert (Hb : snd b = false) by (rewrite Eb; auto).
      assert (Hp : cpos b = S (cpos a)) by (rewrite Eb; auto).
      destruct (IH Hb) as (I1 & I2 & I3). split; [auto|]. split; [lia|].
      rewrite (text_of_split inp (cpos a) (cpos b) (cpos c)) by lia. unfold bytes_of.
      rewrite flat_map_app. apply walk_app. exists (crow b). split; [|exact I3].
      rewrite Hp, (text_of_one _ _ _ Ec). cbn. now rewrite app_nil_r.
  Qed.
  Lemma walk_vplus p q : (p < q <= length inp)%nat -> forall row row',
    walk t row (bytes_of k (text_of inp p q)) row' -> vplus k t inp (row, p, false) (row', q, false).
  Proof.
    intros Hpq. remember (q - p - 1)%nat as d eqn:Ed. revert p Hpq Ed.
    induction d as [|d IH]; intros p Hpq Ed row row' Hw.
    - assert (q = S p) by lia. subst q.
      destruct (nth_error inp p) as [c|] eqn:Ec; [|apply nth_error_None in Ec; lia].
      rewrite (text_of_one _ _ _ Ec) in Hw. cbn in Hw. rewrite app_nil_r in Hw.
      apply vp_one. econstructor; eauto. intros _ e. apply no_eol_to.
    - destruct (nth_error inp p) as [c|] eqn:Ec; [|apply nth_error_None in Ec; lia].
      rewrite (text_of_split inp p (S p) q) in Hw by lia. unfold bytes_of in Hw.
      rewrite flat_map_app in Hw. apply walk_app in Hw as (x & H1 & H2).
      rewrite (text_of_one _ _ _ Ec) in H1. cbn in H1. rewrite app_nil_r in H1.
      apply (vp_more _ _ _ _ (x, S p, false)); [|apply IH; [lia|lia|exact H2]].
      econstructor; eauto. intros _ e. apply no_eol_to.
  Qed.

  Lemma start_from bol start : start_row k t bol start ->
    from_row t start (if sees_bol k t bol then [SBol] else []).
  Proof.
    unfold start_row, sees_bol. destruct (f_bol k && bol); cbn [andb].
    - intros (b & E & ->). rewrite E. destruct (N.eqb_spec b 0) as [->|Hb]; cbn [negb].
      + left. auto.
      + right. auto.
    - intros ->. left. auto.
  Qed.

  (** Without laziness, the longest match of the first rule. *)
  Theorem matches_sound bol p row q : matches k t inp bol p row q ->
    (p < q <= length inp)%nat /\ exists r, In r rules /\
      first_rule g m rules (word_of k inp (sees_bol k t bol) p q) r /\ row_data t row (dr_info r).
  Proof.
    intros (start & b & Hs & (HV & Ha & _) & <- & <-).
    apply vplus_walk in HV as (Hb & Hpq & Hw); auto. cbn [cpos crow fst snd] in Hpq, Hw. split; [auto|].
    apply start_from in Hs.
    destruct (rc_sound _ _ _ _ _ _ RC _ _ _ _ Hs (bytes_small _ _) Hw) as [H _].
    destruct (H Ha) as (r & Hr & HD). exists r. split; [|auto].
    destruct Hr as (j & E & _). eapply nth_error_In; eauto.
  Qed.
  Theorem matches_longest bol p row q : no_lazy s rules -> matches k t inp bol p row q ->
    exists r, In r rules /\ longest k g m rules inp (sees_bol k t bol) p r q /\
      row_data t row (dr_info r).
  Proof.
    intros NL HMt. destruct (matches_sound bol p row q HMt) as (Hpq & r & Hr & HF & HD).
    exists r. split; [auto|]. split; [|auto]. split; [auto|]. split; [auto|].
    destruct HMt as (start & b & Hs & (HV & Ha & Hlast) & <- & <-).
    intros q' r' Hq' Hr' HL. apply start_from in Hs.
    destruct (rc_complete _ _ _ _ _ _ RC _ _ _ _ NL Hs (bytes_small _ _) Hr' HL) as (row' & Hw & Ha').
    apply vplus_walk in HV as (Hb & _ & Hw0); auto. cbn [cpos crow fst snd] in Hw0.
    rewrite (text_of_split inp p (cpos b) q') in Hw by (cbn [cpos fst snd] in *; lia).
    unfold bytes_of in Hw. rewrite flat_map_app in Hw. apply walk_app in Hw as (x & H1 & H2).
    assert (x = crow b) by (eapply walk_det; eauto). subst x.
    destruct b as ((rb, pb), eb). cbn in *. subst eb.
    apply (Hlast (row', q', false)); [|auto]. apply walk_vplus; auto.
  Qed.
  Theorem unmatched_none bol p : no_lazy s rules -> unmatched k t inp bol p ->
    none_matches k g m rules inp (sees_bol k t bol) p.
  Proof.
    intros NL (start & Hs & HN) q r Hq Hr HL. apply start_from in Hs.
    destruct (rc_complete _ _ _ _ _ _ RC _ _ _ _ NL Hs (bytes_small _ _) Hr HL) as (row' & Hw & Ha').
    apply (HN (row', q, false)); [|auto]. apply walk_vplus; auto.
  Qed.
  (** Row 1 accepts iff the empty word is matched. *)
  Theorem row1_empty : (accepting t 1 -> exists r, In r rules /\ first_rule g m rules [] r /\
       row_data t 1 (dr_info r)) /\
    (~ accepting t 1 -> forall r, In r rules -> ~ dr_lang g m r []).
  Proof.
    destruct (rc_sound _ _ _ _ _ _ RC 1 [] [] 1) as [H1 H2].
    { left; auto. } { constructor. } { constructor. }
    split; [|exact H2]. intros Ha. destruct (H1 Ha) as (r & Hr & HD). exists r.
    split; [|split; auto]. destruct Hr as (j & E & _). eapply nth_error_In; eauto.
  Qed.
End Lookup.
