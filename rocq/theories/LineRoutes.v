(** Lexers whose rules end with $: all tokens by every route. *)
From Verif Require Import Base StringToken StateMachine ReToken DfaSpec Grammar Tree Parser
  Generator Build Lookup TableSpec LookupSpec RuleSpec BuildSpec BuildLookup BuildErrs BuildThms Minimise TableSim MinimiseProofs Iterator GenCpp GenCppSpec GenBuilt GenMade FlagsSpec FlagsBuild
  EolSpec EolBuild EolLookup EolLex ReTokeniser ReTokeniserNext Rules TokeniseSpec RulesSpec RulesFeat RulesBuild RulesTop
  BuildCheck SourceSpec SourceLexer SourceTop TokenList LineSpec LineTop.
Local Open Scope N_scope.

(** The tokens [l] come out of iterators and replace(), and of generated code. *)
Definition lines_iterate (kc : cfg) (m : internals) (inp : list N) (l : list shows) : Prop :=
  forall n fuel inner, (length inp < n)%nat -> (length inp < fuel)%nat -> (2 * length inp + 1 < inner)%nat ->
    (exists rs, visit_all n fuel inner kc m inp 0 true 0 = Ok (rs, None) /\ map seen rs = l) /\
    forall fm out, replace n fuel inner kc m inp fm insert out = Ok (out ++ rewritten inp fm 0 l).
Definition lines_generate (kc : cfg) (m : internals) (inp : list N) (l : list shows) : Prop :=
  forall n fuel inner, (length inp < n)%nat -> (2 * S (length inp) <= fuel)%nat -> (2 * length inp + 1 < inner)%nat ->
    exists rs, gen_all n fuel inner (c_bits kc) (c_bytes kc) false m inp (new_results kc 0 true 0) = Ok rs /\ map seen rs = l.
(** The minimised machine too; generated code for narrow characters, lines that end
    with \n and no \r (C52). *)
Definition lines_routes (kc : cfg) (m : internals) (inp : list N) (l : list shows) : Prop :=
  lines_iterate kc m inp l /\ (exists m', minimise (c_bits kc) m = Ok m' /\ lines_iterate kc m' inp l) /\
  (GenBuilt.covers kc m -> GenCpp.has (i_features m) fb_eol = true -> lines_suit kc inp -> lines_generate kc m inp l).

Section Clean.
  Variables (f : nat) (k : cfg) (g : gcfg) (R : grules) (m : internals) (inp : list N) (r : results).
  Hypothesis SE : fair_setting f k g R m inp r.
  Hypothesis LR : all_line_rules (g_bytes g) R.
  Lemma lines_clean : mclean k m.
  Proof.
    intros st t n Et Hwf. destruct (exact_state f k g R m inp r SE LR st t Et) as (gs & _ & _ & (s & ds & n' & ER & _)).
    assert (n = n').
    { destruct Hwf as (_ & _ & W & H & _). pose proof (er_len _ _ _ _ _ _ ER) as H'. rewrite H in H'.
      apply N.mul_cancel_r in H'; auto. unfold ix_trans in W. lia. }
    subst n'. split.
    - intros row Hr. apply (er_dead _ _ _ _ _ _ ER). lia.
    - intros col Hc. apply (er_row0 _ _ _ _ _ _ ER). unfold ix_eol in Hc. lia.
  Qed.
  Lemma lines_no_bol : (forall gs, In gs (gr_states R) -> has_bol (gs_features gs) = false) -> bol_free m.
  Proof.
    intros H st t G. destruct (exact_state f k g R m inp r SE LR st t G) as (gs & Eg & _ & (s & ds & n & ER & _ & _ & _ & _ & _ & _ & HB)).
    destruct (er_cell0 _ _ _ _ _ _ ER) as (v & V & _). destruct (N.eq_dec v 0) as [->|Z]; [exact V|].
    specialize (HB v V Z). rewrite (H gs (nth_error_In _ _ Eg)) in HB. discriminate.
  Qed.
End Clean.

Section Announce.
  Variables (k : rcfg) (g : gcfg) (r : rules) (f : nat) (kc : cfg) (m : internals) (inp : list N) (res : results).
  Hypothesis NPOS : 1 < rnpos k.
  Hypothesis P : proper_unsplit k r.
  Hypothesis Hbits : g_bits g = r_bits k.
  Hypothesis Hbytes : g_bytes g = r_bytes k.
  Hypothesis Hb : 0 < g_bytes g.
  Hypothesis HA : agree kc g.
  Hypothesis HB : build f g (grules_of r) = Ok m.
  Hypothesis SE : fair_setting f kc g (grules_of r) m inp res.
  Hypothesis LR : all_line_rules (g_bytes g) (grules_of r).
  Hypothesis EO : GenCpp.has (i_features m) fb_eol = true.
  Lemma lines_announces : announces kc (grules_of r) m.
  Proof.
    destruct (made_features k g r NPOS P f m HB) as (AN & _).
    assert (NP : npos kc = rnpos k). { destruct HA as (-> & _). unfold gnpos, rnpos. now rewrite Hbits. }
    assert (SK : skip_id kc = rskip k). { unfold skip_id, skip_of, rskip. rewrite <- NP. unfold npos, npos_of. lia. }
    assert (HH : forall b, GenCpp.has (i_features m) b = false -> ~ bit (i_features m) b) by (intros b H H'; apply bit_has in H'; congruence).
    constructor.
    - intros H. eapply lines_no_bol; [exact SE|exact LR|]. intros gs Hg. unfold has_bol. destruct (N.land (gs_features gs) fb_bol =? 0) eqn:E; [reflexivity|].
      exfalso. apply (HH _ H). apply (machine_features f g _ m HB). left. exists gs. split; [exact Hg|]. unfold bit. now apply N.eqb_neq.
    - intros H. congruence.
    - intros H gs x Hg Hx E. destruct (state_rules k g r NPOS Hbits Hbytes Hb gs Hg) as (i & _ & E1 & _). rewrite E1 in Hx. apply (HH _ H). apply (AN i x Hx). congruence.
    - intros H gs x Hg Hx E. destruct (state_rules k g r NPOS Hbits Hbytes Hb gs Hg) as (i & _ & E1 & _). rewrite E1 in Hx. apply (HH _ H). apply (AN i x Hx). exact E.
    - intros H gs x Hg Hx. destruct (state_rules k g r NPOS Hbits Hbytes Hb gs Hg) as (i & _ & E1 & _). rewrite E1 in Hx.
      destruct (AN i x Hx) as (_ & _ & _ & _ & A). split.
      + destruct (gr_pop x) eqn:E; [|reflexivity]. exfalso. apply (HH _ H). auto.
      + destruct (N.eq_dec (gr_push x) (npos kc)) as [E|E]; [exact E|]. exfalso. apply (HH _ H). apply A. right. congruence.
  Qed.
End Announce.

Theorem lines_all_routes k g kc fl mds xs f m inp : 1 < rnpos k -> g_bits g = r_bits k -> g_bytes g = r_bytes k -> r_bytes k = 1 \/ r_bytes k = 2 ->
  agree kc g -> smacros_ok k fl mds -> Forall (lrule_ok k fl mds) xs -> sapart (r_bytes k) xs ->
  (forall s, In s (gr_states (grules_of (push_all k fl mds xs))) -> N.of_nat (length (all_sets (g_bytes g) s)) < eol_tok g) ->
  build f g (grules_of (push_all k fl mds xs)) = Ok m -> f_adv kc = true -> Forall (fits (c_bytes kc)) inp ->
  exists l, tokens (dreads (npos kc) (skip_id kc) (f_bol kc) (f_eol kc) xs inp) true 0 l /\
    (forall l', tokens (dreads (npos kc) (skip_id kc) (f_bol kc) (f_eol kc) xs inp) true 0 l' -> l' = l) /\ lines_routes kc m inp l.
Proof.
  intros NP Hbits Hbytes Hb AG MO Hx AP Sets HB Adv HI. set (rd := dreads (npos kc) (skip_id kc) (f_bol kc) (f_eol kc) xs inp).
  assert (ST : forall fuel inner, (length inp < fuel)%nat -> (2 * length inp + 1 < inner)%nat -> forall res, ready inp res ->
    exists res', lookup fuel inner kc m inp res = Ok (res', None) /\ ready inp res' /\ rd (r_bol res) (r_second res) (r_id res') (r_uid res') (r_first res') (r_second res') (r_bol res')).
  { intros fuel inner Hf Hi res RY. exact (texts_to_lines k g kc fl mds xs f m inp NP Hbits Hbytes Hb AG MO Hx AP Sets HB Adv HI res fuel inner RY Hf Hi). }
  assert (PR : forall bol p id uid i j b, (p <= length inp)%nat -> rd bol p id uid i j b -> (id = 0 /\ i = length inp) \/ (id <> 0 /\ (p <= i < j)%nat /\ (j <= length inp)%nat)).
  { intros bol p id uid i j b Lp H. refine (dreads_prog _ _ _ _ _ _ _ _ _ _ _ _ _ _ _ Lp H).
    - destruct AG as (-> & _). unfold gnpos. rewrite Hbits. change (rnpos k <> 0). lia.
    - eapply Forall_impl; [|exact Hx]. intros x [[_ _ _ (I & _)] _ _]. exact I. }
  assert (DT : determined rd).
  { intros bol p id uid i j b id' uid' i' j' b' H1 H2. exact (dreads_det _ _ _ _ _ _ _ _ _ _ _ _ _ H1 _ _ _ _ _ H2). }
  assert (SE : forall res, ready inp res -> fair_setting f kc g (grules_of (push_all k fl mds xs)) m inp res).
  { intros res RY. eapply lines_setting; eauto. }
  assert (LR : all_line_rules (g_bytes g) (grules_of (push_all k fl mds xs))).
  { apply Forall_forall. eapply lines_rules; eauto. }
  assert (PU : proper_unsplit k (push_all k fl mds xs)) by (eapply lines_proper; eauto).
  assert (R0 : ready inp (new_results kc 0 true 0)) by (apply ready_new; lia).
  assert (SAME : forall m' l, tokens rd true 0 l -> (forall fuel inner res, lookup fuel inner kc m' inp res = lookup fuel inner kc m inp res) -> lines_iterate kc m' inp l).
  { intros m' l T EQ n fuel inner L1 L2 L3.
    assert (ST' : forall res, ready inp res -> exists res', lookup fuel inner kc m' inp res = Ok (res', None) /\ ready inp res' /\
      rd (r_bol res) (r_second res) (r_id res') (r_uid res') (r_first res') (r_second res') (r_bol res')) by (intros res RY; rewrite EQ; auto).
    split.
    - destruct (visit_all_list kc m' inp fuel inner rd ST' PR 0%nat true n ltac:(lia) L1) as (rs & V & T'). exists rs. split; [exact V|]. exact (tokens_det rd DT _ _ _ T' _ T).
    - intros fm out. destruct (replace_all kc m' inp fuel inner rd ST' PR fm n out L1) as (l' & V & T'). rewrite V. now rewrite (tokens_det rd DT _ _ _ T' _ T). }
  destruct (visit_all_list kc m inp (S (length inp)) (S (2 * length inp + 1)) rd (ST _ _ (Nat.lt_succ_diag_r _) (Nat.lt_succ_diag_r _)) PR 0%nat true (S (length inp)) ltac:(lia) ltac:(lia)) as (rs0 & _ & T).
  exists (map seen rs0). split; [exact T|]. split; [intros l' T'; exact (tokens_det rd DT _ _ _ T' _ T)|]. split; [now apply SAME|]. split.
  - destruct (minimise_correct kc m (fs_mwf _ _ _ _ _ _ _ (SE _ R0)) (lines_clean _ _ _ _ _ _ _ (SE _ R0) LR)) as (m' & E & L & _).
    exists m'. split; [exact E|]. apply SAME; [exact T|]. intros. apply L. exact (fs_chars _ _ _ _ _ _ _ (SE _ R0)).
  - intros GC EO LS n fuel inner L1 L2 L3.
    destruct (gen_all_list kc m inp (S (length inp)) inner rd (ST _ _ (Nat.lt_succ_diag_r _) L3) PR false fuel (fun a b => FlagsSpec.alike kc (machine_flags kc m) a b)) with (n := n) (r := new_results kc 0 true 0) (r0 := new_results kc 0 true 0)
      as (rs & V & T').
    + intros a b (A1 & A2 & A3 & A4 & _). unfold seen. congruence.
    + intros a b a' RY AL EL. assert (GB : 0 < g_bytes g) by (rewrite Hbytes; destruct Hb as [-> | ->]; reflexivity).
      assert (BY : 1 <= c_bytes kc) by (destruct AG as (_ & ->); lia).
      assert (AN := lines_announces k g _ f kc m inp a NP PU Hbits Hbytes GB AG HB (SE a RY) LR EO).
      pose proof (generated_built f kc g _ m inp a (SE a RY) AN GC BY false inner (S (length inp)) b a' None) as GM.
      destruct GM with (n := fuel) as (r0' & G & A & _); eauto; try discriminate.
      intros _. destruct RY as (_ & -> & _). constructor.
    + exact R0.
    + unfold FlagsSpec.alike. repeat split; auto.
    + cbn [new_results r_second]. lia.
    + exists rs. split; [exact V|]. now apply (tokens_det rd DT _ _ _ T').
Qed.
