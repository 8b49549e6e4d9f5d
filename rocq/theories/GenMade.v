(** Generated code for the machine of a rules object. *)
From Verif Require Import Base StringToken StateMachine Slice ReToken DfaSpec ParserTree Grammar Tree Parser Generator Build Lookup TableSpec LookupSpec
  RuleSpec RuleWords BuildSpec BuildLookup BuildErrs BuildThms ReTokeniser ReTokeniserNext Rules TokeniseSpec PruneProofs TokeniseAll
  RulesSpec RulesInv RulesContent RulesFeat RulesBuild RulesTop EolSpec EolBuild EolLookup FlagsSpec FlagsProofs FlagsBuild GenCpp GenCppSpec GenCppProofs GenBuilt.
Local Open Scope N_scope.

Lemma bit_has f b : bit f b -> has f b = true.
Proof. intros H. unfold has. now apply negb_true_iff, N.eqb_neq. Qed.
Lemma has_bit f b : has f b = true -> bit f b.
Proof. intros H. unfold has in H. now apply negb_true_iff, N.eqb_neq in H. Qed.

Section Made.
  Variables (k : rcfg) (g : gcfg) (r : rules).
  Hypothesis NPOS : 1 < rnpos k.
  Hypothesis P : proper_unsplit k r.
  Hypothesis Hbits : g_bits g = r_bits k.
  Hypothesis Hbytes : g_bytes g = r_bytes k.
  Hypothesis Hb : 0 < g_bytes g.
  Hypothesis SI : simple g r.
  Variables (f : nat) (kc : cfg) (m : internals) (inp : list N) (res : results).
  Hypothesis HA : agree kc g.
  Hypothesis HB : build f g (grules_of r) = Ok m.
  Hypothesis CV : covers kc m.
  Hypothesis HI : Forall (fits (c_bytes kc)) inp.
  Hypothesis HR : in_range (grules_of r) inp res.

  Lemma gen_setting : setting f kc g (grules_of r) m inp res.
  Proof.
    apply (made_setting k g r NPOS Hbits Hbytes Hb P SI); auto. intros H. apply (cv_rec _ _ CV). now apply bit_has.
  Qed.
  Lemma made_announces : announces kc (grules_of r) m.
  Proof.
    pose proof gen_setting as SE. destruct (made_features k g r NPOS P f m HB) as (AN & _).
    assert (NP : npos kc = rnpos k). { destruct HA as (-> & _). unfold gnpos, rnpos. now rewrite Hbits. }
    assert (SK : skip_id kc = rskip k). { unfold skip_id, skip_of, rskip. rewrite <- NP. unfold npos, npos_of. lia. }
    assert (HH : forall b, has (i_features m) b = false -> ~ bit (i_features m) b) by (intros b H H'; apply bit_has in H'; congruence).
    constructor.
    - intros H. eapply plain_no_bol; [exact SE|]. intros gs Hg. unfold has_bol. destruct (N.land (gs_features gs) fb_bol =? 0) eqn:E; [reflexivity|].
      exfalso. apply (HH _ H). apply (machine_features f g _ m HB). left. exists gs. split; [exact Hg|]. unfold bit. now apply N.eqb_neq.
    - intros _. eapply plain_eol_free; exact SE.
    - intros H gs x Hg Hx E. destruct (state_rules k g r NPOS Hbits Hbytes Hb gs Hg) as (i & _ & E1 & _). rewrite E1 in Hx. apply (HH _ H). apply (AN i x Hx). congruence.
    - intros H gs x Hg Hx E. destruct (state_rules k g r NPOS Hbits Hbytes Hb gs Hg) as (i & _ & E1 & _). rewrite E1 in Hx. apply (HH _ H). apply (AN i x Hx). exact E.
    - intros H gs x Hg Hx. destruct (state_rules k g r NPOS Hbits Hbytes Hb gs Hg) as (i & _ & E1 & _). rewrite E1 in Hx.
      destruct (AN i x Hx) as (_ & _ & _ & _ & A). split.
      + destruct (gr_pop x) eqn:E; [|reflexivity]. exfalso. apply (HH _ H). auto.
      + destruct (N.eq_dec (gr_push x) (npos kc)) as [E|E]; [exact E|]. exfalso. apply (HH _ H). apply A. right. congruence.
  Qed.
  Theorem generated_made ptrs inner fuel r0 res' o :
    (ptrs = true -> has (i_features m) fb_bol = true -> forall st t, get_table m st = Some t -> cell t 0 0 <> Some 0) ->
    (has (i_features m) fb_eol = false \/ (ptrs = false /\ lines_suit kc inp)) ->
    stack_suits m res -> alike kc (machine_flags kc m) res r0 -> lookup fuel inner kc m inp res = Ok (res', o) -> forall n, (2 * fuel <= n)%nat ->
    match o with
    | None => exists r0', gen_lookup n inner (c_bits kc) (c_bytes kc) ptrs m inp r0 = Ok r0' /\ alike kc (machine_flags kc m) res' r0' /\ stack_suits m res'
    | Some _ => gen_lookup n inner (c_bits kc) (c_bytes kc) ptrs m inp r0 = UB
    end.
  Proof.
    assert (BY : 1 <= c_bytes kc) by (destruct HA as (_ & ->); lia).
    exact (generated_built f kc g (grules_of r) m inp res (setting_fair _ _ _ _ _ _ _ gen_setting) made_announces CV BY ptrs inner fuel r0 res' o).
  Qed.
End Made.
