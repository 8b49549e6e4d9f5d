(** Lexers with start states: from the texts to all the tokens of an input, by
    every route. *)
From Verif Require Import Base StringToken StateMachine ReToken DfaSpec Grammar Tree Parser
  Generator Build Lookup TableSpec LookupSpec RuleSpec BuildSpec BuildLookup BuildErrs BuildThms BuildClean Minimise TableSim MinimiseProofs Iterator GenCpp GenCppSpec GenBuilt GenMade FlagsSpec
  BuildCheck ReTokeniser ReTokeniserNext Rules TokeniseSpec RulesSpec RulesBuild
  SourceSpec SourceLexer SourceTop SourceStates StatesTop TokenList Routes StateTokens.
Local Open Scope N_scope.

(** The tokens [l], and the exception [e] if there is one, come out. *)
Definition iterates_to (kc : cfg) (m : internals) (inp : list N) (l : list shows) (e : option err) : Prop :=
  forall n fuel inner, (length inp < n)%nat -> (length inp < fuel)%nat -> (length inp < inner)%nat ->
    exists rs, visit_all n fuel inner kc m inp 0 true 0 = Ok (rs, e) /\ map seen rs = l.
Definition replaces_to (kc : cfg) (m : internals) (inp : list N) (l : list shows) (e : option err) : Prop :=
  forall n fuel inner f out, (length inp < n)%nat -> (length inp < fuel)%nat -> (length inp < inner)%nat ->
    replace n fuel inner kc m inp f insert out = match e with None => Ok (out ++ changed inp f 0 l) | Some e => Throw e end.
(** Generated code does not look whether the stack is empty (finding 53). *)
Definition generates_to (kc : cfg) (m : internals) (inp : list N) (l : list shows) (e : option err) : Prop :=
  forall n fuel inner, (length inp < n)%nat -> (2 * S (length inp) <= fuel)%nat -> (length inp < inner)%nat ->
    match e with
    | None => exists rs, gen_all n fuel inner (c_bits kc) (c_bytes kc) false m inp (new_results kc 0 true 0) = Ok rs /\ map seen rs = finished l
    | Some _ => gen_all n fuel inner (c_bits kc) (c_bytes kc) false m inp (new_results kc 0 true 0) = UB
    end.
Definition all_roads (kc : cfg) (m : internals) (inp : list N) (l : list shows) (e : option err) : Prop :=
  iterates_to kc m inp l e /\ replaces_to kc m inp l e /\
  (exists m', minimise (c_bits kc) m = Ok m' /\ iterates_to kc m' inp l e /\ replaces_to kc m' inp l e) /\
  (GenBuilt.covers kc m -> f_eol kc = false -> generates_to kc m inp l e).

Section Texts.
  Variables (k : rcfg) (g : gcfg) (kc : cfg) (fl : N) (more : list (list N)) (mds : list smacro) (ds : list decl) (f : nat) (m : internals) (inp : list N).
  Hypothesis NPOS : 1 < rnpos k.
  Hypothesis Hbits : g_bits g = r_bits k.
  Hypothesis Hbytes : g_bytes g = r_bytes k.
  Hypothesis Hb : 0 < g_bytes g.
  Hypothesis AG : agree kc g.
  Let names := initial :: more.
  Hypothesis ND : NoDup names.
  Hypothesis FV : Forall (fun n => validate n = true) more.
  Hypothesis LN : N.of_nat (length names) < 2 ^ r_bits k.
  Hypothesis MO : smacros_ok k fl mds.
  Hypothesis Hd : Forall (decl_ok k fl mds names) ds.
  Let ru := make_lexer k fl more mds ds.
  Let R := grules_of ru.
  Hypothesis Sets : forall s, In s (gr_states R) -> N.of_nat (length (all_sets (g_bytes g) s)) < eol_tok g.
  Hypothesis Sli : forall i x t, In x (rules_at ru i) -> In t (gr_tokens x) -> sliceable (g_bytes g) t.
  Hypothesis HB : build f g R = Ok m.
  Hypothesis Zero : has fl rf_match_zero_len = false.
  Hypothesis Adv : f_adv kc = true.
  Hypothesis Multi : f_multi kc = true.
  Hypothesis HI : Forall (fits (c_bytes kc)) inp.
  Hypothesis HK : known_chars (g_bytes g) inp.
  Hypothesis CV : RulesBuild.covers kc m.

  Notation toks := (mtokens (npos kc) (skip_id kc) (f_bol kc) ds inp initial [] true 0%nat).

  Lemma none_pos : npos kc <> 0.
  Proof. destruct AG as (-> & _). unfold gnpos. rewrite Hbits. change (rnpos k <> 0). lia. Qed.
  Lemma step fuel inner : (length inp < fuel)%nat -> (length inp < inner)%nat -> forall r n st, placed names inp r n st ->
    exists r' o a, lookup fuel inner kc m inp r = Ok (r', o) /\ answers names inp r' o a /\ mreads (npos kc) (skip_id kc) (f_bol kc) ds inp (r_second r) n st (r_bol r) (r_second r) a.
  Proof. intros L1 L2 r n st PL. exact (texts_to_states k g kc fl more mds ds f m inp NPOS Hbits Hbytes Hb AG ND FV LN MO Hd Sets Sli HB Zero Adv Multi HI HK r fuel inner n st CV PL L1 L2). Qed.
  Lemma placed_new : placed names inp (new_results kc 0 true 0) initial [].
  Proof. split; [reflexivity|]. split; [constructor|cbn; lia]. Qed.
  Lemma placed_range r n st : placed names inp r n st -> in_range R inp r.
  Proof.
    assert (NB : forall i n', named names i n' -> i < N.of_nat (length (gr_states R))).
    { intros i n' H. unfold R, ru. rewrite (state_count k fl more mds ds); auto. assert (N.to_nat i < length names)%nat by (apply nth_error_Some; unfold named in H; congruence). fold names. lia. }
    intros (R1 & R2 & R3). split; [eapply NB; eauto|]. split; [|exact R3]. clear - R2 NB. induction R2 as [|a b l l' [H _] F IH]; constructor; eauto.
  Qed.
  Lemma all_simple : proper_unsplit k ru /\ simple g ru.
  Proof.
    split; [eapply lexer_object; eauto|]. eapply states_simple; eauto.
  Qed.
  Lemma same_roads m' l e : toks l e -> (forall fuel inner res, lookup fuel inner kc m' inp res = lookup fuel inner kc m inp res) -> iterates_to kc m' inp l e /\ replaces_to kc m' inp l e.
  Proof.
    intros T EQ. destruct (mtokens_fit _ _ _ _ _ none_pos _ _ _ _ _ _ T ltac:(lia)) as (_ & LL).
    assert (ST : forall fuel inner, (length inp < fuel)%nat -> (length inp < inner)%nat -> forall r n st, placed names inp r n st ->
      exists r' o a, lookup fuel inner kc m' inp r = Ok (r', o) /\ answers names inp r' o a /\ mreads (npos kc) (skip_id kc) (f_bol kc) ds inp (r_second r) n st (r_bol r) (r_second r) a).
    { intros fuel inner L1 L2 r n st PL. rewrite EQ. now apply step. }
    split.
    - intros n fuel inner L1 L2 L3. change (visit_all n fuel inner kc m' inp 0 true 0) with (go_on kc m' inp fuel inner n (new_results kc 0 true 0)).
      apply (go_on_list kc m' inp fuel inner names ds none_pos (ST _ _ L2 L3) _ _ _ _ _ _ T); auto using placed_new. lia.
    - intros n fuel inner fm out L1 L2 L3. apply (replaced kc m' inp fuel inner names ds none_pos (ST _ _ L2 L3) fm _ _ _ _ _ _ T); auto using placed_new. lia.
  Qed.
  Theorem states_all_tokens : exists l e, toks l e /\ all_roads kc m inp l e /\ ordered (length inp) 0 l.
  Proof.
    destruct (some_tokens kc m inp (S (length inp)) (S (length inp)) names ds none_pos (step _ _ (Nat.lt_succ_diag_r _) (Nat.lt_succ_diag_r _)) (length inp) _ _ _ placed_new) as (l & e & T); [cbn; lia|].
    change (toks l e) in T. exists l, e. split; [exact T|]. destruct (mtokens_fit _ _ _ _ _ none_pos _ _ _ _ _ _ T ltac:(lia)) as (OR & LL). split; [|exact OR].
    destruct all_simple as (P & SI). destruct (same_roads m l e T (fun _ _ _ => eq_refl)) as (I1 & I2). split; [exact I1|]. split; [exact I2|]. split.
    - assert (SE := made_setting k g ru NPOS Hbits Hbytes Hb P SI f kc m inp _ AG HB CV HI (placed_range _ _ _ placed_new)).
      assert (MC : mclean kc m) by (pose proof (se_machine _ _ _ _ _ _ _ SE) as MM; destruct SE; eapply built_mclean; eauto).
      destruct (minimise_correct kc m (se_mwf _ _ _ _ _ _ _ SE) MC) as (m' & E & L & _). exists m'. split; [exact E|]. apply (same_roads m' l e T). intros. apply L. exact (se_chars _ _ _ _ _ _ _ SE).
    - intros GC NE n fuel inner L1 L2 L3.
      refine (generated kc m inp (S (length inp)) inner names ds none_pos (step _ _ (Nat.lt_succ_diag_r _) L3) false fuel (fun a b => FlagsSpec.alike kc (machine_flags kc m) a b /\ stack_suits m a)
        _ _ initial [] true 0%nat l e T (new_results kc 0 true 0) (new_results kc 0 true 0) n placed_new _ eq_refl eq_refl _).
      + intros a b ((A1 & A2 & A3 & A4 & _) & _). unfold seen. congruence.
      + intros a b a' o n' st' PL (AL & SS) EL.
        pose proof (generated_made k g ru NPOS P Hbits Hbytes Hb SI f kc m inp a AG HB GC HI (placed_range _ _ _ PL) false inner (S (length inp)) b a' o) as GM.
        specialize (GM ltac:(discriminate)). 
        assert (G : match o with None => exists r0', gen_lookup fuel inner (c_bits kc) (c_bytes kc) false m inp b = Ok r0' /\ FlagsSpec.alike kc (machine_flags kc m) a' r0' /\ stack_suits m a' | Some _ => gen_lookup fuel inner (c_bits kc) (c_bytes kc) false m inp b = UB end).
        { apply GM; auto. left. destruct (GenCpp.has (i_features m) fb_eol) eqn:F; [|reflexivity]. apply (cv_eol _ _ GC) in F. congruence. }
        destruct o; [exact G|]. destruct G as (r0' & G1 & G2 & G3). exists r0'. auto.
      + split; [unfold FlagsSpec.alike; repeat split; auto|]. intros _. constructor.
      + lia.
  Qed.
End Texts.
