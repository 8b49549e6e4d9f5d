(** What build() does with rules some of which are comments. *)
From Verif Require Import Base StringTokenSpec StringTokenProofs RegexSpec GramUnique ParserProofs TableSpec LookupSpec BolWords LazySpec LoopSpec StopSpec LoopWords LoopLookup BuildLookup ParserKeys TokeniseProofs StripProofs PruneProofs RulesPush SourceSets SourceClass SourceRep SourceLex SourceLead SourceAll CommentLex StringToken Grammar StateMachine Generator Build Lookup Minimise Iterator GenCpp DfaSpec Tree Parser ParserTree RuleSpec BuildSpec BuildCheck BuildTree BuildState BuildFuel BuildMachine BuildThms BuildErrs
  ReToken ReTokeniser ReTokeniserNext Rules TokeniseSpec TokeniseAll RulesSpec RulesInv RulesContent RulesFeat RulesBuild RulesTop SourceSpec SourceLiteral SourceLexer SourceTop CommentSpec CommentTop TokenList Routes BuildTexts.
Local Open Scope N_scope.

(** The rule at [j] is the first that matches some text. *)
Definition iwins (b fl : N) (ys : list item) (j : nat) : Prop :=
  exists y bol cs, nth_error ys j = Some y /\ imatch b fl y bol cs /\ forall j' y', (j' < j)%nat -> nth_error ys j' = Some y' -> ~ imatch b fl y' bol cs.
(** What may come out of build(). *)
Definition ioutcome (fl : N) (ys : list item) (r : res internals) : Prop :=
  match r with
  | Ok _ => ys <> [] /\ (has fl rf_match_zero_len = false -> forall x, In (IText x) ys -> ~ empty_word x) /\
      (has fl 32 = false -> forall j, (j < length ys)%nat -> iwins 1 fl ys j)
  | Throw EEmptyState => ys = []
  | Throw EZeroLen => has fl rf_match_zero_len = false /\ exists x, In (IText x) ys /\ empty_word x
  | Throw ESuppressed => has fl 32 = false
  | Throw EOverflow => True
  | _ => False
  end.

Lemma alike_self b fl s : alike b fl s s.
Proof. induction s as [|c s IH]; constructor; [now left|exact IH]. Qed.
(** A comment with nothing in it is matched, and by its own rule only. *)
Lemma comment_wins b fl ys j c : apart b fl ys -> nth_error ys j = Some (IComment c) -> iwins b fl ys j.
Proof.
  intros AP E. exists (IComment c), false, (c_open c ++ c_close c). split; [exact E|]. split.
  - split; [exists (c_open c), [], (c_close c); split; [reflexivity|]; split; [apply alike_self|]; split; [constructor|apply alike_self]|].
    intros n Hn (u & v & w & Ec & A1 & _ & A2). apply (f_equal (@length N)) in Ec. rewrite !app_length, firstn_length in *. apply alike_length in A1, A2. lia.
  - intros j' y' L E' M. apply imatch_all in M. revert M. eapply (apart_iall b fl ys j j' c y' false); eauto using alike_self. lia.
Qed.

Section Items.
  Variables (k : rcfg) (g : gcfg) (fl : N) (mds : list smacro) (ys : list item).
  Hypothesis NPOS : 1 < rnpos k.
  Hypothesis Hbits : g_bits g = r_bits k.
  Hypothesis Hk : r_bytes k = 1.
  Hypothesis Hg : g_bytes g = 1.
  Hypothesis MO : smacros_ok k fl mds.
  Hypothesis Hy : Forall (item_ok k fl mds) ys.
  Hypothesis AP : apart 1 fl ys.
  Hypothesis Few : N.of_nat (2 * items_sets ys) < eol_tok g.
  Hypothesis LEN : N.of_nat (length ys) < 2 ^ g_bits g.
  Notation ru := (push_items k fl mds ys).
  Notation R := (grules_of ru).
  Lemma items_simple_all : simple g (push_items k fl mds ys).
  Proof.
    destruct (push_items_is k fl NPOS mds ys MO Hy) as (P & _ & Em & _ & F & E).
    assert (K : forall i x, In x (rules_at (push_items k fl mds ys) i) -> ends EOL (removelast (gr_tokens x)) = false /\ (starts BOL (tl (gr_tokens x)) = true -> bol_rule true x)).
    { intros i x Hi. destruct i as [|i]; [|rewrite E in Hi; destruct Hi]. pose proof Hi as Hi'. apply In_nth_error in Hi' as (j & Ej).
      destruct (nth_cfollows _ _ _ _ _ _ F Ej) as (y & Ey & W). rewrite Forall_forall in Hy. pose proof (Hy y (nth_error_In _ _ Ey)) as OK. destruct y as [y|c].
      - destruct W as ((w & q & Ew & G & _) & L & _). destruct OK as [_ _ _ _ BO]. exact (says_simple k NPOS _ 0 x w q (s_sx y) P Hi Ew G L BO).
      - destruct W as ((w & Ew & (X & ch & bs & z & Y & [-> NX SX CB Hz SY _] & NY & _) & _) & _). rewrite Ew. split.
        + destruct (ends EOL _) eqn:EE; [|reflexivity]. apply between_ends in EE. destruct EE as (t & p' & Et & T). exfalso. revert NY SY Et. destruct Y as [|t0 Y] using rev_ind; [easy|]. intros _ SY Et.
          rewrite app_comm_cons, !app_assoc in Et. apply app_inj_tail in Et as [_ ->]. apply Forall_app in SY as [_ SY]. inversion SY. congruence.
        + intros ST. apply between_starts in ST. destruct ST as (t & p' & Et & T). exfalso. destruct X as [|t0 X]; [easy|]. injection Et as -> _. inversion SX. congruence. }
    split; [intros i x Hi; now apply (K i x Hi)|]. split; [intros i x Hi; now apply (K i x Hi)|]. split.
    - intros s Hs. rewrite Hg. unfold all_sets. assert (RS : gs_rules s = rules_at ru 0) by (cbn [grules_of gr_states] in Hs; rewrite Em in Hs; destruct Hs as [<-|[]]; reflexivity). rewrite RS. pose proof (fold_sets (flat_map (fun r => flat_map (tok_sets 1) (gr_tokens r)) (rules_at ru 0))) as A.
      pose proof (item_rule_sets k fl _ _ F) as B'. lia.
    - intros i x t _ _. unfold sliceable. now left.
  Qed.
  Lemma items_parse x y : cfollows k fl x y -> parses x.
  Proof. intros W. destruct (cfollows_gram k fl x y W) as (w & q & E & G). exists w, (Some q). split; [exists (tok BEGIN), (tok END); auto|exact G]. Qed.
  (** No comment is empty. *)
  Lemma items_empty x y : In y ys -> cfollows k fl x y -> (rmatch x false [] <-> exists z, y = IText z /\ empty_word z).
  Proof.
    intros I W. rewrite (cfollows_match k fl x y false [] Hk ltac:(constructor) W). destruct y as [z|c].
    - split; [intros H; exists z; split; [reflexivity|exact H]|intros (z' & [= <-] & H); exact H].
    - split; [|intros (z & H & _); discriminate]. intros (u & v & w & E & A & _). symmetry in E. apply app_eq_nil in E as (-> & _).
      rewrite Forall_forall in Hy. destruct (Hy _ I) as [O _ _ _ _ _ _]. apply alike_length in A. destruct (c_open c); [congruence|discriminate].
  Qed.
  Theorem items_outcome : exists f0, forall f, (f0 <= f)%nat -> ioutcome fl ys (build f g R).
  Proof.
    destruct (push_items_is k fl NPOS mds ys MO Hy) as (P & FL & Em & _ & F & _).
    assert (WO : wide_ok g) by (unfold wide_ok; lia).
    assert (RW : rules_wf g R).
    { apply (made_wf k g _ NPOS Hbits); [congruence|lia|exact P|]. exact items_simple_all. }
    assert (GF : gr_flags R = {| zero_len_ok := has fl rf_match_zero_len; suppressed_ok := has fl 32 |}) by (cbn [grules_of gr_flags]; now rewrite FL).
    assert (ST : exists s, gr_states R = [s] /\ gs_rules s = rules_at ru 0).
    { cbn [grules_of gr_states]. rewrite Em. eexists. split; [reflexivity|]. reflexivity. }
    destruct ST as (s & ES & RS).
    assert (RC : rule_count R = length ys) by (unfold rule_count; rewrite ES; cbn; rewrite app_nil_r, RS; exact (same_length _ _ _ F)).
    destruct (build_ok g R WO RW) as (f0 & H). exists f0. intros f Hf.
    destruct (H f Hf) as [(e & E & W)|(m & os & E & MM & _)]; rewrite E.
    - destruct e; cbn [ioutcome];
        (destruct W as [(s' & Hs & [(Q & Z)|[([Q|Q] & x & Hr & NP)|[(Q & Z & x & Hr & RM)|Q]]])|(Q & QQ)]; try discriminate);
        try (rewrite ES in Hs; destruct Hs as [<-|[]]); try rewrite RS in *; auto.
      + destruct NP. destruct (BuildTexts.in_left _ _ _ _ F Hr) as (y & _ & W). eapply items_parse; eauto.
      + destruct NP. destruct (BuildTexts.in_left _ _ _ _ F Hr) as (y & _ & W). eapply items_parse; eauto.
      + apply same_length in F. rewrite Z in F. destruct ys; [reflexivity|discriminate].
      + rewrite GF in Z. cbn in Z. split; [exact Z|]. destruct (BuildTexts.in_left _ _ _ _ F Hr) as (y & I & W). destruct (proj1 (items_empty x y I W) RM) as (z & EQ & EW). rewrite EQ in I. eauto.
      + rewrite GF in QQ. cbn in QQ. tauto.
    - cbn [ioutcome]. split; [|split].
      + intros YN. assert (Q : rules_at ru 0 = []) by (pose proof (same_length _ _ _ F) as LF; apply length_zero_iff_nil; rewrite LF, YN; reflexivity). unfold build in E. destruct (build_states f g (gr_flags R) (gr_states R) 0 [] []) as [q| | |] eqn:EB; try discriminate.
        apply states_nonempty in EB. rewrite Forall_forall in EB. apply (EB s); [rewrite ES; now left|]. now rewrite RS.
      + intros Z x Hx EW. destruct (BuildTexts.in_right _ _ _ _ F Hx) as (r & Hr & W).
        apply (zero_len_complete f g R m WO RW) with (g := s) (r := r) in E; [|now rewrite GF|rewrite ES; now left|now rewrite RS].
        apply E. apply (items_empty r (IText x) Hx W). eauto.
      + intros Z j Lj. destruct (nth_error ys j) as [y|] eqn:Ey; [|apply nth_error_None in Ey; lia].
        destruct y as [x|c]; [|eapply comment_wins; eauto].
        assert (RT : returnable (gs_rules s) j).
        { apply (suppressed_complete f g R m WO RW); auto; [rewrite RC; exact LEN|now rewrite GF|rewrite ES; now left|rewrite RS, (same_length _ _ _ F); exact Lj]. }
        rewrite RS in RT. destruct RT as (r & bol & cs & Er & M & N). destruct (BuildTexts.nth_left _ _ _ _ _ F Er) as (y & Ey' & W). rewrite Ey in Ey'. injection Ey' as <-.
        assert (M' : smatch x bol cs) by (apply (follows_match k r x bol cs); [now left|exact W|exact M]).
        exists (IText x), bol, cs. split; [exact Ey|]. split; [exact M'|]. intros j' y' L E' M2. destruct y' as [x'|c].
        * destruct (BuildTexts.nth_right _ _ _ _ _ F E') as (r' & Er' & W'). apply (N j' r' L Er'). apply (follows_match k r' x' bol cs); [now left|exact W'|exact M2].
        * destruct M2 as (M2 & _). destruct (cfits_opens _ _ _ _ M2) as (u & w & -> & AL). exact (AP j' j c (IText x) ltac:(lia) E' Ey bol u w AL M').
  Qed.
  (** With rules that hide others allowed, a lexer comes out that does what the texts
      say, or there are too many states. *)
  Theorem items_build kc : ys <> [] -> (forall x, In (IText x) ys -> ~ empty_word x) -> has fl 32 = true ->
    agree kc g -> has fl rf_match_zero_len = false -> f_adv kc = true ->
    exists f0, (forall f, (f0 <= f)%nat -> build f g R = Throw EOverflow) \/
      exists m, (forall f, (f0 <= f)%nat -> build f g R = Ok m) /\
        (RulesBuild.covers kc m -> forall inp, Forall (fits (c_bytes kc)) inp ->
          exists l, tokens (ireads 1 fl (npos kc) (skip_id kc) (f_bol kc) ys inp) true 0 l /\ every_route kc m inp l).
  Proof.
    intros NE EM SU AG Z Adv. destruct items_outcome as (f0 & H). exists f0. pose proof (H f0 (Nat.le_refl _)) as H0.
    assert (S : forall f, (f0 <= f)%nat -> build f0 g R <> Fuel -> build f g R = build f0 g R) by (intros f L N; apply (build_mono f0); auto).
    destruct (build f0 g R) as [m|e| |] eqn:E; [right|left|destruct H0|destruct H0].
    - exists m. split; [intros f L; rewrite S; auto; discriminate|]. intros CV inp HI.
      destruct (items_all_tokens k g kc fl mds f0 m inp NPOS Hbits AG MO Z Adv HI CV ys Hk Hg Hy AP Few E) as (l & T & EV & _). eauto.
    - intros f L. destruct e; cbn in H0; try contradiction; try congruence.
      + destruct H0 as (_ & x & Hx & EW). destruct (EM x Hx EW).
      + rewrite S; auto. discriminate.
  Qed.
End Items.
