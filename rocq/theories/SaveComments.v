(** Lexers with comments, built, saved and loaded. *)
From Verif Require Import Base Serialise SerialiseProofs StringToken StateMachine ReToken DfaSpec Grammar Tree Parser
  Generator Build Lookup TableSpec LookupSpec RuleSpec BuildSpec ParserTree BuildState BuildMachine BuildLookup BuildErrs BuildThms BuildClean Minimise TableSim MinimiseProofs Iterator GenCpp GenCppSpec GenBuilt GenMade FlagsSpec
  BuildCheck ReTokeniser ReTokeniserNext Rules TokeniseSpec RulesSpec RulesInv RulesBuild SaveBuilt
  SourceSpec SourceLexer SourceTop CommentSpec CommentTop TokenList Routes SaveTexts.
Local Open Scope N_scope.

Definition item_typed (k : rcfg) (y : item) : Prop := i_id y < 2 ^ r_bits k /\ i_uid y < 2 ^ r_bits k.
Lemma kept_items k fl mds ys : 6 <= r_bits k -> Forall (item_typed k) ys -> kept k (push_items k fl mds ys).
Proof.
  intros B6 F. unfold push_items. eapply kept_fold with (P := item_typed k); [|exact F|].
  - intros r a (H1 & H2) K. now apply kept_rule.
  - unfold put_macros. eapply kept_fold with (P := fun _ => True); [intros; now apply kept_macro|now apply Forall_forall|]. apply kept_state; [exact B6|apply kept_none; exact B6].
Qed.

Theorem items_saved k g kc fl mds f m inp csize bytes ys : 1 < rnpos k -> g_bits g = r_bits k -> r_bytes k = 1 -> g_bytes g = 1 -> agree kc g ->
  smacros_ok k fl mds -> has fl rf_match_zero_len = false -> f_adv kc = true -> Forall (fits (c_bytes kc)) inp -> RulesBuild.covers kc m ->
  r_bits k = 8 * bytes -> 2 <= bytes <= 8 -> csize < size_lim -> in_memory m \/ bytes <= 4 ->
  Forall (item_ok k fl mds) ys -> Forall (item_typed k) ys -> apart 1 fl ys -> N.of_nat (2 * items_sets ys) < eol_tok g ->
  build f g (grules_of (push_items k fl mds ys)) = Ok m ->
  exists l, tokens (ireads 1 fl (npos kc) (skip_id kc) (f_bol kc) ys inp) true 0 l /\
    comes_back csize bytes m (fun m' => every_route kc m' inp l) /\
    exists mini, minimise (c_bits kc) m = Ok mini /\ comes_back csize bytes mini (fun m' => iterates kc m' inp l /\ replaces kc m' inp l).
Proof.
  intros NPOS Hbits Hk Hg AG MO Zero Adv HI CV Ids Two Cs Mem Hy Ty AP Few HB.
  destruct (push_items_is k fl NPOS mds ys MO Hy) as (P & _ & Em & _).
  destruct (items_all_tokens k g kc fl mds f m inp NPOS Hbits AG MO Zero Adv HI CV ys Hk Hg Hy AP Few HB) as (l & T & EV & _).
  exists l. split; [exact T|]. apply (object_back k g (push_items k fl mds ys) f kc m csize bytes NPOS P Hbits); auto; try congruence.
  - rewrite Hg. lia.
  - eapply items_simple; eauto.
  - intros E. rewrite E in Em. discriminate.
  - apply kept_items; [lia|exact Ty].
  - destruct Mem as [M|M]; [auto|]. right. split; [exact M|]. rewrite Em. reflexivity.
  - apply EV.
Qed.
