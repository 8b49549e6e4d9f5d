(** From rules some of which are comments to the words of a stream. *)
From Verif Require Import Base StringToken StateMachine Generator Build Lookup Minimise Iterator GenCpp RuleSpec BuildSpec BuildCheck
  ReToken ReTokeniser ReTokeniserNext Rules TokeniseSpec RulesSpec RulesBuild SourceSpec SourceLexer SourceTop CommentSpec CommentTop
  TokenList Routes StreamIter StreamSpec StreamProofs AnyIter UtfLex StreamLex StreamLexProofs StreamTexts.
Local Open Scope N_scope.

Theorem comments_to_stream k g kc fl mds ys f m strm : 1 < rnpos k -> g_bits g = r_bits k -> r_bytes k = 1 -> g_bytes g = 1 -> agree kc g ->
  smacros_ok k fl mds -> Forall (item_ok k fl mds) ys -> apart 1 fl ys -> N.of_nat (2 * items_sets ys) < eol_tok g ->
  build f g (grules_of (push_items k fl mds ys)) = Ok m -> ReTokeniser.has fl rf_match_zero_len = false -> f_adv kc = true -> RulesBuild.covers kc m ->
  Forall (fits (c_bytes kc)) strm -> strm <> [] ->
  exists l m', tokens (ireads 1 fl (npos kc) (skip_id kc) (f_bol kc) ys strm) true 0 l /\ minimise (c_bits kc) m = Ok m' /\ stream_reads kc m strm l None /\ stream_reads kc m' strm l None.
Proof.
  intros H1 H2 H3 H4 H5 H6 H7 H8 H9 H10 H11 H12 H13 H14 NE.
  destruct (items_all_tokens k g kc fl mds f m strm H1 H2 H5 H6 H11 H12 H14 H13 ys H3 H4 H7 H8 H9 H10) as (l & T & (I1 & _ & (m' & M & I2 & _) & _) & O).
  apply ordered_fwd in O. exists l, m'. split; [exact T|]. split; [exact M|]. split; apply stream_iterates; auto.
Qed.
