(** Property C68 for lexers with comments. *)
From Coq Require Import String.
From Verif Require Import Base StringToken StateMachine Generator Build Lookup Minimise Iterator GenCpp RuleSpec BuildSpec BuildCheck
  ReToken ReTokeniser ReTokeniserNext Rules TokeniseSpec RulesSpec RulesBuild SourceSpec SourceLexer SourceTop CommentSpec CommentTop
  TokenList Routes StreamIter StreamSpec StreamProofs AnyIter UtfLex StreamLex StreamLexProofs StreamTexts StreamComments P_Comment.
Local Open Scope N_scope.

(** From rules some of which are comments to the words of the stream, for all
    sizes of the buffer: comments may be longer than the buffer. *)
Theorem C68_comments_to_stream k g kc fl mds ys f m strm : 1 < rnpos k -> g_bits g = r_bits k -> r_bytes k = 1 -> g_bytes g = 1 -> agree kc g ->
  smacros_ok k fl mds -> Forall (item_ok k fl mds) ys -> apart 1 fl ys -> N.of_nat (2 * items_sets ys) < eol_tok g ->
  build f g (grules_of (push_items k fl mds ys)) = Ok m -> ReTokeniser.has fl rf_match_zero_len = false -> f_adv kc = true -> RulesBuild.covers kc m ->
  Forall (fits (c_bytes kc)) strm -> strm <> [] ->
  exists l m', tokens (ireads 1 fl (npos kc) (skip_id kc) (f_bol kc) ys strm) true 0 l /\ minimise (c_bits kc) m = Ok m' /\ stream_reads kc m strm l None /\ stream_reads kc m' strm l None.
Proof. exact (comments_to_stream k g kc fl mds ys f m strm). Qed.
Print Assumptions C68_comments_to_stream.

(** The lexer of C62 on its text, as a stream read by buffers of one and of three
    characters: the skipped comment, longer than both, is gone and the comment that
    is a token is whole. *)
Example C68_comments_case : Forall (item_ok kr 2 []) ys /\ apart 1 2 ys /\ build 200 gr (grules_of (push_items kr 2 [] ys)) = Ok mm /\
  stream_words false text 1 1 50 50 50 kl mm = stream_words false text 3 2 50 50 50 kl mm /\
  exists l, stream_words false text 1 1 50 50 50 kl mm = Ok (l, None) /\ nth_error l 0 = Some (1, 7, txt "ab") /\ nth_error l 1 = Some (1, 7, txt "c") /\
    In (5, 9, txt "<!a!>") l.
Proof.
  split; [exact ys_ok|]. split; [exact ys_apart|]. split; [vm_compute; reflexivity|]. split; [vm_compute; reflexivity|].
  eexists. split; [vm_compute; reflexivity|]. split; [reflexivity|]. split; [reflexivity|]. cbn. tauto.
Qed.
