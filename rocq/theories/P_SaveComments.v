(** Property C70 for lexers with comments. *)
From Verif Require Import Base Serialise SerialiseProofs StringToken StateMachine ReToken DfaSpec Grammar Tree Parser
  Generator Build Lookup TableSpec LookupSpec RuleSpec BuildSpec BuildLookup Minimise Iterator GenCpp GenCppSpec FlagsSpec
  BuildCheck ReTokeniser ReTokeniserNext Rules TokeniseSpec RulesSpec RulesInv RulesBuild SaveBuilt
  SourceSpec SourceLexer SourceTop CommentSpec CommentTop TokenList Routes SaveTexts SaveComments P_Comment.
Local Open Scope N_scope.

(** Whatever surrounds it in the stream and whatever the machine held before,
    the machine of rules some of which are comments comes back and gives the
    tokens that the texts say; so does the minimised one. *)
Theorem C70_comments_saved k g kc fl mds f m inp csize bytes ys : 1 < rnpos k -> g_bits g = r_bits k -> r_bytes k = 1 -> g_bytes g = 1 -> agree kc g ->
  smacros_ok k fl mds -> has fl rf_match_zero_len = false -> f_adv kc = true -> Forall (fits (c_bytes kc)) inp -> RulesBuild.covers kc m ->
  r_bits k = 8 * bytes -> 2 <= bytes <= 8 -> csize < size_lim -> in_memory m \/ bytes <= 4 ->
  Forall (item_ok k fl mds) ys -> Forall (item_typed k) ys -> apart 1 fl ys -> N.of_nat (2 * items_sets ys) < eol_tok g ->
  build f g (grules_of (push_items k fl mds ys)) = Ok m ->
  exists l, tokens (ireads 1 fl (npos kc) (skip_id kc) (f_bol kc) ys inp) true 0 l /\
    comes_back csize bytes m (fun m' => every_route kc m' inp l) /\
    exists mini, minimise (c_bits kc) m = Ok mini /\ comes_back csize bytes mini (fun m' => iterates kc m' inp l /\ replaces kc m' inp l).
Proof. exact (items_saved k g kc fl mds f m inp csize bytes ys). Qed.
Print Assumptions C70_comments_saved.

(** The lexer of C62, whose rules P_Comment shows to meet the conditions: saved
    and loaded in place of another machine. *)
Definition cm : internals := match build 400 gr (grules_of (push_items kr 2 [] ys)) with Ok m => m | _ => empty_internals end.
Example C70_comments_case : Forall (item_ok kr 2 []) ys /\ apart 1 2 ys /\ Forall (item_typed kr) ys /\
  build 400 gr (grules_of (push_items kr 2 [] ys)) = Ok cm /\
  exists st, load 1 2 empty_internals {| st_chars := save 1 2 cm ++ [120]; st_fail := false |} = Ok (cm, st) /\ at_ws st [120].
Proof.
  split; [exact ys_ok|]. split; [exact ys_apart|].
  split; [unfold ys; repeat (apply Forall_cons; [split; reflexivity|]); apply Forall_nil|]. split; [vm_compute; reflexivity|].
  eexists. split; [vm_compute; reflexivity|]. exists [32; 10]. split; [repeat (apply Forall_cons; [reflexivity|]); apply Forall_nil|reflexivity].
Qed.
