(** Property C70: lexers made from texts, built, saved and loaded. *)
From Coq Require Import String.
From Verif Require Import Base Serialise SerialiseProofs StringToken StateMachine ReToken Generator Build Lookup Minimise Iterator GenCpp GenBuilt RuleSpec BuildSpec ParserTree BuildCheck
  ReTokeniser ReTokeniserNext Rules TokeniseSpec RulesSpec RulesBuild SourceSpec SourceLiteral SourceLexer SourceTop SourceStates StatesTop
  TokenList Routes StateTokens StateRoutes SaveBuilt SaveTexts P_States P_StateRoutes.
From Verif Require P_Source.
Local Open Scope N_scope.

(** Whatever is saved, the machine of the rules or the minimised one, and wherever
    it stands in the stream: what is loaded reads every input as the texts of the
    rules say, by every route. Vectors are as long as they can be in memory, which
    ids of at most 4 bytes imply. *)
Theorem C70_texts_saved k g kc fl mds xs f m inp csize bytes : 1 < rnpos k -> g_bits g = r_bits k -> g_bytes g = r_bytes k -> 0 < g_bytes g -> agree kc g ->
  smacros_ok k fl mds -> Forall (srule_ok k fl mds) xs -> Forall (fun x => s_id x < 2 ^ r_bits k /\ s_uid x < 2 ^ r_bits k) xs ->
  (forall s, In s (gr_states (grules_of (push_all k fl mds xs))) -> N.of_nat (List.length (all_sets (g_bytes g) s)) < eol_tok g) ->
  (forall x t, In x (rules_at (push_all k fl mds xs) 0) -> In t (gr_tokens x) -> sliceable (g_bytes g) t) ->
  build f g (grules_of (push_all k fl mds xs)) = Ok m -> ReTokeniser.has fl rf_match_zero_len = false -> f_adv kc = true -> RulesBuild.covers kc m ->
  Forall (fits (c_bytes kc)) inp -> known_chars (g_bytes g) inp ->
  r_bits k = 8 * bytes -> 2 <= bytes <= 8 -> csize < size_lim -> in_memory m \/ bytes <= 4 ->
  exists l, tokens (sreads (npos kc) (skip_id kc) (f_bol kc) xs inp) true 0 l /\
    (forall old st rest, at_ws st (save csize bytes m ++ rest) ->
       exists m' st', load csize bytes old st = Ok (m', st') /\ at_ws st' rest /\ every_route kc m' inp l) /\
    exists mini, minimise (c_bits kc) m = Ok mini /\
      forall old st rest, at_ws st (save csize bytes mini ++ rest) ->
        exists m' st', load csize bytes old st = Ok (m', st') /\ at_ws st' rest /\ iterates kc m' inp l /\ replaces kc m' inp l.
Proof.
  intros H1 H2 H3 H4 H5 H6 H7 H8 H9 H10 H11 H12 H13 H14 H15 H16 H17 H18 H19 H20.
  exact (texts_saved k g kc fl mds f m inp csize bytes H1 H2 H3 H4 H5 H6 H12 H13 H15 H16 H14 H17 H18 H19 H20 xs H7 H8 H9 H10 H11).
Qed.
(** With start states. *)
Theorem C70_states_saved k g kc fl more mds ds f m inp csize bytes :
  1 < rnpos k -> g_bits g = r_bits k -> g_bytes g = r_bytes k -> 0 < g_bytes g -> agree kc g ->
  NoDup (initial :: more) -> Forall (fun n => validate n = true) more ->
  N.of_nat (List.length (initial :: more)) < 2 ^ r_bits k -> smacros_ok k fl mds -> Forall (decl_ok k fl mds (initial :: more)) ds ->
  Forall (fun d => s_id (d_rule d) < 2 ^ r_bits k /\ s_uid (d_rule d) < 2 ^ r_bits k) ds ->
  (forall s, In s (gr_states (grules_of (make_lexer k fl more mds ds))) -> N.of_nat (List.length (all_sets (g_bytes g) s)) < eol_tok g) ->
  (forall i x t, In x (rules_at (make_lexer k fl more mds ds) i) -> In t (gr_tokens x) -> sliceable (g_bytes g) t) ->
  build f g (grules_of (make_lexer k fl more mds ds)) = Ok m -> ReTokeniser.has fl rf_match_zero_len = false ->
  f_adv kc = true -> f_multi kc = true -> RulesBuild.covers kc m -> Forall (fits (c_bytes kc)) inp -> known_chars (g_bytes g) inp ->
  r_bits k = 8 * bytes -> 2 <= bytes <= 8 -> csize < size_lim -> in_memory m \/ bytes <= 4 ->
  exists l e, mtokens (npos kc) (skip_id kc) (f_bol kc) ds inp initial [] true 0 l e /\
    (forall old st rest, at_ws st (save csize bytes m ++ rest) ->
       exists m' st', load csize bytes old st = Ok (m', st') /\ at_ws st' rest /\ all_roads kc m' inp l e) /\
    exists mini, minimise (c_bits kc) m = Ok mini /\
      forall old st rest, at_ws st (save csize bytes mini ++ rest) ->
        exists m' st', load csize bytes old st = Ok (m', st') /\ at_ws st' rest /\ iterates_to kc m' inp l e /\ replaces_to kc m' inp l e.
Proof.
  intros H1 H2 H3 H4 H5 H6 H7 H8 H9 H10 H11 H12 H13 H14 H15 H16 H17 H18 H19 H20 H21 H22 H23 H24.
  exact (states_saved k g kc fl mds f m inp csize bytes H1 H2 H3 H4 H5 H9 H15 H16 H19 H20 H18 H21 H22 H23 H24 more ds H6 H7 H8 H10 H11 H17 H12 H13 H14).
Qed.
(** Any rules without end of line operators: the machine can be saved, and so can
    what minimise() makes of a machine that can. *)
Theorem C70_built_fits f g R m bytes : wide_ok g -> rules_wf g R -> build f g R = Ok m -> g_bits g = 8 * bytes -> 1 <= bytes ->
  gr_eoi R < 2 ^ (8 * bytes) -> Forall (fun s => gs_features s < 2 ^ (8 * bytes) /\ Forall (rule_in (2 ^ (8 * bytes))) (gs_rules s)) (gr_states R) ->
  in_memory m -> Serialise.fits bytes m.
Proof. intros H1 H2 H3 H4 H5 H6 H7. exact (built_fits f g R m bytes H1 H2 H3 H4 H5 (conj H6 H7)). Qed.
Theorem C70_minimised_fits k m m' bytes : LookupSpec.mwf k m -> Serialise.fits bytes m -> c_bits k = 8 * bytes -> minimise (c_bits k) m = Ok m' -> Serialise.fits bytes m'.
Proof. exact (minimised_fits k m m' bytes). Qed.
(** No call takes a member of the rules object out of its type. *)
Theorem C70_types_kept k o r : 6 <= r_bits k -> kept k r -> op_typed k o -> kept k (fst (apply k o r)) /\ typed (2 ^ r_bits k) (grules_of (fst (apply k o r))).
Proof. intros H K T. exact (conj (kept_apply k H o r K T) (kept_typed k H _ (kept_apply k H o r K T))). Qed.
Print Assumptions C70_texts_saved.
Print Assumptions C70_states_saved.
Print Assumptions C70_built_fits.
Print Assumptions C70_minimised_fits.
Print Assumptions C70_types_kept.

(** The machines of C51 and C59 in one stream, the second one minimised, with text after them. *)
Definition both : list N := save 1 2 P_Source.mm ++ save 1 2 mini ++ txt "end".
Example C70_case :
  Forall (fun x => s_id x < 2 ^ 16 /\ s_uid x < 2 ^ 16) P_Source.xs /\ Forall (fun d => s_id (d_rule d) < 2 ^ 16 /\ s_uid (d_rule d) < 2 ^ 16) ds /\
  List.length (i_dfa mm) = 2%nat /\ minimise 16 mm = Ok mini /\
  exists st1 st2, load 1 2 mm {| st_chars := both; st_fail := false |} = Ok (P_Source.mm, st1) /\ load 1 2 empty_internals st1 = Ok (mini, st2) /\
    at_ws st2 (txt "end") /\
    show (visit_all 50 50 50 kl mini text 0 true 0) = Some (all, Some EUnderflow).
Proof.
  split; [apply Forall_forall; intros x Hx; repeat (destruct Hx as [<-|Hx]; [split; reflexivity|]); destruct Hx|].
  split; [apply Forall_forall; intros x Hx; repeat (destruct Hx as [<-|Hx]; [split; reflexivity|]); destruct Hx|].
  split; [vm_compute; reflexivity|]. split; [vm_compute; reflexivity|]. eexists _, _. split; [vm_compute; reflexivity|]. split; [vm_compute; reflexivity|].
  split; [|vm_compute; reflexivity]. exists [32; 10]. split; [repeat (apply Forall_cons; [reflexivity|]); apply Forall_nil|reflexivity].
Qed.
