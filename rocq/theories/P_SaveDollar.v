(** Property C70 for rules with $. *)
From Coq Require Import String.
From Verif Require Import Base Serialise SerialiseProofs StringToken StateMachine ReToken Generator Build Lookup Minimise Iterator GenCpp GenBuilt RuleSpec BuildSpec ParserTree BuildCheck
  EolSpec EolCheck ReTokeniser ReTokeniserNext Rules TokeniseSpec RulesSpec RulesBuild SourceSpec SourceLiteral SourceLexer SourceTop
  TokenList LineSpec LineTop LineRoutes SaveBuilt SaveTexts SaveDollar P_Line.
Local Open Scope N_scope.

(** Whatever $ and ^ the rules hold, and whatever clashes of line breaks are
    repaired, the machine that is built holds values of the id_type only. *)
Theorem C70_all_built_fits f g R m bytes : wide_ok g -> rules_fair g R -> build f g R = Ok m -> g_bits g = 8 * bytes -> 1 <= bytes ->
  gr_eoi R < 2 ^ (8 * bytes) -> Forall (fun s => gs_features s < 2 ^ (8 * bytes) /\ Forall (rule_in (2 ^ (8 * bytes))) (gs_rules s)) (gr_states R) ->
  in_memory m \/ (bytes <= 4 /\ N.of_nat (List.length (gr_states R)) < size_lim) -> Serialise.fits bytes m.
Proof.
  intros H1 H2 H3 H4 H5 H6 H7 H8. apply (built_fits_all f g R m bytes H1 H2 H3 H4 H5 (conj H6 H7)).
  destruct H8 as [M|[M1 M2]]; [exact M|]. exact (built_in_memory_all f g R m bytes H1 H2 H3 H4 M1 M2).
Qed.
(** So it comes back from a stream. *)
Theorem C70_all_built_back f g R m bytes csize old st rest : wide_ok g -> rules_fair g R -> build f g R = Ok m -> g_bits g = 8 * bytes -> 2 <= bytes <= 8 ->
  gr_eoi R < 2 ^ (8 * bytes) -> Forall (fun s => gs_features s < 2 ^ (8 * bytes) /\ Forall (rule_in (2 ^ (8 * bytes))) (gs_rules s)) (gr_states R) ->
  in_memory m \/ (bytes <= 4 /\ N.of_nat (List.length (gr_states R)) < size_lim) -> csize < size_lim ->
  at_ws st (save csize bytes m ++ rest) -> exists st', load csize bytes old st = Ok (m, st') /\ at_ws st' rest.
Proof.
  intros H1 H2 H3 H4 H5 H6 H7 H8 H9 A. apply load_save; auto. apply (C70_all_built_fits f g R m bytes); auto. lia.
Qed.
(** Lexers with rules that end with $: what is loaded gives the tokens that the
    texts say; so does the minimised one. *)
Theorem C70_lines_saved k g kc fl mds xs f m inp csize bytes : 1 < rnpos k -> g_bits g = r_bits k -> g_bytes g = r_bytes k -> r_bytes k = 1 \/ r_bytes k = 2 ->
  agree kc g -> smacros_ok k fl mds -> Forall (lrule_ok k fl mds) xs -> Forall (fun x => s_id x < 2 ^ r_bits k /\ s_uid x < 2 ^ r_bits k) xs -> sapart (r_bytes k) xs ->
  (forall s, In s (gr_states (grules_of (push_all k fl mds xs))) -> N.of_nat (List.length (all_sets (g_bytes g) s)) < eol_tok g) ->
  build f g (grules_of (push_all k fl mds xs)) = Ok m -> f_adv kc = true -> Forall (fits (c_bytes kc)) inp ->
  r_bits k = 8 * bytes -> 2 <= bytes <= 8 -> csize < size_lim -> in_memory m \/ bytes <= 4 ->
  exists l, tokens (dreads (npos kc) (skip_id kc) (f_bol kc) (f_eol kc) xs inp) true 0 l /\
    comes_back csize bytes m (fun m' => lines_routes kc m' inp l) /\
    exists mini, minimise (c_bits kc) m = Ok mini /\ comes_back csize bytes mini (fun m' => lines_iterate kc m' inp l).
Proof. exact (lines_saved k g kc fl mds xs f m inp csize bytes). Qed.
Print Assumptions C70_all_built_fits.
Print Assumptions C70_all_built_back.
Print Assumptions C70_lines_saved.

(** The lexer of C64, whose rules P_Line shows to meet the conditions: saved and
    loaded, with and without minimise(). *)
Example C70_lines_case : Forall (lrule_ok kr 2 []) xs /\ Forall (fun x => s_id x < 2 ^ 16 /\ s_uid x < 2 ^ 16) xs /\
  rules_fair gr (grules_of (push_all kr 2 [] xs)) /\
  build 200 gr (grules_of (push_all kr 2 [] xs)) = Ok mm /\ minimise 16 mm = Ok mini /\
  (exists st, load 1 2 mini {| st_chars := save 1 2 mm ++ [120]; st_fail := false |} = Ok (mm, st) /\ at_ws st [120]) /\
  exists st, load 1 2 mm {| st_chars := save 1 2 mini ++ [120]; st_fail := false |} = Ok (mini, st) /\ at_ws st [120].
Proof.
  split; [exact xs_ok|]. split; [unfold xs; repeat (apply Forall_cons; [split; reflexivity|]); apply Forall_nil|].
  split; [apply rules_fairb_ok; vm_compute; reflexivity|]. split; [vm_compute; reflexivity|]. split; [vm_compute; reflexivity|].
  split; (eexists; split; [vm_compute; reflexivity|]; exists [32; 10]; split; [repeat (apply Forall_cons; [reflexivity|]); apply Forall_nil|reflexivity]).
Qed.
