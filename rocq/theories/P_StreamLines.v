(** Property C68 for lexers with rules that end with $. *)
From Coq Require Import String.
From Verif Require Import Base StringToken StateMachine Generator Build Lookup Minimise Iterator GenCpp RuleSpec BuildSpec BuildCheck
  ReToken ReTokeniser ReTokeniserNext Rules TokeniseSpec RulesSpec RulesBuild SourceSpec SourceLiteral SourceLexer SourceTop LineSpec LineTop LineRoutes
  TokenList Routes StreamIter StreamSpec StreamProofs AnyIter UtfLex StreamLex StreamLexProofs StreamTexts StreamLines P_Line.
Local Open Scope N_scope.

(** From rules that may end with $ to the words of the stream: check_eol looks at the
    character after a match, which may not be in the buffer yet. *)
Theorem C68_lines_to_stream k g kc fl mds xs f m strm : 1 < rnpos k -> g_bits g = r_bits k -> g_bytes g = r_bytes k -> r_bytes k = 1 \/ r_bytes k = 2 ->
  agree kc g -> smacros_ok k fl mds -> Forall (lrule_ok k fl mds) xs -> sapart (r_bytes k) xs ->
  (forall s, In s (gr_states (grules_of (push_all k fl mds xs))) -> N.of_nat (List.length (all_sets (g_bytes g) s)) < eol_tok g) ->
  build f g (grules_of (push_all k fl mds xs)) = Ok m -> f_adv kc = true -> Forall (fits (c_bytes kc)) strm -> strm <> [] ->
  exists l m', tokens (dreads (npos kc) (skip_id kc) (f_bol kc) (f_eol kc) xs strm) true 0 l /\ minimise (c_bits kc) m = Ok m' /\ stream_lines kc m strm l /\ stream_lines kc m' strm l.
Proof. exact (lines_to_stream k g kc fl mds xs f m strm). Qed.
Print Assumptions C68_lines_to_stream.

(** The lexer of C64 on its text, as a stream read by small buffers; every \n is
    outside the buffer of one character when check_eol asks for it. *)
Example C68_lines_case : Forall (lrule_ok kr 2 []) xs /\ build 200 gr (grules_of (push_all kr 2 [] xs)) = Ok mm /\ minimise 16 mm = Ok mini /\ text <> [] /\
  stream_words false text 1 1 50 50 50 kl mm = Ok (map (word_of text) all, None) /\ stream_words false text 3 2 50 50 50 kl mini = Ok (map (word_of text) all, None) /\
  map (word_of text) all = [(1, 7, txt "ab"); (2, 65535, txt "a"); (65535, 65535, txt "!"); (1, 7, txt "c")].
Proof. split; [exact xs_ok|]. split; [vm_compute; reflexivity|]. split; [vm_compute; reflexivity|]. split; [discriminate|]. repeat (split; [vm_compute; reflexivity|]). vm_compute. reflexivity. Qed.
