(** C68: lexing a stream through stream_shared_iterator. *)
From Coq Require Import String.
From Verif Require Import Base StringToken StateMachine Generator Build Lookup Minimise Iterator GenCpp RuleSpec BuildSpec BuildCheck
  ReToken ReTokeniser ReTokeniserNext Rules TokeniseSpec RulesSpec RulesBuild SourceSpec SourceLiteral SourceLexer SourceTop SourceStates StatesTop
  TokenList Routes StateTokens StateRoutes StreamIter StreamSpec StreamProofs AnyIter StreamLex StreamLexProofs StreamTexts P_States P_StateRoutes.
Local Open Scope N_scope.

(** What an iteration over the text gives comes out of the stream with the text of
    each token: the ids, the words and the exception, for all sizes of the buffer. *)
Theorem C68_stream k m strm l e : strm <> [] -> Forall (fun s : shows => (snd (fst s) <= snd s)%nat) l -> iterates_to k m strm l e -> stream_reads k m strm l e.
Proof. exact (stream_iterates k m strm l e). Qed.
(** From the texts of the rules to the words of the stream. *)
Theorem C68_texts_to_stream k g kc fl mds xs f m strm : 1 < rnpos k -> g_bits g = r_bits k -> g_bytes g = r_bytes k -> 0 < g_bytes g -> agree kc g ->
  smacros_ok k fl mds -> Forall (srule_ok k fl mds) xs ->
  (forall s, In s (gr_states (grules_of (push_all k fl mds xs))) -> N.of_nat (List.length (all_sets (g_bytes g) s)) < eol_tok g) ->
  (forall x t, In x (rules_at (push_all k fl mds xs) 0) -> In t (gr_tokens x) -> sliceable (g_bytes g) t) ->
  build f g (grules_of (push_all k fl mds xs)) = Ok m -> ReTokeniser.has fl rf_match_zero_len = false -> f_adv kc = true -> RulesBuild.covers kc m ->
  Forall (fits (c_bytes kc)) strm -> known_chars (g_bytes g) strm -> strm <> [] ->
  exists l m', tokens (sreads (npos kc) (skip_id kc) (f_bol kc) xs strm) true 0 l /\ minimise (c_bits kc) m = Ok m' /\ stream_reads kc m strm l None /\ stream_reads kc m' strm l None.
Proof. exact (texts_to_stream k g kc fl mds xs f m strm). Qed.
Theorem C68_states_to_stream k g kc fl more mds ds f m strm : 1 < rnpos k -> g_bits g = r_bits k -> g_bytes g = r_bytes k -> 0 < g_bytes g -> agree kc g ->
  NoDup (initial :: more) -> Forall (fun n => validate n = true) more ->
  N.of_nat (List.length (initial :: more)) < 2 ^ r_bits k -> smacros_ok k fl mds -> Forall (decl_ok k fl mds (initial :: more)) ds ->
  (forall s, In s (gr_states (grules_of (make_lexer k fl more mds ds))) -> N.of_nat (List.length (all_sets (g_bytes g) s)) < eol_tok g) ->
  (forall i x t, In x (rules_at (make_lexer k fl more mds ds) i) -> In t (gr_tokens x) -> sliceable (g_bytes g) t) ->
  build f g (grules_of (make_lexer k fl more mds ds)) = Ok m -> ReTokeniser.has fl rf_match_zero_len = false ->
  f_adv kc = true -> f_multi kc = true -> RulesBuild.covers kc m -> Forall (fits (c_bytes kc)) strm -> known_chars (g_bytes g) strm -> strm <> [] ->
  exists l e m', mtokens (npos kc) (skip_id kc) (f_bol kc) ds strm initial [] true 0 l e /\ minimise (c_bits kc) m = Ok m' /\ stream_reads kc m strm l e /\ stream_reads kc m' strm l e.
Proof. exact (states_to_stream k g kc fl more mds ds f m strm). Qed.
(** Whatever is done with iterators, by any program whose operations are defined on
    the places of the stream, is done on the shared buffer with the same results. *)
Theorem C68_any_program (A : Type) strm size incr (p : prog A) a x w : start strm size incr = Ok w -> (1 <= size)%nat -> (1 <= incr)%nat ->
  aprun strm ideal_start p = Ok (a, x) -> exists w', prun false w p = Ok (w', x) /\ inv strm a w'.
Proof.
  intros E H1 H2 R. destruct (start_ok strm size incr H1 H2) as (w0 & E0 & IV). rewrite E in E0. injection E0 as <-. exact (prun_ok strm p _ _ _ _ IV R).
Qed.
Print Assumptions C68_stream.
Print Assumptions C68_texts_to_stream.
Print Assumptions C68_states_to_stream.
Print Assumptions C68_any_program.

(** The lexer of C66 on its two texts, as streams read by small buffers: the same words
    as from the text; the first ends with the exception. *)
Example C68_case : RulesBuild.covers kl mm /\ minimise 16 mm = Ok mini /\ text <> [] /\ cut <> [] /\
  Forall (fun s : shows => (snd (fst s) <= snd s)%nat) all /\ Forall (fun s : shows => (snd (fst s) <= snd s)%nat) most /\
  stream_words false text 1 1 50 50 50 kl mm = Ok (map (word_of text) all, Some EUnderflow) /\
  stream_words false text 3 2 50 50 50 kl mini = Ok (map (word_of text) all, Some EUnderflow) /\
  stream_words false cut 2 3 50 50 50 kl mm = Ok (map (word_of cut) most, None) /\
  nth_error (map (word_of cut) most) 0 = Some (1, 7, txt "x").
Proof.
  split; [vm_compute; congruence|]. split; [vm_compute; reflexivity|]. split; [discriminate|]. split; [discriminate|]. split; [repeat constructor; cbn; lia|]. split; [repeat constructor; cbn; lia|].
  repeat (split; [vm_compute; reflexivity|]). vm_compute. reflexivity.
Qed.
(** With memcpy as specified a short text is not read to its end from a buffer of the
    usual size: the ranges overlap (finding 14). *)
Theorem C68_overlap_refuted : exists k m strm l, strm <> [] /\ show (visit_all 50 50 50 k m strm 0 true 0) = Some (l, None) /\
  stream_words false strm 1024 1024 50 50 50 k m = Ok (map (word_of strm) l, None) /\ stream_words true strm 1024 1024 50 50 50 k m = UB.
Proof. exists kl, mm, cut, most. split; [discriminate|]. repeat (split; [vm_compute; reflexivity|]). vm_compute. reflexivity. Qed.
Print Assumptions C68_overlap_refuted.
(** An empty stream gives a token: a character that is not there (C44_empty_stream_refuted). *)
Theorem C68_empty_stream_refuted : exists k m, show (visit_all 50 50 50 k m [] 0 true 0) = Some ([], None) /\ stream_words false [] 4 4 50 50 50 k m = Ok ([(npos k, npos k, [0])], None).
Proof. exists kl, mm. split; vm_compute; reflexivity. Qed.
Print Assumptions C68_empty_stream_refuted.
