(** From the texts of the rules to the words of a stream. *)
From Verif Require Import Base StringToken StateMachine Generator Build Lookup Minimise Iterator GenCpp RuleSpec BuildSpec BuildCheck
  ReToken ReTokeniser ReTokeniserNext Rules TokeniseSpec RulesSpec RulesBuild SourceSpec SourceLiteral SourceLexer SourceTop SourceStates StatesTop
  TokenList Routes StateTokens StateRoutes StreamIter StreamSpec StreamProofs AnyIter UtfLex StreamLex StreamLexProofs.
Local Open Scope N_scope.

Definition word_of (strm : list N) (s : shows) : word := let '(id, uid, i, j) := s in (id, uid, between_pos strm i j).
(** The words of the tokens [l] come out of the stream whatever the sizes of the buffer
    are, followed by the exception [e] if there is one. Where memcpy may not be used on
    ranges that overlap, the same comes out or the behaviour is undefined. *)
Definition stream_reads (k : cfg) (m : internals) (strm : list N) (l : list shows) (e : option err) : Prop :=
  forall size incr n fuel inner, (1 <= size)%nat -> (1 <= incr)%nat -> (length strm < n)%nat -> (length strm < fuel)%nat -> (length strm < inner)%nat ->
  stream_words false strm size incr n fuel inner k m = Ok (map (word_of strm) l, e) /\
  (stream_words true strm size incr n fuel inner k m = Ok (map (word_of strm) l, e) \/ stream_words true strm size incr n fuel inner k m = UB).

Theorem stream_iterates k m strm l e : strm <> [] -> Forall (fun s : shows => (snd (fst s) <= snd s)%nat) l -> iterates_to k m strm l e -> stream_reads k m strm l e.
Proof.
  intros NE FA IT size incr n fuel inner H1 H2 L1 L2 L3. destruct (IT n fuel inner L1 L2 L3) as (rs & V & M).
  assert (F' : Forall (fun x => (r_first x <= r_second x)%nat) rs).
  { subst l. clear - FA. induction rs as [|r rs IH]; constructor; inversion FA; subst; auto. }
  assert (E : map (worded strm) rs = map (word_of strm) l). { subst l. rewrite map_map. reflexivity. }
  pose proof (stream_words_ok strm size incr n fuel inner k m rs e H1 H2 NE ltac:(lia) V F') as W. rewrite E in W. split; [exact W|].
  destruct (stream_words_strict strm size incr n fuel inner k m) as [->| ->]; auto.
Qed.
Lemma ordered_fwd len : forall l p, Routes.ordered len p l -> Forall (fun s : shows => (snd (fst s) <= snd s)%nat) l.
Proof. induction l as [|[[[id uid] i] j] l IH]; intros p; cbn; [constructor|]. intros (H & O). constructor; [cbn; lia|eauto]. Qed.
Theorem texts_to_stream k g kc fl mds xs f m strm : 1 < rnpos k -> g_bits g = r_bits k -> g_bytes g = r_bytes k -> 0 < g_bytes g -> agree kc g ->
  smacros_ok k fl mds -> Forall (srule_ok k fl mds) xs ->
  (forall s, In s (gr_states (grules_of (push_all k fl mds xs))) -> N.of_nat (List.length (all_sets (g_bytes g) s)) < eol_tok g) ->
  (forall x t, In x (rules_at (push_all k fl mds xs) 0) -> In t (gr_tokens x) -> sliceable (g_bytes g) t) ->
  build f g (grules_of (push_all k fl mds xs)) = Ok m -> ReTokeniser.has fl rf_match_zero_len = false -> f_adv kc = true -> RulesBuild.covers kc m ->
  Forall (fits (c_bytes kc)) strm -> known_chars (g_bytes g) strm -> strm <> [] ->
  exists l m', tokens (sreads (npos kc) (skip_id kc) (f_bol kc) xs strm) true 0 l /\ minimise (c_bits kc) m = Ok m' /\ stream_reads kc m strm l None /\ stream_reads kc m' strm l None.
Proof.
  intros H1 H2 H3 H4 H5 H6 H7 H8 H9 H10 H11 H12 H13 H14 H15 NE.
  destruct (texts_all_tokens k g kc fl mds f m strm H1 H2 H5 H6 H11 H12 H14 H13 xs H3 H4 H7 H8 H9 H10 H15) as (l & T & (I1 & _ & (m' & M & I2 & _) & _) & O).
  apply ordered_fwd in O. exists l, m'. split; [exact T|]. split; [exact M|]. split; apply stream_iterates; auto.
Qed.
Theorem states_to_stream k g kc fl more mds ds f m strm : 1 < rnpos k -> g_bits g = r_bits k -> g_bytes g = r_bytes k -> 0 < g_bytes g -> agree kc g ->
  NoDup (initial :: more) -> Forall (fun n => validate n = true) more ->
  N.of_nat (List.length (initial :: more)) < 2 ^ r_bits k -> smacros_ok k fl mds -> Forall (decl_ok k fl mds (initial :: more)) ds ->
  (forall s, In s (gr_states (grules_of (make_lexer k fl more mds ds))) -> N.of_nat (List.length (all_sets (g_bytes g) s)) < eol_tok g) ->
  (forall i x t, In x (rules_at (make_lexer k fl more mds ds) i) -> In t (gr_tokens x) -> sliceable (g_bytes g) t) ->
  build f g (grules_of (make_lexer k fl more mds ds)) = Ok m -> ReTokeniser.has fl rf_match_zero_len = false ->
  f_adv kc = true -> f_multi kc = true -> RulesBuild.covers kc m -> Forall (fits (c_bytes kc)) strm -> known_chars (g_bytes g) strm -> strm <> [] ->
  exists l e m', mtokens (npos kc) (skip_id kc) (f_bol kc) ds strm initial [] true 0 l e /\ minimise (c_bits kc) m = Ok m' /\ stream_reads kc m strm l e /\ stream_reads kc m' strm l e.
Proof.
  intros H1 H2 H3 H4 H5 H6 H7 H8 H9 H10 H11 H12 H13 H14 H15 H16 H17 H18 H19 NE.
  destruct (states_all_tokens k g kc fl more mds ds f m strm H1 H2 H3 H4 H5 H6 H7 H8 H9 H10 H11 H12 H13 H14 H15 H16 H18 H19 H17) as (l & e & T & (I1 & _ & (m' & M & I2 & _) & _) & O).
  apply ordered_fwd in O. exists l, e, m'. split; [exact T|]. split; [exact M|]. split; apply stream_iterates; auto.
Qed.
