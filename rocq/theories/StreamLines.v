(** From rules that may end with $ to the words of a stream. *)
From Verif Require Import Base StringToken StateMachine Generator Build Lookup Minimise Iterator GenCpp RuleSpec BuildSpec BuildCheck
  ReToken ReTokeniser ReTokeniserNext Rules TokeniseSpec RulesSpec RulesBuild SourceSpec SourceLiteral SourceLexer SourceTop LineSpec LineTop LineRoutes
  TokenList Routes StreamIter StreamSpec StreamProofs AnyIter UtfLex StreamLex StreamLexProofs StreamTexts.
Local Open Scope N_scope.

(** The words of the tokens [l] come out of the stream whatever the sizes of the buffer
    are; the second line is about memcpy as specified (finding 14). *)
Definition stream_lines (k : cfg) (m : internals) (strm : list N) (l : list shows) : Prop :=
  forall size incr n fuel inner, (1 <= size)%nat -> (1 <= incr)%nat -> (length strm < n)%nat -> (length strm < fuel)%nat -> (2 * length strm + 1 < inner)%nat ->
  stream_words false strm size incr n fuel inner k m = Ok (map (word_of strm) l, None) /\
  (stream_words true strm size incr n fuel inner k m = Ok (map (word_of strm) l, None) \/ stream_words true strm size incr n fuel inner k m = UB).
Lemma stream_lines_iterate k m strm l : strm <> [] -> Forall (fun s : shows => (snd (fst s) <= snd s)%nat) l -> lines_iterate k m strm l -> stream_lines k m strm l.
Proof.
  intros NE FA IT size incr n fuel inner H1 H2 L1 L2 L3. destruct (IT n fuel inner L1 L2 L3) as ((rs & V & M) & _).
  assert (F' : Forall (fun x => (r_first x <= r_second x)%nat) rs).
  { subst l. clear - FA. induction rs as [|r rs IH]; constructor; inversion FA; subst; auto. }
  assert (E : map (worded strm) rs = map (word_of strm) l). { subst l. rewrite map_map. reflexivity. }
  pose proof (stream_words_ok strm size incr n fuel inner k m rs None H1 H2 NE ltac:(lia) V F') as W. rewrite E in W. split; [exact W|].
  destruct (stream_words_strict strm size incr n fuel inner k m) as [->| ->]; auto.
Qed.
Theorem lines_to_stream k g kc fl mds xs f m strm : 1 < rnpos k -> g_bits g = r_bits k -> g_bytes g = r_bytes k -> r_bytes k = 1 \/ r_bytes k = 2 ->
  agree kc g -> smacros_ok k fl mds -> Forall (lrule_ok k fl mds) xs -> sapart (r_bytes k) xs ->
  (forall s, In s (gr_states (grules_of (push_all k fl mds xs))) -> N.of_nat (length (all_sets (g_bytes g) s)) < eol_tok g) ->
  build f g (grules_of (push_all k fl mds xs)) = Ok m -> f_adv kc = true -> Forall (fits (c_bytes kc)) strm -> strm <> [] ->
  exists l m', tokens (dreads (npos kc) (skip_id kc) (f_bol kc) (f_eol kc) xs strm) true 0 l /\ minimise (c_bits kc) m = Ok m' /\ stream_lines kc m strm l /\ stream_lines kc m' strm l.
Proof.
  intros NP Hbits Hbytes Hb AG MO Hx AP Sets HB Adv HI NE.
  destruct (lines_all_routes k g kc fl mds xs f m strm NP Hbits Hbytes Hb AG MO Hx AP Sets HB Adv HI) as (l & T & _ & I1 & (m' & M & I2) & _).
  assert (O : ordered (length strm) 0 l).
  { refine (tokens_ordered _ _ _ _ _ _ T ltac:(lia)). intros bol p id uid i j b Lp H. refine (dreads_prog _ _ _ _ _ _ _ _ _ _ _ _ _ _ _ Lp H).
    - destruct AG as (-> & _). unfold gnpos. rewrite Hbits. change (rnpos k <> 0). lia.
    - eapply Forall_impl; [|exact Hx]. intros x [[_ _ _ (I & _)] _ _]. exact I. }
  apply ordered_fwd in O. exists l, m'. split; [exact T|]. split; [exact M|]. split; apply stream_lines_iterate; auto.
Qed.
