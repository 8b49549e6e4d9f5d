(** Property C69: what build() does with rules written as texts. *)
From Coq Require Import String.
From Verif Require Import Base StringToken StateMachine ReToken Generator Build Lookup Minimise Iterator GenCpp RuleSpec BuildSpec BuildCheck
  ReTokeniser ReTokeniserNext Rules TokeniseSpec RulesSpec RulesBuild SourceSpec SourceLiteral SourceLexer SourceTop SourceStates StatesTop
  TokenList Routes StateTokens StateRoutes BuildTexts P_States.
Local Open Scope N_scope.

(** With enough fuel there is an answer, and each answer says something about the
    texts: which exception is thrown for what, and what must hold if none is. *)
Theorem C69_one_state k g fl mds xs : 1 < rnpos k -> g_bits g = r_bits k -> g_bytes g = r_bytes k -> 0 < g_bytes g ->
  smacros_ok k fl mds -> Forall (srule_ok k fl mds) xs ->
  (forall s, In s (gr_states (grules_of (push_all k fl mds xs))) -> N.of_nat (List.length (all_sets (g_bytes g) s)) < eol_tok g) ->
  (forall x t, In x (rules_at (push_all k fl mds xs) 0) -> In t (gr_tokens x) -> sliceable (g_bytes g) t) ->
  N.of_nat (List.length xs) < 2 ^ g_bits g ->
  exists f0, forall f, (f0 <= f)%nat -> outcome (r_bytes k) fl [xs] (build f g (grules_of (push_all k fl mds xs))).
Proof. exact (texts_outcome k g fl mds xs). Qed.
Theorem C69_start_states k g fl more mds ds : 1 < rnpos k -> g_bits g = r_bits k -> g_bytes g = r_bytes k -> 0 < g_bytes g ->
  NoDup (initial :: more) -> Forall (fun n => validate n = true) more ->
  N.of_nat (List.length (initial :: more)) < 2 ^ r_bits k -> smacros_ok k fl mds -> Forall (decl_ok k fl mds (initial :: more)) ds ->
  (forall s, In s (gr_states (grules_of (make_lexer k fl more mds ds))) -> N.of_nat (List.length (all_sets (g_bytes g) s)) < eol_tok g) ->
  (forall i x t, In x (rules_at (make_lexer k fl more mds ds) i) -> In t (gr_tokens x) -> sliceable (g_bytes g) t) ->
  N.of_nat (List.length (concat (map (texts_in ds) (initial :: more)))) < 2 ^ g_bits g ->
  exists f0, forall f, (f0 <= f)%nat -> outcome (r_bytes k) fl (map (texts_in ds) (initial :: more)) (build f g (grules_of (make_lexer k fl more mds ds))).
Proof. exact (states_outcome k g fl more mds ds). Qed.
(** Texts to which there is nothing to object give a lexer that reads every input, or
    there are too many states for the id type. *)
Theorem C69_texts_build k g fl mds xs kc : 1 < rnpos k -> g_bits g = r_bits k -> g_bytes g = r_bytes k -> 0 < g_bytes g ->
  smacros_ok k fl mds -> Forall (srule_ok k fl mds) xs ->
  (forall s, In s (gr_states (grules_of (push_all k fl mds xs))) -> N.of_nat (List.length (all_sets (g_bytes g) s)) < eol_tok g) ->
  (forall x t, In x (rules_at (push_all k fl mds xs) 0) -> In t (gr_tokens x) -> sliceable (g_bytes g) t) ->
  N.of_nat (List.length xs) < 2 ^ g_bits g -> sound_rules (r_bytes k) fl xs -> agree kc g -> ReTokeniser.has fl rf_match_zero_len = false -> f_adv kc = true ->
  exists f0, (forall f, (f0 <= f)%nat -> build f g (grules_of (push_all k fl mds xs)) = Throw EOverflow) \/
    exists m, (forall f, (f0 <= f)%nat -> build f g (grules_of (push_all k fl mds xs)) = Ok m) /\
      (RulesBuild.covers kc m -> forall inp, Forall (fits (c_bytes kc)) inp -> known_chars (g_bytes g) inp ->
        exists l, tokens (sreads (npos kc) (skip_id kc) (f_bol kc) xs inp) true 0 l /\ every_route kc m inp l).
Proof. intros H1 H2 H3 H4 H5 H6 H7 H8. exact (texts_build k g fl mds xs H1 H2 H3 H4 H5 H6 H7 H8 kc). Qed.
Theorem C69_states_build k g fl more mds ds kc : 1 < rnpos k -> g_bits g = r_bits k -> g_bytes g = r_bytes k -> 0 < g_bytes g ->
  NoDup (initial :: more) -> Forall (fun n => validate n = true) more ->
  N.of_nat (List.length (initial :: more)) < 2 ^ r_bits k -> smacros_ok k fl mds -> Forall (decl_ok k fl mds (initial :: more)) ds ->
  (forall s, In s (gr_states (grules_of (make_lexer k fl more mds ds))) -> N.of_nat (List.length (all_sets (g_bytes g) s)) < eol_tok g) ->
  (forall i x t, In x (rules_at (make_lexer k fl more mds ds) i) -> In t (gr_tokens x) -> sliceable (g_bytes g) t) ->
  N.of_nat (List.length (concat (map (texts_in ds) (initial :: more)))) < 2 ^ g_bits g -> Forall (sound_rules (r_bytes k) fl) (map (texts_in ds) (initial :: more)) ->
  agree kc g -> ReTokeniser.has fl rf_match_zero_len = false -> f_adv kc = true -> f_multi kc = true ->
  exists f0, (forall f, (f0 <= f)%nat -> build f g (grules_of (make_lexer k fl more mds ds)) = Throw EOverflow) \/
    exists m, (forall f, (f0 <= f)%nat -> build f g (grules_of (make_lexer k fl more mds ds)) = Ok m) /\
      (RulesBuild.covers kc m -> forall inp, Forall (fits (c_bytes kc)) inp -> known_chars (g_bytes g) inp ->
        exists l e, mtokens (npos kc) (skip_id kc) (f_bol kc) ds inp initial [] true 0 l e /\ all_roads kc m inp l e).
Proof. intros H1 H2 H3 H4 H5 H6 H7 H8 H9 H10 H11. exact (states_build k g fl more mds ds H1 H2 H3 H4 H5 H6 H7 H8 H9 H10 H11 kc). Qed.
Print Assumptions C69_one_state.
Print Assumptions C69_start_states.
Print Assumptions C69_texts_build.
Print Assumptions C69_states_build.

(** Words in quotes: each rule wins when the words differ. *)
Lemma lit_match s id uid bol cs : s <> [] -> (smatch (lit s id uid) bol cs <-> cs = s).
Proof.
  intros NE. assert (U : unanchored (literal 1 2 s)) by (intros w H; apply literal_lang in H as (ds & -> & _); eauto).
  rewrite smatch_words by now left. cbn [lit s_sx]. rewrite !literal_lang by exact NE. assert (INJ : forall l l', map CChar l = map CChar l' -> l = l').
  { induction l as [|c l IH]; intros [|d l'] E; try discriminate; [reflexivity|]. injection E as -> E. f_equal. auto. }
  assert (SAME : forall l l', Forall2 (fun c d => cased 1 (f_icase 2) (eq c) d) l l' <-> l' = l).
  { intros l l'. split.
    - induction 1 as [|c d l l' [H|[H _]] F IH]; [reflexivity|now subst|discriminate].
    - intros ->. induction l; constructor; [now left|assumption]. }
  split.
  - intros [(ds & E & F)|(_ & ds & E & F)]; [|destruct ds; discriminate]. apply INJ in E. subst ds. now apply SAME.
  - intros ->. left. exists s. split; [reflexivity|]. now apply SAME.
Qed.
Definition lits (ws : list (list N)) : list srule := map (fun s => lit s 1 65535) ws.
Lemma lits_win ws j : NoDup ws -> ~ In [] ws -> (j < List.length (lits ws))%nat -> wins 1 (lits ws) j.
Proof.
  intros ND NE L. unfold lits in *. rewrite map_length in L. destruct (nth_error ws j) as [s|] eqn:E; [|apply nth_error_None in E; lia].
  assert (NZ : forall j' s', nth_error ws j' = Some s' -> s' <> []) by (intros j' s' H ->; apply NE; eapply nth_error_In; eauto).
  exists (lit s 1 65535), false, s. split; [now left|]. split; [rewrite nth_error_map, E; reflexivity|]. split; [apply lit_match; eauto|].
  intros j' y' L' E' M. rewrite nth_error_map in E'. destruct (nth_error ws j') as [s'|] eqn:Es; [|discriminate]. injection E' as <-. apply lit_match in M; [|eauto]. subst s'.
  assert (j' = j) by (eapply NoDup_nth_error; eauto; [now apply nth_error_Some; rewrite Es|congruence]). lia.
Qed.
Lemma lits_sound ws : ws <> [] -> NoDup ws -> ~ In [] ws -> sound_rules 1 2 (lits ws).
Proof.
  intros N ND NE. split; [destruct ws; [congruence|discriminate]|]. split; right; [|intros j; now apply lits_win].
  intros y Hy EW. unfold lits in Hy. apply in_map_iff in Hy as (s & <- & Hs). assert (Hz : s <> []) by (intros ->; auto). 
  assert (M : smatch (lit s 1 65535) false []) by exact EW. apply lit_match in M; auto.
Qed.
Definition thrown (xs : list srule) : option err := match build 100 gr (grules_of (push_all kr 2 [] xs)) with Throw e => Some e | _ => None end.
Definition some_a : srule := {| s_text := txt "a*"; s_sx := SStar (SSet (cased 1 false (eq 97))); s_id := 1; s_uid := 65535 |}.
(** A text for each answer. The second "if" can never win; a* has the empty word. *)
Example C69_case : sound_rules 1 2 (lits [txt "if"; txt "i"; txt "f"]) /\ thrown (lits [txt "if"; txt "i"; txt "f"]) = None /\
  ~ wins 1 (lits [txt "if"; txt "i"; txt "if"]) 2 /\ thrown (lits [txt "if"; txt "i"; txt "if"]) = Some ESuppressed /\
  empty_word some_a /\ thrown [some_a] = Some EZeroLen /\ thrown [] = Some EEmptyState.
Proof.
  split; [|split; [vm_compute; reflexivity|split; [|split; [vm_compute; reflexivity|split; [|split; vm_compute; reflexivity]]]]].
  - apply lits_sound; [discriminate| |intros [H|[H|[H|[]]]]; discriminate]. repeat (constructor; [intros H; repeat (destruct H as [H|H]; [discriminate|]); destruct H|]). constructor.
  - intros (y & bol & cs & _ & E & M & N). cbn in E. injection E as <-. apply lit_match in M; [|discriminate]. subst cs. apply (N 0%nat (lit (txt "if") 1 65535)); [lia|reflexivity|].
    now apply lit_match.
  - exists 0%nat. reflexivity.
Qed.
(** The lexer of C59 with its two states; without rules for comments it is refused. *)
Example C69_states_case : Forall (sound_rules 1 2) (map (texts_in ds) [initial; comment]) /\ build 200 gr (grules_of (make_lexer kr 2 [comment] [] ds)) = Ok mm /\
  Forall (decl_ok kr 2 [] [initial; comment]) [dcl [initial] (txt "x") 1 7 Stay] /\
  map (texts_in [dcl [initial] (txt "x") 1 7 Stay]) [initial; comment] = [[lit (txt "x") 1 7]; []] /\
  build 200 gr (grules_of (make_lexer kr 2 [comment] [] [dcl [initial] (txt "x") 1 7 Stay])) = Throw EEmptyState.
Proof.
  split; [|split; [vm_compute; reflexivity|split; [|split; [reflexivity|vm_compute; reflexivity]]]].
  - assert (G : forall ls, ls <> [] -> NoDup (map (fun x => fst (fst x)) ls) -> ~ In [] (map (fun x => fst (fst x)) ls) -> sound_rules 1 2 (map (fun x => lit (fst (fst x)) (snd (fst x)) (snd x)) ls)).
    { intros ls N ND NE. split; [destruct ls; [congruence|discriminate]|]. split; right.
      - intros y Hy EW. apply in_map_iff in Hy as (((s & id) & uid) & <- & Hs). assert (M : smatch (lit s id uid) false []) by exact EW. assert (s <> []) by (intros ->; apply NE; apply in_map_iff; eexists; split; [|exact Hs]; reflexivity).
        apply lit_match in M; auto.
      - intros j L. rewrite map_length in L. destruct (nth_error ls j) as [((s & id) & uid)|] eqn:E; [|apply nth_error_None in E; lia].
        assert (NZ : forall j' x', nth_error ls j' = Some x' -> fst (fst x') <> []) by (intros j' x' H Z; apply NE; apply in_map_iff; exists x'; split; [exact Z|eapply nth_error_In; eauto]).
        exists (lit s id uid), false, s. split; [now left|]. split; [rewrite nth_error_map, E; reflexivity|]. split; [apply lit_match; [exact (NZ _ _ E)|reflexivity]|].
        intros j' y' L' E' M. rewrite nth_error_map in E'. destruct (nth_error ls j') as [((s' & id') & uid')|] eqn:Es; [|discriminate]. injection E' as <-. apply lit_match in M; [|exact (NZ _ _ Es)]. cbn in M. subst s'.
        assert (j' = j); [|lia]. rewrite NoDup_nth_error in ND. apply ND; [rewrite map_length; apply nth_error_Some; congruence|]. now rewrite !nth_error_map, Es, E. }
    constructor; [|constructor; [|constructor]].
    + apply (G [(txt "/*", 0, 65535); (txt "x", 1, 7); (txt " ", 65534, 65535); (txt "!", 3, 9); (txt "]", 4, 9)]); [discriminate| |intros H; cbn in H; intuition discriminate].
      repeat (constructor; [intros H; cbn in H; intuition discriminate|]). constructor.
    + apply (G [(txt "/*", 0, 65535); (txt "*/", 2, 8); (txt "x", 0, 65535); (txt "!", 3, 9)]); [discriminate| |intros H; cbn in H; intuition discriminate].
      repeat (constructor; [intros H; cbn in H; intuition discriminate|]). constructor.
  - constructor; [|constructor]. apply dcl_ok; try discriminate; try reflexivity; [intros x [<-|[]]; now left|constructor; [intros []|constructor]|intros x []].
Qed.
