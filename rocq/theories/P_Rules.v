(** Properties C40-C43 and C46-C50: the regex tokeniser and the rules object. *)
From Coq Require Import String.
From Verif Require Import Base StringToken StringTokenSpec SliceSpec StateMachine RegexSpec ReToken DfaSpec Grammar Tree Parser
  Generator Build Lookup TableSpec LookupSpec RuleSpec RuleWords BuildSpec BuildLookup BuildCheck
  ReTokeniser ReTokeniserNext Rules TokeniseSpec TokeniseProofs TokeniseGram StripProofs PruneProofs PruneLang SplitProofs
  TokeniseAll RulesSpec RulesInv RulesContent RulesFeat RulesBuild RulesCheck RulesPush RulesTop RulesNeed ReverseProofs MacroProofs
  BuildErrs BuildThms BuildFlags.
Local Open Scope N_scope.

(** ** Witness: an object made by calls of the public members *)
Definition kr : rcfg := {| r_bytes := 1; r_bits := 16 |}.
Definition gr : gcfg := {| g_bits := 16; g_bytes := 1 |}.
Definition kl : cfg := {| f_bol := true; f_eol := false; f_multi := true; f_rec := true; f_adv := true;
                          c_bytes := 1; c_bits := 16 |}.
Definition ch (c : N) : token := {| tk_type := CHARSET; tk_extra := []; tk_str := [(c, c)] |}.
Definition new : rules := make_rules kr 2.
Definition ops : list op :=
  [ OState (txt "STR"); OMacro (txt "L") (txt "[a-z]|_"); OPush (txt "if") 1 65535; OPush (txt "{L}({L}|[0-9])*") 2 65535;
    OPush (txt "bad(") 9 65535;
    OPush (txt "^#.*") 3 65535; OPush (txt " +") 65534 65535; OPushIn (txt "INITIAL") [92; 34] 4 (txt ">STR:INITIAL") 7;
    OPushIn (txt "STR") (txt "[^\x22]{2,}") 5 (txt ".") 65535; OPushIn (txt "STR") [92; 34] 6 (txt "<") 65535 ].
Definition made : rules := calls kr ops new.
Lemma made_proper : proper_unsplit kr made.
Proof. apply calls_proper; [constructor|vm_compute; reflexivity]. Qed.
Lemma made_simple : simple gr made.
Proof. apply simpleb_ok. vm_compute. reflexivity. Qed.
Lemma made_history : history kr ops made.
Proof. apply (calls_history kr ops []). constructor. Qed.
Example made_rules_are : map (fun g => map (fun x => (gr_id x, gr_next x, gr_push x, gr_pop x)) (gs_rules g)) (gr_states (grules_of made)) =
  [[(1, 0, 65535, false); (2, 0, 65535, false); (3, 0, 65535, false); (65534, 0, 65535, false); (4, 1, 0, false)];
   [(5, 1, 65535, false); (6, 65535, 65535, true)]].
Proof. vm_compute. reflexivity. Qed.

(** ** C40: macros *)
Theorem C40_macro_is_its_text_in_parentheses_partial Q ms acc rhs at_end u : macro_find (tk_extra rhs) ms = Some (between u) ->
  vec Q u -> u <> [] -> ~ at_edge (Nat.eqb (List.length acc) 1) at_end u ->
  exists ins, process_macro ms acc rhs at_end None = Ok (ins, rhs) /\
  forall p q e, ogram e (p ++ ins ++ q) <-> ogram e (p ++ paren_open :: macro_text u ++ paren_close :: q).
Proof.
  intros H1 H2 H3 H4. exact (ex_intro _ _ (conj (process_macro_eq ms acc rhs at_end u H1) (fun p q => macro_is_group Q u _ _ p q H2 H3 H4))).
Qed.
Theorem C40_unknown_macro ms acc rhs at_end d : macro_find (tk_extra rhs) ms = None -> process_macro ms acc rhs at_end d = Throw EMacro.
Proof. intros H. unfold process_macro. now rewrite H. Qed.
Theorem C40_redefined_macro k name x r mt : validate name = true -> macro_find name (ru_macros r) = Some mt ->
  insert_macro k name x r = (r, Throw EMacro).
Proof. intros H1 H2. unfold insert_macro. now rewrite H1, H2. Qed.
Print Assumptions C40_macro_is_its_text_in_parentheses_partial.
Print Assumptions C40_unknown_macro.
Print Assumptions C40_redefined_macro.
Definition cls (s : stoken) : token := {| tk_type := CHARSET; tk_extra := []; tk_str := s |}.
(** L is [a-z]|_, used in {L}({L}|[0-9])*. *)
Example C40_case : exists u, macro_find (txt "L") (ru_macros made) = Some (between u) /\ u = [cls [(97, 122)]; tok OR; ch 95] /\
  tokenise 1 2 (ru_macros made) (txt "{L}x") true = Ok [between (paren_open :: u ++ [paren_close; ch 120])].
Proof. exists [cls [(97, 122)]; tok OR; ch 95]. split; [vm_compute; reflexivity|]. split; [reflexivity|vm_compute; reflexivity]. Qed.
(** What happens at the edges: the tokens of the macro are inserted without
    parentheses, and its ^ and $ are anchors at an edge of the rule only. *)
Theorem C40_at_the_edges ms acc rhs at_end u : macro_find (tk_extra rhs) ms = Some (between u) ->
  at_edge (Nat.eqb (List.length acc) 1) at_end u -> exists ins, process_macro ms acc rhs at_end None = Ok (ins, rhs) /\
  ins = (if Nat.eqb (List.length acc) 1 then id else lit_bol) ((if at_end then id else lit_eol) u).
Proof.
  intros H1 H2. eexists. split; [exact (process_macro_eq ms acc rhs at_end u H1)|]. unfold expand. unfold at_edge in H2. rewrite H2.
  now rewrite andb_false_r.
Qed.
Print Assumptions C40_at_the_edges.
Example C40_edge_case : exists r u, insert_macro kr (txt "M") (txt "^a|b$") new = (r, Ok tt) /\ macro_find (txt "M") (ru_macros r) = Some (between u) /\
  at_edge true false u /\ tokenise 1 2 (ru_macros r) (txt "{M}c") true = Ok [between [tok BOL; ch 97; tok OR; ch 98; t_set [(36, 36)]; ch 99]].
Proof. eexists _, [tok BOL; ch 97; tok OR; ch 98; tok EOL]. split; [vm_compute; reflexivity|]. split; [vm_compute; reflexivity|]. split; vm_compute; reflexivity. Qed.
(** M is ^a|b: in {M}c the c belongs to the second alternative only. *)
Theorem C40_edge_refuted : exists r e, insert_macro kr (txt "M") (txt "^a|b") new = (r, Ok tt) /\
  tokenise 1 2 (ru_macros r) (txt "{M}c") true = Ok [between e] /\
  e = [tok BOL; ch 97; tok OR; ch 98; ch 99] /\
  tokenise 1 2 [] (txt "^(a|b)c") true <> Ok [between e].
Proof.
  eexists _, [tok BOL; ch 97; tok OR; ch 98; ch 99]. split; [vm_compute; reflexivity|]. split; [vm_compute; reflexivity|]. split; [reflexivity|].
  vm_compute. discriminate.
Qed.

(** ** C41: outer parentheses *)
Theorem C41_stripping_keeps_the_meaning w : exists w', strip_parens (between w) = between w' /\
  (exists os cs, w = os ++ w' ++ cs /\ List.length os = List.length cs /\
     Forall (fun t => tk_type t = OPENPAREN) os /\ Forall (fun t => tk_type t = CLOSEPAREN) cs) /\
  (forall r, gram GRegex r w <-> gram GRegex r w') /\ bare w'.
Proof.
  destruct (strip_parens_ok w) as (w' & H1 & H2 & H3). exists w'. split; [exact H1|]. split; [|split; [exact (strips_gram w w' H2)|exact H3]].
  clear H1 H3. induction H2 as [w|o inner c w' Ho Hc Hb S (os & cs & -> & L & F1 & F2)]; [exists [], []; cbn; rewrite app_nil_r; auto|].
  exists (o :: os), (cs ++ [c]). cbn. rewrite !app_length. cbn. rewrite <- !app_assoc. repeat split; auto; [lia|]. apply Forall_app. auto.
Qed.
Print Assumptions C41_stripping_keeps_the_meaning.
Definition po : token := tok OPENPAREN.
Definition pc : token := tok CLOSEPAREN.
Example C41_case : tokenise 1 2 [] (txt "((a|b)c)") true = tokenise 1 2 [] (txt "(a|b)c") true /\
  tokenise 1 2 [] (txt "(a|b)(c)") true = Ok [between [po; ch 97; tok OR; ch 98; pc; po; ch 99; pc]].
Proof. split; vm_compute; reflexivity. Qed.

(** ** C42: reversal *)
Theorem C42_reversed_rule_partial o w : ogram o w -> free_anchors w -> exists w' o',
  reverse_tokens (between w) = Ok (between w') /\ reverse_tokens (between w') = Ok (between w) /\
  ogram o' w' /\ forall v, oclang o' v <-> oclang o (mirror v).
Proof. exact (reverse_ok o w). Qed.
Theorem C42_twice_partial r : Forall (Forall turnable) (ru_regexes r) -> Forall (fun e => turnable (snd e)) (ru_macros r) ->
  exists r', reverse r = Ok r' /\ reverse r' = Ok r.
Proof. exact (reverse_twice r). Qed.
(** A text has no anchors: its mirror is the reversed text. *)
Theorem C42_mirror_of_a_text cs : mirror (map CChar cs) = map CChar (rev cs).
Proof. unfold mirror. rewrite map_map, map_rev. reflexivity. Qed.
Print Assumptions C42_reversed_rule_partial.
Print Assumptions C42_twice_partial.
Print Assumptions C42_mirror_of_a_text.
Example C42_case : reverse_tokens (between [tok BOL; ch 97; po; ch 98; tok OR; ch 99; ch 100; pc; tok ONEORMORE]) =
  Ok (between [po; ch 100; ch 99; tok OR; ch 98; pc; tok ONEORMORE; ch 97; tok EOL]).
Proof. vm_compute. reflexivity. Qed.
(** ^ followed by a repeat: the anchor stays a BOL, in the middle of the rule. *)
Theorem C42_repeated_anchor_refuted : exists w w', tokenise 1 2 [] (txt "^*a") true = Ok [between w] /\
  reverse_tokens (between w) = Ok (between w') /\ w' = [ch 97; tok BOL; tok ZEROORMORE].
Proof. exists [tok BOL; tok ZEROORMORE; ch 97], [ch 97; tok BOL; tok ZEROORMORE]. split; [vm_compute; reflexivity|]. split; [vm_compute; reflexivity|reflexivity]. Qed.

(** ** C43: the tables *)
Theorem C43_tables_stay_aligned k os r : history k os r -> aligned k r.
Proof. exact (history_aligned k os r). Qed.
Theorem C43_indexes_are_stable k o r name : o <> OClear -> state_index k name r <> rnpos k ->
  state_index k name (fst (apply k o r)) = state_index k name r.
Proof. exact (apply_keeps_index k o r name). Qed.
Theorem C43_names_and_indexes k os r name i : history k os r -> N.of_nat (List.length (ru_map r)) <= rnpos k -> rnpos k < 2 ^ r_bits k ->
  (state_index k name r = i /\ i <> rnpos k <-> state_name i r = Some name /\ i < N.of_nat (List.length (ru_map r))).
Proof. intros H. exact (names_indexes k r name i (history_aligned k os r H)). Qed.
Theorem C43_failed_push k o r e : snd (apply k o r) = Throw e ->
  match o with OPush _ _ _ | OPushIn _ _ _ _ _ | OPushNoId _ _ _ => fst (apply k o r) = r | _ => True end.
Proof. exact (push_fails k o r e). Qed.
Theorem C43_refused_ids k id r : id = 0 \/ id = rnpos k -> forall cur x n uid,
  apply k (OPush x id uid) r = (r, Throw EBadId) /\ apply k (OPushIn cur x id n uid) r = (r, Throw EBadId).
Proof.
  intros H cur x n uid. assert (B : bad_id k id = true) by (unfold bad_id; apply orb_true_iff; destruct H as [->| ->]; [left|right]; apply N.eqb_refl).
  split; cbn [apply]; unfold push_rule, push_states; now rewrite B.
Qed.
Print Assumptions C43_tables_stay_aligned.
Print Assumptions C43_indexes_are_stable.
Print Assumptions C43_names_and_indexes.
Print Assumptions C43_failed_push.
Print Assumptions C43_refused_ids.
Example C43_case : history kr ops made /\ List.length (ru_map made) = 2%nat /\ map (@List.length _) (ru_ids made) = [5%nat; 2%nat] /\
  state_index kr (txt "STR") made = 1.
Proof. split; [exact made_history|]. vm_compute. auto. Qed.

(** ** C46: pruning. [lazy_or]: a | follows, perhaps after closing parentheses, a
    repeat such as *? that may be absent. *)
Theorem C46_pruning_narrows_partial b Q w : vec Q w -> Forall zero_plain w -> undoubled BEGIN w -> ~ lazy_or w ->
  exists w', prune (between w) = Ok (between w') /\ vec Q w' /\
  forall o o', ogram o w -> ogram o' w' -> forall x, olang b o' x -> olang b o x.
Proof.
  intros H1 H2 H3 H4. destruct (prune_ok Q w H1 H2) as (w' & E & P & V). exists w'. split; [exact E|]. split; [exact V|].
  exact (prunes_le b Q w w' P H1 H2 H3 H4).
Qed.
Print Assumptions C46_pruning_narrows_partial.
Example C46_case : prune (between [ch 97; ch 98; tok AZEROORMORE]) = Ok (between [ch 97]) /\
  prune (between [ch 97; ch 98; tok AONEORMORE]) = Ok (between [ch 97; ch 98]) /\
  prune (between [ch 97; ch 98; tok AONEORMORE; ch 99]) = Ok (between [ch 97; ch 98; tok AONEORMORE; ch 99]).
Proof. repeat split; vm_compute; reflexivity. Qed.
(** The theorem also speaks about ab+?|c, which becomes ab|c. *)
Example C46_plus_case : let w := [ch 97; ch 98; tok AONEORMORE; tok OR; ch 99] in
  vec (fun _ => True) w /\ Forall zero_plain w /\ undoubled BEGIN w /\ ~ lazy_or w /\
  prune (between w) = Ok (between [ch 97; ch 98; tok OR; ch 99]).
Proof.
  cbv zeta. split; [|split; [|split; [|split; [|vm_compute; reflexivity]]]].
  - split; [repeat constructor|cbn; auto 10|vm_compute; reflexivity| |]; intros u t v E Ht;
      destruct u as [|x1 [|x2 [|x3 [|x4 [|x5 u]]]]]; cbn in E; injection E; intros; subst; try discriminate Ht; destruct u; discriminate.
  - repeat constructor; intros E; discriminate E.
  - cbn. intuition discriminate.
  - intros (u & op & z & o & v & E & H & _). destruct u as [|x1 [|x2 [|x3 [|x4 [|x5 u]]]]]; cbn in E; injection E; intros; subst;
      try (destruct H as [H|[H|[H _]]]; discriminate H). destruct u; discriminate.
Qed.
(** xa*?|c becomes xc, which the regex does not match. *)
Theorem C46_or_refuted : exists w w' o o', vec (fun _ => True) w /\ prune (between w) = Ok (between w') /\ ogram o w /\ ogram o' w' /\
  olang 1 o' [SByte 120; SByte 99] /\ ~ olang 1 o [SByte 120; SByte 99] /\
  tok_loop 7 1 [] (start_state 2 (txt "xa*?|c")) [tok BEGIN] [] None = Ok (between w).
Proof.
  exists [ch 120; ch 97; tok AZEROORMORE; tok OR; ch 99], [ch 120; ch 99],
    (Some (XAlt (XCat (XSet [(120, 120)]) (XStar (XSet [(97, 97)]))) (XSet [(99, 99)]))), (Some (XCat (XSet [(120, 120)]) (XSet [(99, 99)]))).
  assert (A : forall c, gram GExpr (XSet [(c, c)]) [ch c]) by (intros c; apply g_expr, (g_set (ch c)); reflexivity).
  split; [|split; [vm_compute; reflexivity|split; [|split; [|split; [|split; [|vm_compute; reflexivity]]]]]].
  - split; [repeat constructor|cbn; auto 10|vm_compute; reflexivity| |]; intros u t v E Ht;
      destruct u as [|x1 [|x2 [|x3 [|x4 [|x5 u]]]]]; cbn in E; injection E; intros; subst; try discriminate Ht; destruct u; discriminate.
  - apply (g_or _ _ [ch 120; ch 97; tok AZEROORMORE] [ch 99] (tok OR)); [|reflexivity|apply g_seq, A].
    apply g_regex, (g_cat _ _ [ch 120] [ch 97; tok AZEROORMORE]); [apply g_seq, A|].
    apply (g_dup (XSet [(97, 97)]) [ch 97] (tok AZEROORMORE) XStar); [apply (g_set (ch 97)); reflexivity|]. apply dp_star. now right.
  - apply g_regex, (g_cat _ _ [ch 120] [ch 99]); [apply g_seq, A|apply A].
  - exists [SByte 120], [SByte 99]. split; [reflexivity|]. split; [exists 120|exists 99]; (split; [left; eexists _, _; split; [left; reflexivity|lia]|reflexivity]).
  - assert (M : forall c d, takes [(d, d)] c -> c = d) by (intros c d [(lo & hi & [E|[]] & L)|(_ & lo & [E|[]] & L)]; [injection E as <- <-; lia|injection E as -> E; subst; lia]).
    intros [(u & v & E & (c & Hc & ->) & (n & Hn))|(c & Hc & E)].
    + apply M in Hc. subst c. cbn in E. injection E as <-. destruct n as [|n]; [discriminate Hn|]. destruct Hn as (u1 & v1 & E & (c & Hc & ->) & _).
      apply M in Hc. subst c. discriminate E.
    + discriminate E.
Qed.
Print Assumptions C46_or_refuted.
(** Whether a repeat counts as last depends on parentheses without meaning: in
    xa*?|d|bc it is removed, in xa*?|d|(b)c it is not. *)
Theorem C46_parentheses_refuted : exists r w w' u', gram GRegex r w /\ gram GRegex r w' /\ prune (between w) = Ok (between w) /\ prune (between w') = Ok (between u') /\
  ~ In (tok AZEROORMORE) u' /\ In (tok AZEROORMORE) w /\
  tok_loop 11 1 [] (start_state 2 (txt "xa*?|d|(b)c")) [tok BEGIN] [] None = Ok (between w) /\
  tok_loop 11 1 [] (start_state 2 (txt "xa*?|d|bc")) [tok BEGIN] [] None = Ok (between w').
Proof.
  exists (XAlt (XAlt (XCat (XSet [(120, 120)]) (XStar (XSet [(97, 97)]))) (XSet [(100, 100)])) (XCat (XSet [(98, 98)]) (XSet [(99, 99)]))),
    [ch 120; ch 97; tok AZEROORMORE; tok OR; ch 100; tok OR; tok OPENPAREN; ch 98; tok CLOSEPAREN; ch 99],
    [ch 120; ch 97; tok AZEROORMORE; tok OR; ch 100; tok OR; ch 98; ch 99], [ch 120; ch 100; tok OR; ch 98; ch 99].
  assert (A : forall c, gram GExpr (XSet [(c, c)]) [ch c]) by (intros c; apply g_expr, (g_set (ch c)); reflexivity).
  assert (L : gram GRegex (XAlt (XCat (XSet [(120, 120)]) (XStar (XSet [(97, 97)]))) (XSet [(100, 100)])) [ch 120; ch 97; tok AZEROORMORE; tok OR; ch 100]).
  { apply (g_or _ _ [ch 120; ch 97; tok AZEROORMORE] [ch 100] (tok OR)); [|reflexivity|apply g_seq, A].
    apply g_regex, (g_cat _ _ [ch 120] [ch 97; tok AZEROORMORE]); [apply g_seq, A|].
    apply (g_dup (XSet [(97, 97)]) [ch 97] (tok AZEROORMORE) XStar); [apply (g_set (ch 97)); reflexivity|]. apply dp_star. now right. }
  split; [|split; [|split; [vm_compute; reflexivity|split; [vm_compute; reflexivity|split; [intros H; cbn in H; intuition discriminate|split; [right; right; now left|split; vm_compute; reflexivity]]]]]].
  - apply (g_or _ _ [ch 120; ch 97; tok AZEROORMORE; tok OR; ch 100] [tok OPENPAREN; ch 98; tok CLOSEPAREN; ch 99] (tok OR)); [exact L|reflexivity|].
    apply (g_cat _ _ [tok OPENPAREN; ch 98; tok CLOSEPAREN] [ch 99]); [|apply A].
    apply g_seq, g_expr, (g_paren _ [ch 98] (tok OPENPAREN) (tok CLOSEPAREN)); [reflexivity|apply g_regex, g_seq, A|reflexivity].
  - apply (g_or _ _ [ch 120; ch 97; tok AZEROORMORE; tok OR; ch 100] [ch 98; ch 99] (tok OR)); [exact L|reflexivity|]. apply (g_cat _ _ [ch 98] [ch 99]); [apply g_seq, A|apply A].
Qed.
Print Assumptions C46_parentheses_refuted.

(** ** C47: feature bits *)
Theorem C47_rules_are_announced k g r f m : 1 < rnpos k -> proper_unsplit k r -> build f g (grules_of r) = Ok m ->
  (forall i x, In x (rules_at r i) -> announced k (i_features m) x) /\
  (bit (i_features m) fb_multi <-> (1 < List.length (ru_map r))%nat \/ exists i, bit (nth i (ru_features r) 0) fb_multi).
Proof. intros H1 H2. exact (made_features k g r H1 H2 f m). Qed.
Theorem C47_machine_features f g R m : build f g R = Ok m -> forall b,
  bit (i_features m) b <-> (exists s, In s (gr_states R) /\ bit (gs_features s) b) \/ (1 < List.length (gr_states R))%nat /\ bit fb_multi b.
Proof. exact (machine_features f g R m). Qed.
(** No bit is set that no rule asks for. *)
Theorem C47_nothing_more k f g r m : 1 < rnpos k -> proper k r -> build f g (grules_of r) = Ok m -> let some := fun P => exists i x, In x (rules_at r i) /\ P x in
  (bit (i_features m) fb_bol -> some (fun x => starts BOL (tl (gr_tokens x)) = true)) /\
  (bit (i_features m) fb_eol -> some (fun x => ends EOL (removelast (gr_tokens x)) = true)) /\
  (bit (i_features m) fb_skip -> some (fun x => gr_id x = rskip k)) /\
  (bit (i_features m) fb_again -> some (fun x => gr_id x = 0)) /\
  (bit (i_features m) fb_rec -> some (fun x => gr_pop x = true \/ gr_push x <> rnpos k \/ rnpos k < N.of_nat (List.length (ru_map r)))) /\
  (bit (i_features m) fb_multi <-> (1 < List.length (ru_map r))%nat).
Proof. intros H. exact (made_needs k H f g r m). Qed.
Print Assumptions C47_rules_are_announced.
Print Assumptions C47_nothing_more.
Print Assumptions C47_machine_features.
Definition mm : internals := match build 100 gr (grules_of made) with Ok m => m | _ => {| i_eoi := 0; i_lookup := []; i_alphabet := []; i_features := 0; i_dfa := [] |} end.
Lemma mm_built : build 100 gr (grules_of made) = Ok mm.
Proof. vm_compute. reflexivity. Qed.
Example C47_case : proper_unsplit kr made /\ build 100 gr (grules_of made) = Ok mm /\ i_features mm = N.lor (N.lor fb_bol fb_skip) (N.lor fb_multi fb_rec).
Proof. split; [exact made_proper|]. split; [exact mm_built|]. vm_compute. reflexivity. Qed.
(** ^a+?b|c pushed with a state name is split, and its ^ is not announced. *)
Theorem C47_split_refuted : exists r x, r = fst (apply kr (OPushIn (txt "INITIAL") (txt "^a+?b|c") 1 (txt ".") 65535) new) /\
  In x (rules_at r 0) /\ starts BOL (tl (gr_tokens x)) = true /\ nth 0 (ru_features r) 0 = 0.
Proof.
  eexists _, (mk_rule 1 65535 0 65535 false (between [tok BOL; ch 97; tok AONEORMORE; ch 98])). split; [reflexivity|].
  split; [vm_compute; left; reflexivity|]. split; reflexivity.
Qed.
(** ^a reversed is a$; the bits are not exchanged. *)
Theorem C47_reverse_refuted : exists r x, r = fst (apply kr OReverse (fst (apply kr (OPush (txt "^a") 1 65535) new))) /\
  In x (rules_at r 0) /\ ends EOL (removelast (gr_tokens x)) = true /\ nth 0 (ru_features r) 0 = fb_bol.
Proof.
  eexists _, (mk_rule 1 65535 0 65535 false (between [ch 97; tok EOL])). split; [reflexivity|].
  split; [vm_compute; left; reflexivity|]. split; reflexivity.
Qed.

(** ** C48: splitting at | *)
Theorem C48_split_keeps_the_language b r w : gram GRegex r w -> exists ps rs, split (between w) = Ok (map between ps) /\
  Forall2 (gram GSeq) rs ps /\ forall x, xlang b r x <-> Exists (fun s => xlang b s x) rs.
Proof.
  intros H. destruct (split_ok r w H) as (ps & rs & H1 & H2 & H3). exists ps, rs. split; [exact H1|]. split; [exact H3|].
  exact (alternatives_lang b r rs H2).
Qed.
Print Assumptions C48_split_keeps_the_language.
Example C48_case : tokenise 1 2 [] (txt "a+?b|(c|d)e|f") true =
  Ok [between [ch 97; tok AONEORMORE; ch 98]; between [po; ch 99; tok OR; ch 100; pc; ch 101]; between [ch 102]].
Proof. vm_compute. reflexivity. Qed.

(** ** C49: accepted texts *)
Theorem C49_tokenised_rule b flags ms regex rule : macros_ok (chars b) ms -> small b regex -> numbers_fit regex ->
  (rule = true -> forall w, tok_loop (S (List.length regex)) b ms (start_state flags regex) [tok BEGIN] [] None = Ok (between w) -> Forall zero_plain w) ->
  match tokenise b flags ms regex rule with
  | Ok v => v <> [] /\ Forall (mvec (chars b)) v /\ edges v
  | Throw _ => True
  | UB => exists name, macro_find name ms = Some []
  | Fuel => False
  end.
Proof. exact (tokenise_ok b flags ms regex rule). Qed.
Theorem C49_vectors_parse Q w : vec Q w -> undoubled BEGIN w -> exists o, ogram o w.
Proof. exact (vec_gram Q w). Qed.
Theorem C49_calls k r o : rnpos k <> 0 -> proper k r -> op_ok k r o ->
  proper k (fst (apply k o r)) /\ content k (fst (apply k o r)) /\ ends_ok (op_macros o r) (snd (apply k o r)).
Proof.
  intros H1 H2 H3. destruct (proper_content k H1 r H2) as [A C]. split; [exact (pr_call k o r H2 H3)|].
  exact (content_apply k H1 o r A C H3).
Qed.
Print Assumptions C49_tokenised_rule.
Print Assumptions C49_vectors_parse.
Print Assumptions C49_calls.
Example C49_case : proper kr made /\ op_ok kr made (OPush (txt "{L}{2,3}$|\x41") 9 65535) /\
  snd (apply kr (OPush (txt "{L}{2,3}$|\x41") 9 65535) made) = Ok tt /\ snd (apply kr (OPush (txt "a)") 9 65535) made) = Throw ETokenise.
Proof.
  split; [apply unsplit_proper, made_proper|]. split; [apply op_okb_ok; vm_compute; reflexivity|]. split; vm_compute; reflexivity.
Qed.
(** A macro that uses itself reads outside of its token vector. *)
Theorem C49_recursive_macro_refuted : snd (insert_macro kr (txt "M") (txt "{M}") new) = UB.
Proof. vm_compute. reflexivity. Qed.

(** ** C50: from calls to tokens *)
Theorem C50_objects_build k g r f sm : 1 < rnpos k -> proper_unsplit k r -> g_bits g = r_bits k -> g_bytes g = r_bytes k ->
  0 < g_bytes g -> simple g r ->
  match build_into f g (grules_of r) sm with
  | (sm', Ok _) => build f g (grules_of r) = Ok sm'
  | (sm', Throw e) => sm' = sm /\ why_not g (grules_of r) e
  | (_, UB) => False
  | (_, Fuel) => True
  end.
Proof. intros H1 H2 H3 H4 H5 H6. exact (made_builds k g r H1 H2 H3 H4 H5 H6 f sm). Qed.
Theorem C50_lookup_follows_the_object k g r f kc m inp res fuel inner : 1 < rnpos k -> proper_unsplit k r ->
  g_bits g = r_bits k -> g_bytes g = r_bytes k -> 0 < g_bytes g -> simple g r ->
  agree kc g -> build f g (grules_of r) = Ok m -> covers kc m ->
  Forall (fits (c_bytes kc)) inp -> in_range (grules_of r) inp res ->
  Forall (fun gs => Forall eager (gs_rules gs)) (gr_states (grules_of r)) ->
  match lookup fuel inner kc m inp res with
  | Ok (res', o) => rlex kc (grules_of r) inp (r_second res) res res' o /\ in_range (grules_of r) inp res'
  | Fuel => True
  | _ => False
  end.
Proof. intros H1 H2 H3 H4 H5 H6. exact (made_lookup k g r H1 H2 H3 H4 H5 H6 f kc m inp res fuel inner). Qed.
(** Everything proved about built lexers applies. *)
Theorem C50_setting k g r f kc m inp res : 1 < rnpos k -> proper_unsplit k r ->
  g_bits g = r_bits k -> g_bytes g = r_bytes k -> 0 < g_bytes g -> simple g r ->
  agree kc g -> build f g (grules_of r) = Ok m -> covers kc m ->
  Forall (fits (c_bytes kc)) inp -> in_range (grules_of r) inp res -> setting f kc g (grules_of r) m inp res.
Proof. intros H1 H2 H3 H4 H5 H6. exact (made_setting k g r H1 H3 H4 H5 H2 H6 f kc m inp res). Qed.
Print Assumptions C50_objects_build.
Print Assumptions C50_lookup_follows_the_object.
Print Assumptions C50_setting.

(** ** C32: which start state follows *)
Theorem C32_push_adds k os x id uid r : history k os r -> snd (push_rule k x id uid r) = Ok tt ->
  exists v, tokenise (r_bytes k) (ru_flags r) (ru_macros r) x true = Ok v /\
  forall i, rules_at (fst (push_rule k x id uid r)) i =
    rules_at r i ++ if Nat.eqb i 0 then map (mk_rule id uid 0 (rnpos k) false) v else [].
Proof. intros H. exact (pushed k x id uid r (history_aligned k os r H)). Qed.
Theorem C32_push_in_adds k os s x id n check uid r f is : history k os r -> N.of_nat (List.length (ru_map r)) < 2 ^ r_bits k ->
  exits k r n f -> currents k r s is -> snd (push_states k s x id n check uid r) = Ok tt ->
  exists v, (is <> [] -> tokenise (r_bytes k) (ru_flags r) (ru_macros r) x true = Ok v) /\
  forall i, rules_at (fst (push_states k s x id n check uid r)) i = rules_at r i ++ added id uid f v is i.
Proof. intros H. exact (pushed_in k s x id n check uid r f is (history_aligned k os r H)). Qed.
Theorem C32_unknown_state k x id n check uid s r : validate n = true -> map_get n (ru_map r) = None -> (check = true -> bad_id k id = false) ->
  push_states k s x id n check uid r = (r, Throw EUnknownState).
Proof. exact (unknown_next k x id n check uid s r). Qed.
Theorem C32_targets_exist k g r : 1 < rnpos k -> proper_unsplit k r -> g_bits g = r_bits k -> g_bytes g = r_bytes k ->
  0 < g_bytes g -> targets_ok g (grules_of r).
Proof. intros H1 H2 H3 H4 H5. exact (made_targets k g r H1 H3 H4 H5 H2). Qed.
Print Assumptions C32_push_adds.
Print Assumptions C32_push_in_adds.
Print Assumptions C32_unknown_state.
Print Assumptions C32_targets_exist.
Example C32_push_case : exits kr made (txt ">STR:INITIAL") (fun _ => (1, 0, false)) /\ currents kr made (txt "INITIAL,STR") [0; 1] /\
  snd (push_states kr (txt "INITIAL,STR") (txt "x") 9 (txt ">STR:INITIAL") true 7 made) = Ok tt.
Proof.
  split; [apply (ex_push_to kr made (txt "STR") 1 (txt "INITIAL") 0); vm_compute; reflexivity|].
  split; [apply (cu_named kr made [txt "INITIAL"; txt "STR"]); [discriminate|repeat constructor]|vm_compute; reflexivity].
Qed.

(** The witness for C50 and what its lexer does. *)
Definition input := txt "if_1 ""ab"" #x".
Definition at0 : results := {| r_id := 0; r_uid := 65535; r_first := 0; r_second := 0; r_bol := true; r_state := 0; r_stack := [] |}.
Example C50_case : proper_unsplit kr made /\ simple gr made /\ build 100 gr (grules_of made) = Ok mm /\ covers kl mm /\
  Forall (fits 1) input /\ in_range (grules_of made) input at0 /\ Forall (fun gs => Forall eager (gs_rules gs)) (gr_states (grules_of made)) /\
  option_map (fun x => (r_id (fst x), r_second (fst x), r_state (fst x))) (match lookup 50 50 kl mm input at0 with Ok x => Some x | _ => None end) = Some (2, 4%nat, 0).
Proof.
  split; [exact made_proper|]. split; [exact made_simple|]. split; [exact mm_built|]. split; [intros _; reflexivity|].
  split; [repeat constructor|]. split; [split; [reflexivity|split; [constructor|vm_compute; lia]]|]. split; [vm_compute; repeat constructor; discriminate|].
  vm_compute. reflexivity.
Qed.

(** ** C60: clear() *)
(** After clear() the object is a new one with the default flags. *)
Theorem C60_clear k os r : history k os r -> apply k OClear r = (make_rules k rf_dot_not_newline, Ok tt).
Proof. exact (clear_all k os r). Qed.
(** clear(state) takes the rules of that state and nothing else. *)
Theorem C60_clear_state k os r i : history k os r -> let r' := fst (apply k (OClearState i) r) in
  snd (apply k (OClearState i) r) = Ok tt /\ rules_at r' i = [] /\ nth i (ru_strings r') [] = [] /\ nth i (ru_features r') 0 = 0 /\
  (forall j, j <> i -> rules_at r' j = rules_at r j /\ nth j (ru_strings r') [] = nth j (ru_strings r) [] /\ nth j (ru_features r') 0 = nth j (ru_features r) 0) /\
  ru_map r' = ru_map r /\ ru_macros r' = ru_macros r /\ ru_flags r' = ru_flags r /\ ru_names r' = ru_names r.
Proof. exact (clear_one k os r i). Qed.
Print Assumptions C60_clear.
Print Assumptions C60_clear_state.
Example C60_case : rules_at made 0 <> [] /\ nth 0 (ru_features made) 0 <> 0 /\ rules_at made 1 <> [] /\
  rules_at (fst (apply kr (OClearState 0) made)) 0 = [] /\ rules_at (fst (apply kr (OClearState 0) made)) 1 = rules_at made 1.
Proof. split; [vm_compute; discriminate|]. split; [vm_compute; discriminate|]. split; [vm_compute; discriminate|]. split; vm_compute; reflexivity. Qed.

(** ** C61: flags() *)
(** flags(f) changes the flags and nothing else. *)
Theorem C61_set_flags k f r : let r' := fst (apply k (OFlags f) r) in
  snd (apply k (OFlags f) r) = Ok tt /\ ru_flags r' = f /\ (forall i, rules_at r' i = rules_at r i) /\
  ru_map r' = ru_map r /\ ru_macros r' = ru_macros r /\ ru_strings r' = ru_strings r /\ ru_features r' = ru_features r /\ ru_names r' = ru_names r.
Proof. cbv zeta. cbn [apply fst snd]. repeat split. Qed.
(** The flags at the time of build() decide only whether it refuses: where it
    succeeds without checks it gives the same machine or throws for a check
    that is switched on, and where it succeeds with checks so it does without. *)
Theorem C61_flags_only_refuse fl f g R m : build f g (flagged {| zero_len_ok := true; suppressed_ok := true |} R) = Ok m ->
  build f g (flagged fl R) = Ok m \/
  (zero_len_ok fl = false /\ build f g (flagged fl R) = Throw EZeroLen) \/
  (suppressed_ok fl = false /\ build f g (flagged fl R) = Throw ESuppressed).
Proof. exact (build_lax fl f g R m). Qed.
Theorem C61_same_machine fl fl' f g R m m' : build f g (flagged fl R) = Ok m -> build f g (flagged fl' R) = Ok m' -> m = m'.
Proof. intros H H'. apply build_strict in H, H'. rewrite H in H'. now injection H'. Qed.
Theorem C61_after_set_flags k fl f g r m m' : build f g (grules_of r) = Ok m -> build f g (grules_of (fst (apply k (OFlags fl) r))) = Ok m' -> m = m'.
Proof. intros H H'. exact (C61_same_machine (gr_flags (grules_of r)) (gr_flags (grules_of (fst (apply k (OFlags fl) r)))) f g (grules_of r) m m' H H'). Qed.
Print Assumptions C61_set_flags.
Print Assumptions C61_flags_only_refuse.
Print Assumptions C61_same_machine.
Print Assumptions C61_after_set_flags.
(** The rule if twice: with the flag 32 the second one may be without use. *)
Definition flag_ops (f : N) : rules := calls kr [OPush (txt "if") 1 65535; OPush (txt "if") 2 65535; OFlags f] new.
Example C61_case : exists m, build 100 gr (grules_of (flag_ops 34)) = Ok m /\ build 100 gr (grules_of (flag_ops 2)) = Throw ESuppressed /\
  build 100 gr (grules_of (flag_ops (34 + rf_match_zero_len))) = Ok m.
Proof. eexists. split; [vm_compute; reflexivity|]. split; vm_compute; reflexivity. Qed.
