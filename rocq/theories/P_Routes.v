(** C63: from the texts of the rules to all the tokens of an input, by every route. *)
From Coq Require Import String.
From Verif Require Import Base StringToken StateMachine Generator Build Lookup Minimise Iterator GenCpp GenBuilt RuleSpec BuildSpec BuildCheck
  ReToken ReTokeniser ReTokeniserNext Rules TokeniseSpec RulesSpec RulesBuild SourceSpec SourceLiteral SourceLexer SourceTop CommentSpec CommentTop TokenList Routes P_Comment.
Local Open Scope N_scope.

(** Rules without comments, for every size of characters and with macros. *)
Theorem C63_texts_to_all_tokens k g kc fl mds xs f m inp : 1 < rnpos k -> g_bits g = r_bits k -> g_bytes g = r_bytes k -> 0 < g_bytes g -> agree kc g ->
  smacros_ok k fl mds -> Forall (srule_ok k fl mds) xs ->
  (forall s, In s (gr_states (grules_of (push_all k fl mds xs))) -> N.of_nat (List.length (all_sets (g_bytes g) s)) < eol_tok g) ->
  (forall x t, In x (rules_at (push_all k fl mds xs) 0) -> In t (gr_tokens x) -> sliceable (g_bytes g) t) ->
  build f g (grules_of (push_all k fl mds xs)) = Ok m -> ReTokeniser.has fl rf_match_zero_len = false -> f_adv kc = true -> RulesBuild.covers kc m ->
  Forall (fits (c_bytes kc)) inp -> known_chars (g_bytes g) inp ->
  exists l, tokens (sreads (npos kc) (skip_id kc) (f_bol kc) xs inp) true 0 l /\ every_route kc m inp l /\ ordered (List.length inp) 0 l.
Proof.
  intros H1 H2 H3 H4 H5 H6 H7 H8 H9 H10 H11 H12 H13 H14 H15.
  exact (texts_all_tokens k g kc fl mds f m inp H1 H2 H5 H6 H11 H12 H14 H13 xs H3 H4 H7 H8 H9 H10 H15).
Qed.
(** Rules with comments. *)
Theorem C63_comments_to_all_tokens k g kc fl mds ys f m inp : 1 < rnpos k -> g_bits g = r_bits k -> r_bytes k = 1 -> g_bytes g = 1 -> agree kc g ->
  smacros_ok k fl mds -> Forall (item_ok k fl mds) ys -> apart 1 fl ys -> N.of_nat (2 * items_sets ys) < eol_tok g ->
  build f g (grules_of (push_items k fl mds ys)) = Ok m -> ReTokeniser.has fl rf_match_zero_len = false -> f_adv kc = true -> RulesBuild.covers kc m ->
  Forall (fits (c_bytes kc)) inp ->
  exists l, tokens (ireads 1 fl (npos kc) (skip_id kc) (f_bol kc) ys inp) true 0 l /\ every_route kc m inp l /\ ordered (List.length inp) 0 l.
Proof.
  intros H1 H2 H3 H4 H5 H6 H7 H8 H9 H10 H11 H12 H13 H14.
  exact (items_all_tokens k g kc fl mds f m inp H1 H2 H5 H6 H11 H12 H14 H13 ys H3 H4 H7 H8 H9 H10).
Qed.
(** There is one list of tokens. *)
Theorem C63_one_list none skip see xs inp bol p l l' : tokens (sreads none skip see xs inp) bol p l -> tokens (sreads none skip see xs inp) bol p l' -> l = l'.
Proof.
  intros H H'. refine (tokens_det _ _ bol p l H l' H'). intros b q id uid i j b1 id' uid' i' j' b' A B. exact (sreads_det _ _ _ _ _ _ _ _ _ _ _ _ A _ _ _ _ _ B).
Qed.
Theorem C63_one_list_comments b fl none skip see ys inp bol p l l' : tokens (ireads b fl none skip see ys inp) bol p l -> tokens (ireads b fl none skip see ys inp) bol p l' -> l = l'.
Proof.
  intros H H'. refine (tokens_det _ _ bol p l H l' H'). intros b0 q id uid i j b1 id' uid' i' j' b' A B. exact (ireads_det _ _ _ _ _ _ _ _ _ _ _ _ _ _ A _ _ _ _ _ B).
Qed.
(** Nothing is lost: without formats the tokens and what lies between them are the input. *)
Theorem C63_nothing_lost inp l : ordered (List.length inp) 0 l -> rewritten inp (fun _ => None) 0 l = inp.
Proof. exact (rewritten_same inp l 0). Qed.
Print Assumptions C63_texts_to_all_tokens.
Print Assumptions C63_comments_to_all_tokens.
Print Assumptions C63_one_list.
Print Assumptions C63_one_list_comments.
Print Assumptions C63_nothing_lost.

(** The rules of C62; words are put in brackets. *)
Definition mini : internals := match minimise 16 mm with Ok m => m | _ => mm end.
Definition show (r : res (list results * option err)) : option (list shows) := match r with Ok (rs, None) => Some (map seen rs) | _ => None end.
Definition brackets : format := fun id => if id =? 1 then Some (fun w => txt "[" ++ w ++ txt "]") else None.
Definition all : list shows := [(1, 7, 0%nat, 2%nat); (1, 7, 10%nat, 11%nat); (65535, 65535, 11%nat, 12%nat); (2, 65535, 12%nat, 13%nat); (5, 9, 13%nat, 18%nat); (1, 7, 18%nat, 19%nat);
  (65535, 65535, 19%nat, 20%nat); (65535, 65535, 20%nat, 21%nat); (2, 65535, 21%nat, 22%nat); (65535, 65535, 22%nat, 23%nat); (1, 7, 23%nat, 24%nat); (3, 65535, 24%nat, 25%nat)].
Example C63_case : Forall (item_ok kr 2 []) ys /\ apart 1 2 ys /\ build 200 gr (grules_of (push_items kr 2 [] ys)) = Ok mm /\ RulesBuild.covers kl mm /\ GenBuilt.covers kl mm /\
  minimise 16 mm = Ok mini /\ ordered (List.length text) 0 all /\
  show (visit_all 50 50 50 kl mm text 0 true 0) = Some all /\ show (visit_all 50 50 50 kl mini text 0 true 0) = Some all /\
  match gen_all 50 100 50 16 1 false mm text (new_results kl 0 true 0) with Ok rs => Some (map seen rs) | _ => None end = Some all /\
  replace 50 50 50 kl mm text brackets insert [] = Ok (txt "[ab]/*b**c*/[c]*/<!a!>[b]!>/*[c]<") /\ rewritten text brackets 0 all = txt "[ab]/*b**c*/[c]*/<!a!>[b]!>/*[c]<".
Proof.
  split; [exact ys_ok|]. split; [exact ys_apart|]. split; [vm_compute; reflexivity|]. split; [vm_compute; congruence|].
  split; [constructor; try reflexivity; vm_compute; intros; discriminate || lia|]. split; [vm_compute; reflexivity|]. split; [cbn; lia|].
  split; [vm_compute; reflexivity|]. split; [vm_compute; reflexivity|]. split; [vm_compute; reflexivity|]. split; vm_compute; reflexivity.
Qed.
