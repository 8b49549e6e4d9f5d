(** Property C66: lexers with start states, from the texts to all the tokens. *)
From Coq Require Import String.
From Verif Require Import Base StringToken StateMachine ReToken Generator Build Lookup Minimise Iterator GenCpp GenBuilt RuleSpec BuildSpec BuildCheck
  ReTokeniser ReTokeniserNext Rules TokeniseSpec RulesSpec RulesBuild SourceSpec SourceLiteral SourceLexer SourceTop SourceStates StatesTop
  TokenList Routes StateTokens StateRoutes P_States.
Local Open Scope N_scope.

(** For every input there is a list of tokens that the texts and the names of the
    states allow, which ends with the input or where a state is taken from an empty
    stack. Iterators and replace() follow it to its end, also on the minimised
    machine, and so does generated code as long as the stack is not empty. *)
Theorem C66_states_to_all_tokens k g kc fl more mds ds f m inp :
  1 < rnpos k -> g_bits g = r_bits k -> g_bytes g = r_bytes k -> 0 < g_bytes g -> agree kc g ->
  NoDup (initial :: more) -> Forall (fun n => validate n = true) more ->
  N.of_nat (List.length (initial :: more)) < 2 ^ r_bits k -> smacros_ok k fl mds -> Forall (decl_ok k fl mds (initial :: more)) ds ->
  (forall s, In s (gr_states (grules_of (make_lexer k fl more mds ds))) -> N.of_nat (List.length (all_sets (g_bytes g) s)) < eol_tok g) ->
  (forall i x t, In x (rules_at (make_lexer k fl more mds ds) i) -> In t (gr_tokens x) -> sliceable (g_bytes g) t) ->
  build f g (grules_of (make_lexer k fl more mds ds)) = Ok m -> ReTokeniser.has fl rf_match_zero_len = false ->
  f_adv kc = true -> f_multi kc = true -> RulesBuild.covers kc m -> Forall (fits (c_bytes kc)) inp -> known_chars (g_bytes g) inp ->
  exists l e, mtokens (npos kc) (skip_id kc) (f_bol kc) ds inp initial [] true 0 l e /\ all_roads kc m inp l e /\ ordered (List.length inp) 0 l.
Proof.
  intros H1 H2 H3 H4 H5 H6 H7 H8 H9 H10 H11 H12 H13 H14 H15 H16 H17 H18 H19.
  exact (states_all_tokens k g kc fl more mds ds f m inp H1 H2 H3 H4 H5 H6 H7 H8 H9 H10 H11 H12 H13 H14 H15 H16 H18 H19 H17).
Qed.
(** There is one such list. *)
Theorem C66_one_list none skip see ds inp n st bol p l e l' e' :
  mtokens none skip see ds inp n st bol p l e -> mtokens none skip see ds inp n st bol p l' e' -> l = l' /\ e = e'.
Proof. intros H H'. exact (mtokens_det none skip see ds inp n st bol p l e H l' e' H'). Qed.
(** Without formats, replace() writes the input up to a token that is not finished. *)
Theorem C66_what_is_kept inp l : ordered (List.length inp) 0 l ->
  exists p, changed inp (fun _ => None) 0 l = firstn p inp /\ ((forall id uid i j, In (id, uid, i, j) l -> id <> 0) -> p = List.length inp).
Proof. exact (changed_same inp l). Qed.
Print Assumptions C66_states_to_all_tokens.
Print Assumptions C66_one_list.
Print Assumptions C66_what_is_kept.

(** The lexer of C59 with nested comments. The first text ends where its ] takes a
    state from the empty stack, the second in a comment that is not finished. *)
Definition mini : internals := match minimise 16 mm with Ok m => m | _ => mm end.
Definition show (r : res (list results * option err)) : option (list shows * option err) := match r with Ok (rs, e) => Some (map seen rs, e) | _ => None end.
Definition brackets : format := fun id => if id =? 1 then Some (fun w => txt "[" ++ w ++ txt "]") else None.
Definition all : list shows := [(1, 7, 0%nat, 1%nat); (2, 8, 2%nat, 13%nat); (1, 7, 13%nat, 14%nat); (3, 9, 14%nat, 15%nat); (2, 8, 15%nat, 17%nat)].
Definition cut := txt "x ?/*x*/ /*x".
Definition most : list shows := [(1, 7, 0%nat, 1%nat); (65535, 65535, 2%nat, 3%nat); (2, 8, 3%nat, 8%nat); (0, 65535, 9%nat, 12%nat)].
Example C66_case : RulesBuild.covers kl mm /\ GenBuilt.covers kl mm /\ minimise 16 mm = Ok mini /\ ordered (List.length text) 0 all /\ ordered (List.length cut) 0 most /\
  show (visit_all 50 50 50 kl mm text 0 true 0) = Some (all, Some EUnderflow) /\ show (visit_all 50 50 50 kl mini text 0 true 0) = Some (all, Some EUnderflow) /\
  replace 50 50 50 kl mm text brackets insert [] = Throw EUnderflow /\
  show (visit_all 50 50 50 kl mm cut 0 true 0) = Some (most, None) /\ show (visit_all 50 50 50 kl mini cut 0 true 0) = Some (most, None) /\
  replace 50 50 50 kl mm cut brackets insert [] = Ok (txt "[x] ?/*x*/ ") /\ changed cut brackets 0 most = txt "[x] ?/*x*/ " /\
  match gen_all 50 100 50 16 1 false mm cut (new_results kl 0 true 0) with Ok rs => Some (map seen rs) | _ => None end = Some (finished most) /\
  gen_all 50 100 50 16 1 false mm text (new_results kl 0 true 0) = UB.
Proof.
  split; [vm_compute; congruence|]. split; [constructor; try reflexivity; vm_compute; intros; discriminate || lia|]. split; [vm_compute; reflexivity|]. split; [cbn; lia|]. split; [cbn; lia|].
  repeat (split; [vm_compute; reflexivity|]). vm_compute. reflexivity.
Qed.
