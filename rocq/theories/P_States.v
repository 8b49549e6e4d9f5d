(** Property C59: lexers with start states made from texts. *)
From Coq Require Import String.
From Verif Require Import Base StringToken StateMachine RegexSpec ReToken DfaSpec Tree Parser
  Generator Build Lookup TableSpec LookupSpec RuleSpec BuildSpec BuildCheck
  ReTokeniser ReTokeniserNext Rules TokeniseSpec RulesSpec RulesBuild RulesCheck RulesPush
  SourceSpec SourceLiteral SourceLexer SourceTop SourceStates StatesTop.
Local Open Scope N_scope.

(** Every call of lookup() returns the token that the meanings of the texts and the
    names of the states say, and leaves the results in the state and with the
    stack that they say; or it throws, and they say that a state is taken from an
    empty stack. *)
Theorem C59_states_to_lexer k g kc fl more mds ds f m inp res fuel inner n st :
  1 < rnpos k -> g_bits g = r_bits k -> g_bytes g = r_bytes k -> 0 < g_bytes g -> agree kc g ->
  NoDup (initial :: more) -> Forall (fun n => validate n = true) more ->
  N.of_nat (List.length (initial :: more)) < 2 ^ r_bits k -> smacros_ok k fl mds -> Forall (decl_ok k fl mds (initial :: more)) ds ->
  (forall s, In s (gr_states (grules_of (make_lexer k fl more mds ds))) -> N.of_nat (List.length (all_sets (g_bytes g) s)) < eol_tok g) ->
  (forall i x t, In x (rules_at (make_lexer k fl more mds ds) i) -> In t (gr_tokens x) -> sliceable (g_bytes g) t) ->
  build f g (grules_of (make_lexer k fl more mds ds)) = Ok m -> has fl rf_match_zero_len = false ->
  f_adv kc = true -> f_multi kc = true -> covers kc m ->
  Forall (fits (c_bytes kc)) inp -> known_chars (g_bytes g) inp ->
  placed (initial :: more) inp res n st -> (List.length inp < fuel)%nat -> (List.length inp < inner)%nat ->
  exists res' o a, lookup fuel inner kc m inp res = Ok (res', o) /\ answers (initial :: more) inp res' o a /\
    mreads (npos kc) (skip_id kc) (f_bol kc) ds inp (r_second res) n st (r_bol res) (r_second res) a.
Proof.
  intros H1 H2 H3 H4 H5 H6 H7 H8 H9 H10 H11 H12 H13 H14 H15 H16 H17 H18 H19.
  exact (texts_to_states k g kc fl more mds ds f m inp H1 H2 H3 H4 H5 H6 H7 H8 H9 H10 H11 H12 H13 H14 H15 H16 H18 H19 res fuel inner n st H17).
Qed.
Theorem C59_is_determined none skip see ds inp first n st bol p a : mreads none skip see ds inp first n st bol p a ->
  forall a', mreads none skip see ds inp first n st bol p a' -> a = a'.
Proof. exact (mreads_det none skip see ds inp first n st bol p a). Qed.
(** Inserting the macros and pushing the rules succeeds, call by call. *)
Theorem C59_pushes_succeed k fl more mds ds d : 1 < rnpos k -> NoDup (initial :: more) -> Forall (fun n => validate n = true) more ->
  N.of_nat (List.length (initial :: more)) < 2 ^ r_bits k -> smacros_ok k fl mds -> Forall (decl_ok k fl mds (initial :: more)) (ds ++ [d]) ->
  snd (apply k (declare_op d) (make_lexer k fl more mds ds)) = Ok tt.
Proof. exact (declare_succeeds k fl more mds ds d). Qed.
Theorem C59_macros_succeed k fl more mds m : 1 < rnpos k -> NoDup (initial :: more) -> Forall (fun n => validate n = true) more ->
  smacros_ok k fl (mds ++ [m]) -> snd (insert_macro k (m_name m) (m_text m) (put_macros k mds (make_states k fl more))) = Ok tt.
Proof. exact (macros_succeed k fl more mds m). Qed.
Print Assumptions C59_states_to_lexer.
Print Assumptions C59_is_determined.
Print Assumptions C59_pushes_succeed.
Print Assumptions C59_macros_succeed.

(** Nested comments, letters, blanks that are skipped and a rule that goes back. *)
Definition kr : rcfg := {| r_bytes := 1; r_bits := 16 |}.
Definition gr : gcfg := {| g_bits := 16; g_bytes := 1 |}.
Definition kl : cfg := {| f_bol := true; f_eol := false; f_multi := true; f_rec := true; f_adv := true; c_bytes := 1; c_bits := 16 |}.
Definition comment := txt "COMMENT".
Definition lit (s : list N) (id uid : N) : srule := {| s_text := in_quotes s; s_sx := literal 1 2 s; s_id := id; s_uid := uid |}.
Definition dcl (ns : list (list N)) (s : list N) (id uid : N) (e : leave) : decl :=
  {| d_cur := commas ns; d_in := ns; d_rule := lit s id uid; d_leave := e |}.
Definition ds : list decl :=
  [dcl [initial; comment] (txt "/*") 0 65535 (Push comment);
   dcl [comment] (txt "*/") 2 8 Pop;
   dcl [comment] (txt "x") 0 65535 Stay;
   dcl [initial] (txt "x") 1 7 Stay;
   dcl [initial] (txt " ") 65534 65535 (Go initial);
   {| d_cur := [42]; d_in := [initial; comment]; d_rule := lit (txt "!") 3 9; d_leave := PushTo comment initial |};
   dcl [initial] (txt "]") 4 9 Pop].
Definition ru := make_lexer kr 2 [comment] [] ds.
Definition mm : internals := match build 200 gr (grules_of ru) with Ok m => m | _ => {| i_eoi := 0; i_lookup := []; i_alphabet := []; i_features := 0; i_dfa := [] |} end.
Definition text := txt "x /*x/*x*/x*/x!*/]".
Definition at_ (p : nat) (s : N) (st : list (N * N)) : results := {| r_id := 0; r_uid := 0; r_first := 0; r_second := p; r_bol := Nat.eqb p 0; r_state := s; r_stack := st |}.
Definition got (r : results) : option (N * N * nat * nat * N * list (N * N) * option err) :=
  match lookup 50 50 kl mm text r with Ok (r, o) => Some (r_id r, r_uid r, r_first r, r_second r, r_state r, r_stack r, o) | _ => None end.
Lemma dcl_ok ns s id uid e : incl ns [initial; comment] -> ns <> [] -> NoDup ns -> s <> [] -> forallb (fun c => c <=? 255) (in_quotes s) = true ->
  forallb (fun c => negb (is_digit c)) (in_quotes s) = true -> id <> 65535 -> (id = 0 -> uid = 65535) -> incl (leaves_to e) [initial; comment] ->
  decl_ok kr 2 [] [initial; comment] (dcl ns s id uid e).
Proof.
  intros I NE ND NS SM DG I1 IU LV. constructor; cbn [dcl d_rule lit s_text s_sx s_id s_uid d_cur d_in d_leave]; auto.
  - now apply quoted_means.
  - apply Forall_forall. rewrite forallb_forall in SM. intros c Hc. apply N.leb_le. exact (SM c Hc).
  - intros p dd r E D. destruct dd as [|d dd]; [reflexivity|]. exfalso. rewrite forallb_forall in DG. assert (J : In d (in_quotes s)) by (rewrite E; apply in_or_app; right; now left).
    specialize (DG d J). inversion D as [|? ? Hd _]; subst. apply ReTokeniserNext.is_digit_iff in Hd. rewrite Hd in DG. discriminate.
  - apply unanchored_early. intros w H. apply literal_lang in H as (cs & -> & _); eauto.
Qed.
Lemma ds_ok : Forall (decl_ok kr 2 [] [initial; comment]) ds.
Proof.
  assert (ND1 : forall n : list N, NoDup [n]) by (intros n; constructor; [intros []|constructor]).
  assert (ND2 : NoDup [initial; comment]) by (constructor; [intros [H|[]]; discriminate|apply ND1]).
  assert (IA : incl [initial] [initial; comment]) by (intros x [<-|[]]; now left).
  assert (IB : incl [comment] [initial; comment]) by (intros x [<-|[]]; right; now left).
  assert (IN : incl [] [initial; comment]) by (intros x []).
  assert (B : decl_ok kr 2 [] [initial; comment] (dcl [initial; comment] (txt "!") 3 9 (PushTo comment initial))).
  { apply dcl_ok; auto; try discriminate; try reflexivity; [apply incl_refl|]. intros x [<-|[<-|[]]]; [right; now left|now left]. }
  unfold ds. repeat (constructor; [first [apply dcl_ok; auto; try discriminate; try reflexivity; try apply incl_refl|idtac]|]); [|constructor].
  destruct B as [B1 B2 B3 B4 B5 B6 _ B8]. constructor; auto.
Qed.
Example C59_case : NoDup [initial; comment] /\ Forall (fun n => validate n = true) [comment] /\ Forall (decl_ok kr 2 [] [initial; comment]) ds /\
  build 200 gr (grules_of ru) = Ok mm /\ simple gr ru /\ covers kl mm /\ Forall (fits 1) text /\
  placed [initial; comment] text (at_ 0 0 []) initial [] /\
  map got [at_ 0 0 []; at_ 1 0 []; at_ 13 0 []; at_ 14 0 []; at_ 15 1 [(0, 3)]; at_ 17 0 []; at_ 18 0 []] =
    [Some (1, 7, 0%nat, 1%nat, 0, [], None);                  (* x *)
     Some (2, 8, 2%nat, 13%nat, 0, [], None);                 (* the whole comment *)
     Some (1, 7, 13%nat, 14%nat, 0, [], None);
     Some (3, 9, 14%nat, 15%nat, 1, [(0, 3)], None);
     Some (2, 8, 15%nat, 17%nat, 0, [], None);
     Some (0, 0, 17%nat, 17%nat, 0, [], Some EUnderflow);
     Some (0, 65535, 18%nat, 18%nat, 0, [], None)].
Proof.
  split; [constructor; [intros [H|[]]; discriminate|constructor; [intros []|constructor]]|]. split; [repeat constructor|]. split; [exact ds_ok|].
  split; [vm_compute; reflexivity|]. split; [apply simpleb_ok; vm_compute; reflexivity|]. split; [vm_compute; congruence|]. split; [repeat constructor|].
  split; [split; [reflexivity|split; [constructor|cbn; lia]]|]. vm_compute. reflexivity.
Qed.
