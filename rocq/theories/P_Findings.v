(** Findings of DESIGN.md that are not stated beside the properties they
    belong to: what happens outside the conditions of the theorems. *)
From Coq Require Import String.
From Verif Require Import Base StringToken StringTokenSpec SliceSpec StateMachine RegexSpec ReToken DfaSpec Grammar Tree Parser
  Generator Build Lookup TableSpec LookupSpec RuleSpec RuleWords BuildSpec BuildLookup BuildCheck CharMachine Utf UtfSpec
  ReTokeniser ReTokeniserNext Rules TokeniseSpec RulesSpec RulesInv RulesContent RulesFeat RulesBuild RulesCheck P_Rules.
Local Open Scope N_scope.

(** Lexers of a rules object made by calls, and their first token: its id, where
    it begins and ends, and the start state then. *)
Definition rset (bytes flags : N) (ops : list op) : rules :=
  calls {| r_bytes := bytes; r_bits := 16 |} ops (make_rules {| r_bytes := bytes; r_bits := 16 |} flags).
Definition lexer (bytes flags : N) (ops : list op) : res internals :=
  build 300 {| g_bits := 16; g_bytes := bytes |} (grules_of (rset bytes flags ops)).
Definition all_on (bytes : N) (adv : bool) : cfg :=
  {| f_bol := true; f_eol := true; f_multi := true; f_rec := true; f_adv := adv; c_bytes := bytes; c_bits := 16 |}.
Definition origin : results := {| r_id := 0; r_uid := 65535; r_first := 0; r_second := 0; r_bol := true; r_state := 0; r_stack := [] |}.
Definition token1 (bytes flags : N) (adv : bool) (ops : list op) (x : list N) : res (N * nat * nat * N) :=
  do m <- lexer bytes flags ops; do o <- lookup 100 100 (all_on bytes adv) m x origin;
  Ok (r_id (fst o), r_first (fst o), r_second (fst o), r_state (fst o)).
(** The flags dot_not_newline (the default), with skip_ws, and with
    match_zero_len. *)
Definition plain : N := 2.
Definition spaced : N := N.lor plain rf_skip_ws.
Definition empties : N := N.lor plain rf_match_zero_len.

(** Finding 5: with  a  a rule that joins (its id is that of the end of input)
    and  b : the text a is part of the token in ab, and of none in ac. *)
Theorem C06_joined_text_lost_refuted : exists os, os = [OPushNoId (txt "*") (txt "a") (txt "."); OPush (txt "b") 1 65535] /\
  token1 1 plain true os (txt "ab") = Ok (1, 0%nat, 2%nat, 0) /\ token1 1 plain true os (txt "ac") = Ok (65535, 1%nat, 2%nat, 0).
Proof. eexists. split; [reflexivity|]. split; vm_compute; reflexivity. Qed.
Print Assumptions C06_joined_text_lost_refuted.

(** Finding 5: a rule that is skipped and matches nothing, which
    match_zero_len allows: lookup() does not return. *)
Definition idle : list op := [OPush (txt "a*") 65534 65535; OPush (txt "b") 1 65535].
Definition made_of (x : res internals) : internals :=
  match x with Ok m => m | _ => {| i_eoi := 0; i_lookup := []; i_alphabet := []; i_features := 0; i_dfa := [] |} end.
Lemma idle_step f : again (S f) 100 (all_on 1 true) (made_of (lexer 1 empties idle)) (txt "c") origin 0 =
  again f 100 (all_on 1 true) (made_of (lexer 1 empties idle)) (txt "c") origin 0.
Proof. vm_compute. reflexivity. Qed.
Theorem C05_empty_skip_refuted : exists m, lexer 1 empties idle = Ok m /\
  forall fuel, lookup fuel 100 (all_on 1 true) m (txt "c") origin = Fuel.
Proof.
  exists (made_of (lexer 1 empties idle)). split; [vm_compute; reflexivity|]. intros fuel. change (again fuel 100 (all_on 1 true) (made_of (lexer 1 empties idle)) (txt "c") origin 0 = Fuel).
  induction fuel as [|f IH]; [vm_compute; reflexivity|]. rewrite idle_step. exact IH.
Qed.
Print Assumptions C05_empty_skip_refuted.

(** Finding 21: without the flag advance, lookup() stays where no rule matches. *)
Theorem C05_no_advance_refuted : exists os, os = [OPush (txt "a") 1 65535] /\
  token1 1 plain false os (txt "ba") = Ok (65535, 0%nat, 0%nat, 0) /\ token1 1 plain true os (txt "ba") = Ok (65535, 0%nat, 1%nat, 0).
Proof. eexists. split; [reflexivity|]. split; vm_compute; reflexivity. Qed.
Print Assumptions C05_no_advance_refuted.

(** Finding 6: at the beginning of a line the state entered is that of ^, but
    whether it accepts is read from the other one: ^b* does not match the empty
    text, and with b* behind it the empty text is a token of the second rule. *)
Theorem C30_empty_match_refuted : exists x y, x = OPush (txt "^b*") 1 65535 /\ y = OPush (txt "b*") 2 65535 /\
  token1 1 empties true [x] (txt "c") = Ok (65535, 0%nat, 1%nat, 0) /\ token1 1 empties true [x] (txt "b") = Ok (1, 0%nat, 1%nat, 0) /\
  token1 1 empties true [x; y] (txt "c") = Ok (2, 0%nat, 0%nat, 0) /\ token1 1 empties true [x; y] (txt "b") = Ok (1, 0%nat, 1%nat, 0).
Proof. do 2 eexists. do 2 (split; [reflexivity|]). repeat split; vm_compute; reflexivity. Qed.
Print Assumptions C30_empty_match_refuted.

(** Finding 16: ^* reads the map of the sets of the alphabet out of range. *)
Theorem C30_repeated_anchor_undefined_refuted : exists os, os = [OPush (txt "^*a") 1 65535] /\
  snd (apply kr (OPush (txt "^*a") 1 65535) new) = Ok tt /\ lexer 1 plain os = UB.
Proof. eexists. split; [reflexivity|]. split; vm_compute; reflexivity. Qed.
Print Assumptions C30_repeated_anchor_undefined_refuted.

(** Finding 18: a rule that matches the empty text does not change the start
    state, though it does when it matches more. *)
Theorem C32_empty_match_stays_refuted : exists os, os = [OState (txt "NEXT"); OPushIn (txt "INITIAL") (txt "a*") 1 (txt "NEXT") 65535; OPushIn (txt "NEXT") (txt "b") 2 (txt ".") 65535] /\
  token1 1 empties true os (txt "b") = Ok (1, 0%nat, 0%nat, 0) /\ token1 1 empties true os (txt "ab") = Ok (1, 0%nat, 1%nat, 1).
Proof. eexists. split; [reflexivity|]. split; vm_compute; reflexivity. Qed.
Print Assumptions C32_empty_match_stays_refuted.

(** Finding 20: of characters of 32 bits only 24 are looked at. *)
Theorem C04_large_characters_refuted : exists os, os = [OPush (txt "a") 1 65535] /\
  token1 4 plain true os [97] = Ok (1, 0%nat, 1%nat, 0) /\ token1 4 plain true os [0x1000000 + 97] = Ok (1, 0%nat, 1%nat, 0).
Proof. eexists. split; [reflexivity|]. split; vm_compute; reflexivity. Qed.
Print Assumptions C04_large_characters_refuted.

(** Finding 15: overlong forms, surrogates and numbers above 0x10ffff are
    decoded. *)
Theorem C24_lax_decoding_refuted : u8_decode [0xc0; 0x80] = Ok [0] /\ [0xc0; 0x80] <> utf8 0 /\
  u8_decode [0xed; 0xa0; 0x80] = Ok [0xd800] /\ ~ scalar 0xd800 /\
  u8_decode [0xf7; 0xbf; 0xbf; 0xbf] = Ok [0x1fffff] /\ ~ scalar 0x1fffff.
Proof. unfold scalar. repeat split; try (vm_compute; reflexivity); try discriminate; lia. Qed.
Print Assumptions C24_lax_decoding_refuted.

(** Finding 17: where the syntax is wrong in this way, the message speaks of an
    internal error. *)
Theorem C16_internal_error_refuted : snd (apply kr (OPush (txt "a* ?") 1 65535) (make_rules kr spaced)) = Ok tt /\
  lexer 1 spaced [OPush (txt "a* ?") 1 65535] = Throw EInternal.
Proof. split; vm_compute; reflexivity. Qed.
Print Assumptions C16_internal_error_refuted.

(** Finding 34: a trailing abstemious repeat whose lower bound is 0 is removed,
    but not when the 0 is written as 00. *)
Theorem C46_zeros_refuted : exists f, f = (fun x => token1 1 plain true [OPush (txt x) 1 65535] (txt "ba")) /\
  f "ba{0,5}?"%string = Ok (1, 0%nat, 1%nat, 0) /\ f "ba{00,5}?"%string = Ok (1, 0%nat, 2%nat, 0).
Proof. eexists. split; [reflexivity|]. split; vm_compute; reflexivity. Qed.
Print Assumptions C46_zeros_refuted.

(** Finding 46: behind a blank that is skipped, ^ is an ordinary character; in
    front of one, so is $. *)
Theorem C51_anchor_beside_blank_refuted :
  tokenise 1 spaced [] (txt "^a") true = Ok [between [tok BOL; ch 97]] /\ tokenise 1 spaced [] (txt " ^a") true = Ok [between [ch 94; ch 97]] /\
  tokenise 1 spaced [] (txt "a$") true = Ok [between [ch 97; tok EOL]] /\ tokenise 1 spaced [] (txt "a$ ") true = Ok [between [ch 97; ch 36]].
Proof. repeat split; vm_compute; reflexivity. Qed.
Print Assumptions C51_anchor_beside_blank_refuted.

(** Finding 43: the character machine of a lexer for 16 bit characters moves on
    bytes: what leads to the rule  a  is the text 0 a. *)
Definition wide_a : internals := made_of (lexer 2 plain [OPush (txt "a") 1 65535]).
Definition shown (o : option (list cdfa)) : option (list (list (list (N * stoken)) * list N)) :=
  option_map (map (fun d => (map cs_trans (cd_states d), map cs_id (cd_states d)))) o.
Theorem C21_wide_machine_refuted : lexer 2 plain [OPush (txt "a") 1 65535] = Ok wide_a /\
  shown (sm_to_csm 65535 wide_a) = Some [([[(1, [(0, 0)])]; [(2, [(97, 97)])]; []], [0; 0; 1])].
Proof. split; vm_compute; reflexivity. Qed.
Print Assumptions C21_wide_machine_refuted.

(** Finding 36: push_state() that throws because there are too many states has
    added the state. With ids of one byte 255 states are possible. *)
Theorem C43_refused_state_is_added : forall k name r, validate name = true -> map_get name (ru_map r) = None ->
  rnpos k <= N.of_nat (List.length (ru_nexts r)) ->
  snd (apply k (OState name) r) = Throw EOverflow /\ List.length (ru_map (fst (apply k (OState name) r))) = S (List.length (ru_map r)).
Proof.
  intros k name r V M L. cbn [apply]. unfold push_state. rewrite V, M. cbn [ru_nexts ru_map]. rewrite app_length. cbn [List.length].
  destruct (_ <? _) eqn:E; [|lia]. cbn [fst snd bind ru_map]. rewrite app_length. cbn [List.length]. split; [reflexivity|lia].
Qed.
Print Assumptions C43_refused_state_is_added.
Definition k8 : rcfg := {| r_bytes := 1; r_bits := 8 |}.
Definition names : list (list N) := firstn 254 (flat_map (fun a => map (fun b => [97 + N.of_nat a; 97 + N.of_nat b]) (seq 0 16)) (seq 0 16)).
Definition full : rules := calls k8 (map OState names) (make_rules k8 2).
Example C43_full : (validate (txt "b"), map_get (txt "b") (ru_map full), List.length (ru_nexts full)) = (true, None, 255%nat) /\ rnpos k8 = 255.
Proof. split; vm_compute; reflexivity. Qed.
