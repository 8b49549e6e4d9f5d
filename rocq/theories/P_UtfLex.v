(** C67: lexing through the UTF iterators. *)
From Coq Require Import String.
From Verif Require Import Base StringToken StateMachine Generator Build Lookup Minimise Iterator GenCpp RuleSpec BuildSpec BuildCheck
  ReToken ReTokeniser ReTokeniserNext Rules TokeniseSpec RulesSpec RulesBuild SourceSpec SourceLiteral SourceLexer SourceTop SourceStates StatesTop TokenList Routes StateTokens StateRoutes
  Utf UtfSpec UtfProofs AnyIter AnyIterProofs UtfLex UtfTexts P_Source.
Local Open Scope N_scope.

(** Any iterators that represent a list: one call of lookup() and a whole iteration. *)
Theorem C67_any_iterator I ops eoi inp bad rep fuel inner k m r a r' o : represents ops eoi inp bad rep -> lookup fuel inner k m inp r = Ok (r', o) -> alike_at rep r a ->
  same_or bad (fun p q => alike_at rep (fst p) (fst q) /\ snd q = snd p) (r', o) (alookup I ops eoi fuel inner k m a).
Proof. exact (fun RP => alookup_same I ops eoi inp bad rep RP fuel inner k m r a r' o). Qed.
Theorem C67_any_iteration I ops eoi inp bad rep n fuel inner k m p x bol state l o : represents ops eoi inp bad rep -> visit_all n fuel inner k m inp p bol state = Ok (l, o) -> rep p x ->
  same_or bad (fun p q => Forall2 (alike_at rep) (fst p) (fst q) /\ snd q = snd p) (l, o) (avisit_all I ops eoi n fuel inner k m x bol state).
Proof. exact (fun RP => avisit_all_same I ops eoi inp bad rep RP n fuel inner k m p x bol state l o). Qed.
(** Positions in a list, and such positions where the bytes of each character are reversed. *)
Theorem C67_positions inp : represents (list_ops inp) (List.length inp) inp (fun _ => False) (fun p x => x = p /\ (p <= List.length inp)%nat).
Proof. exact (list_represents inp). Qed.
Theorem C67_flipped w buf inp : Forall2 (fun b c => flip w b = Ok c) buf inp ->
  represents (flip_ops w buf) (List.length buf) inp (fun _ => False) (fun p x => x = p /\ (p <= List.length inp)%nat).
Proof. exact (flip_represents w buf inp). Qed.
(** What comes out of a text comes out of its encodings, with the positions of the
    sequences; str() is the text of the token. *)
Theorem C67_utf8 k m cps l o : Forall (fun c => c <= 0x10ffff) cps -> ordered (List.length cps) 0 l -> iterates_to k m cps l o ->
  u_iterates (fun n fuel inner => u8_tokens n fuel inner k m (concat (map utf8 cps)) true 0) (u8_ops (concat (map utf8 cps))) (map utf8 cps) cps l o.
Proof. exact (utf8_iterates k m cps l o). Qed.
Theorem C67_utf16 k m cps l o : Forall scalar cps -> ordered (List.length cps) 0 l -> iterates_to k m cps l o ->
  u_iterates (fun n fuel inner => u16_tokens n fuel inner k m (concat (map utf16 cps)) true 0) (u16_ops (concat (map utf16 cps))) (map utf16 cps) cps l o.
Proof. exact (utf16_iterates k m cps l o). Qed.
Theorem C67_units_of_a_token enc cps i j : (i <= j <= List.length cps)%nat ->
  between_pos (concat (map enc cps)) (offset (map enc cps) i) (offset (map enc cps) j) = concat (map enc (between_pos cps i j)).
Proof. exact (utf_slice enc cps i j). Qed.
(** From the texts of the rules to the tokens of a buffer. *)
Theorem C67_texts_to_utf k g kc fl mds xs f m cps : 1 < rnpos k -> g_bits g = r_bits k -> g_bytes g = r_bytes k -> 0 < g_bytes g -> agree kc g ->
  smacros_ok k fl mds -> Forall (srule_ok k fl mds) xs ->
  (forall s, In s (gr_states (grules_of (push_all k fl mds xs))) -> N.of_nat (List.length (all_sets (g_bytes g) s)) < eol_tok g) ->
  (forall x t, In x (rules_at (push_all k fl mds xs) 0) -> In t (gr_tokens x) -> sliceable (g_bytes g) t) ->
  build f g (grules_of (push_all k fl mds xs)) = Ok m -> ReTokeniser.has fl rf_match_zero_len = false -> f_adv kc = true -> RulesBuild.covers kc m ->
  Forall (fits (c_bytes kc)) cps -> Forall (fun c => c <= 0x10ffff) cps ->
  exists l m', tokens (sreads (npos kc) (skip_id kc) (f_bol kc) xs cps) true 0 l /\ minimise (c_bits kc) m = Ok m' /\
    forall mm, mm = m \/ mm = m' ->
      u_iterates (fun n fuel inner => u8_tokens n fuel inner kc mm (concat (map utf8 cps)) true 0) (u8_ops (concat (map utf8 cps))) (map utf8 cps) cps l None /\
      (Forall scalar cps -> u_iterates (fun n fuel inner => u16_tokens n fuel inner kc mm (concat (map utf16 cps)) true 0) (u16_ops (concat (map utf16 cps))) (map utf16 cps) cps l None).
Proof. exact (texts_to_utf k g kc fl mds xs f m cps). Qed.
(** And with start states. *)
Theorem C67_states_to_utf k g kc fl more mds ds f m cps : 1 < rnpos k -> g_bits g = r_bits k -> g_bytes g = r_bytes k -> 0 < g_bytes g -> agree kc g ->
  NoDup (initial :: more) -> Forall (fun n => validate n = true) more ->
  N.of_nat (List.length (initial :: more)) < 2 ^ r_bits k -> smacros_ok k fl mds -> Forall (decl_ok k fl mds (initial :: more)) ds ->
  (forall s, In s (gr_states (grules_of (make_lexer k fl more mds ds))) -> N.of_nat (List.length (all_sets (g_bytes g) s)) < eol_tok g) ->
  (forall i x t, In x (rules_at (make_lexer k fl more mds ds) i) -> In t (gr_tokens x) -> sliceable (g_bytes g) t) ->
  build f g (grules_of (make_lexer k fl more mds ds)) = Ok m -> ReTokeniser.has fl rf_match_zero_len = false ->
  f_adv kc = true -> f_multi kc = true -> RulesBuild.covers kc m -> Forall (fits (c_bytes kc)) cps -> Forall (fun c => c <= 0x10ffff) cps ->
  exists l e m', mtokens (npos kc) (skip_id kc) (f_bol kc) ds cps initial [] true 0 l e /\ minimise (c_bits kc) m = Ok m' /\
    forall mm, mm = m \/ mm = m' ->
      u_iterates (fun n fuel inner => u8_tokens n fuel inner kc mm (concat (map utf8 cps)) true 0) (u8_ops (concat (map utf8 cps))) (map utf8 cps) cps l e /\
      (Forall scalar cps -> u_iterates (fun n fuel inner => u16_tokens n fuel inner kc mm (concat (map utf16 cps)) true 0) (u16_ops (concat (map utf16 cps))) (map utf16 cps) cps l e).
Proof. exact (states_to_utf k g kc fl more mds ds f m cps). Qed.
(** A buffer that is not well formed makes the iteration throw one of the two errors
    of the iterators: it never ends as if all was read, and nothing outside is read. *)
Theorem C67_malformed_utf8 k g kc fl mds xs f m buf : 1 < rnpos k -> g_bits g = r_bits k -> g_bytes g = r_bytes k -> 0 < g_bytes g -> agree kc g ->
  smacros_ok k fl mds -> Forall (srule_ok k fl mds) xs ->
  (forall s, In s (gr_states (grules_of (push_all k fl mds xs))) -> N.of_nat (List.length (all_sets (g_bytes g) s)) < eol_tok g) ->
  (forall x t, In x (rules_at (push_all k fl mds xs) 0) -> In t (gr_tokens x) -> sliceable (g_bytes g) t) ->
  build f g (grules_of (push_all k fl mds xs)) = Ok m -> ReTokeniser.has fl rf_match_zero_len = false -> f_adv kc = true -> RulesBuild.covers kc m ->
  Forall (fun b => b < 256) buf -> ~ (exists chunks, buf = concat chunks /\ Forall u8_shape chunks) ->
  (forall chunks junk, buf = concat chunks ++ junk -> Forall u8_shape chunks -> Forall (fun c => c <= 0x10ffff /\ fits (c_bytes kc) c) (map u8_val chunks ++ [0])) ->
  forall n fuel inner, (List.length buf < n)%nat -> (List.length buf < fuel)%nat -> (List.length buf < inner)%nat ->
  exists e, u8_tokens n fuel inner kc m buf true 0 = Throw e /\ utf_error e.
Proof. exact (texts_malformed_utf8 k g kc fl mds xs f m buf). Qed.
Theorem C67_malformed_utf16 k g kc fl mds xs f m buf : 1 < rnpos k -> g_bits g = r_bits k -> g_bytes g = r_bytes k -> 0 < g_bytes g -> agree kc g ->
  smacros_ok k fl mds -> Forall (srule_ok k fl mds) xs ->
  (forall s, In s (gr_states (grules_of (push_all k fl mds xs))) -> N.of_nat (List.length (all_sets (g_bytes g) s)) < eol_tok g) ->
  (forall x t, In x (rules_at (push_all k fl mds xs) 0) -> In t (gr_tokens x) -> sliceable (g_bytes g) t) ->
  build f g (grules_of (push_all k fl mds xs)) = Ok m -> ReTokeniser.has fl rf_match_zero_len = false -> f_adv kc = true -> RulesBuild.covers kc m ->
  ~ (exists chunks, buf = concat chunks /\ Forall u16_shape chunks) ->
  (forall chunks junk, buf = concat chunks ++ junk -> Forall u16_shape chunks -> Forall (fun c => c <= 0x10ffff /\ fits (c_bytes kc) c) (map u16_val chunks ++ [0])) ->
  forall n fuel inner, (List.length buf < n)%nat -> (List.length buf < fuel)%nat -> (List.length buf < inner)%nat ->
  exists e, u16_tokens n fuel inner kc m buf true 0 = Throw e /\ utf_error e.
Proof. exact (texts_malformed_utf16 k g kc fl mds xs f m buf). Qed.
Print Assumptions C67_any_iterator.
Print Assumptions C67_any_iteration.
Print Assumptions C67_positions.
Print Assumptions C67_flipped.
Print Assumptions C67_utf8.
Print Assumptions C67_utf16.
Print Assumptions C67_units_of_a_token.
Print Assumptions C67_texts_to_utf.
Print Assumptions C67_states_to_utf.
Print Assumptions C67_malformed_utf8.
Print Assumptions C67_malformed_utf16.

(** The lexer of C51_wide_case on the UTF-8 and UTF-16 of its text. *)
Definition wide8 : list N := concat (map utf8 wide_text).
Definition wide16 : list N := concat (map utf16 wide_text).
Definition view (r : res (list (aresults uin) * option err)) : option (list shows) := match r with Ok (rs, None) => Some (map aseen rs) | _ => None end.
Definition words (r : res (list (aresults uin) * option err)) (ops : iops uin) : list (res (list N)) :=
  match r with Ok (rs, _) => map (fun a => astr uin ops 50 (a_first a) (a_second a)) rs | _ => [] end.
Definition wide_tokens : list shows := [(1, 65535, 0%nat, 5%nat); (2, 65535, 5%nat, 6%nat); (65535, 65535, 6%nat, 7%nat)].
Example C67_case : Forall (srule_ok kw 2 []) ws /\ build 100 gw (grules_of (push_all kw 2 [] ws)) = Ok mw /\ RulesBuild.covers klw mw /\ Forall (fits 4) wide_text /\
  Forall (fun c => c <= 0x10ffff) wide_text /\ Forall scalar wide_text /\ agree klw gw /\ f_adv klw = true /\
  view (u8_tokens 50 50 50 klw mw wide8 true 0) = Some [(1, 65535, 0%nat, 9%nat); (2, 65535, 9%nat, 13%nat); (65535, 65535, 13%nat, 14%nat)] /\
  map (shifted (map utf8 wide_text)) wide_tokens = [(1, 65535, 0%nat, 9%nat); (2, 65535, 9%nat, 13%nat); (65535, 65535, 13%nat, 14%nat)] /\
  words (u8_tokens 50 50 50 klw mw wide8 true 0) (u8_ops wide8) = [Ok [39; 0x1f600; 10; 0xe9; 39]; Ok [0x10ffff]; Ok [10]] /\
  view (u16_tokens 50 50 50 klw mw wide16 true 0) = Some [(1, 65535, 0%nat, 6%nat); (2, 65535, 6%nat, 8%nat); (65535, 65535, 8%nat, 9%nat)] /\
  map (shifted (map utf16 wide_text)) wide_tokens = [(1, 65535, 0%nat, 6%nat); (2, 65535, 6%nat, 8%nat); (65535, 65535, 8%nat, 9%nat)] /\
  u8_tokens 50 50 50 klw mw [65; 0xe2; 0x82] true 0 = Throw ETruncatedUtf /\ u8_tokens 50 50 50 klw mw [65; 0x82; 65] true 0 = Throw EInvalidUtf /\
  u16_tokens 50 50 50 klw mw [65; 0xd800] true 0 = Throw ETruncatedUtf.
Proof.
  split; [exact ws_ok|]. split; [vm_compute; reflexivity|]. split; [vm_compute; congruence|]. split; [repeat constructor|].
  split; [repeat constructor; vm_compute; discriminate|]. split; [unfold scalar, wide_text; repeat constructor; lia|]. split; [split; [reflexivity|split; reflexivity] || (repeat split)|]. split; [reflexivity|].
  repeat (split; [vm_compute; reflexivity|]). vm_compute. reflexivity.
Qed.
(** A big endian text read with flipped bytes. *)
Example C67_flip_case : Forall2 (fun b c => flip 4 b = Ok c) [0x27000000; 0x41000000; 0x27000000] [39; 65; 39] /\
  match avisit_all nat (flip_ops 4 [0x27000000; 0x41000000; 0x27000000]) 3%nat 50 50 50 klw mw 0%nat true 0 with
  | Ok (rs, None) => Some (map (fun a => (a_id a, a_first a, a_second a)) rs) | _ => None end = Some [(1, 0%nat, 3%nat)].
Proof. split; [repeat constructor|vm_compute; reflexivity]. Qed.
(** The lexer of C59 with its two states on e with an accent, a comment and a ] that
    takes a state from the empty stack. *)
From Verif Require P_States.
Definition accent : list N := [0xe9; 32] ++ txt "/*x*/x]".
Example C67_states_case : Forall (decl_ok P_States.kr 2 [] [initial; P_States.comment]) P_States.ds /\ Forall (fits 1) accent /\ Forall scalar accent /\
  let r := u8_tokens 50 50 50 P_States.kl P_States.mm (concat (map utf8 accent)) true 0 in
  match r with Ok (rs, o) => Some (map aseen rs, o) | _ => None end =
    Some ([(65535, 65535, 0%nat, 2%nat); (2, 8, 3%nat, 8%nat); (1, 7, 8%nat, 9%nat)], Some EUnderflow) /\
  words r (u8_ops (concat (map utf8 accent))) = [Ok [0xe9]; Ok (txt "/*x*/"); Ok (txt "x")].
Proof.
  split; [exact P_States.ds_ok|]. split; [repeat constructor|]. split; [unfold scalar, accent; repeat constructor; lia|]. split; vm_compute; reflexivity.
Qed.
