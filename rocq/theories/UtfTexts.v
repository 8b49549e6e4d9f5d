(** From the texts of the rules to tokens read through the UTF iterators. *)
From Verif Require Import Base StringToken StateMachine Generator Build Lookup Minimise Iterator GenCpp RuleSpec BuildSpec BuildCheck
  ReToken ReTokeniser ReTokeniserNext Rules TokeniseSpec RulesSpec RulesBuild SourceSpec SourceLiteral SourceLexer SourceTop SourceStates StatesTop TokenList Routes StateTokens StateRoutes
  Utf UtfSpec UtfProofs AnyIter AnyIterProofs UtfLex.
Local Open Scope N_scope.

Theorem texts_to_utf k g kc fl mds xs f m cps : 1 < rnpos k -> g_bits g = r_bits k -> g_bytes g = r_bytes k -> 0 < g_bytes g -> agree kc g ->
  smacros_ok k fl mds -> Forall (srule_ok k fl mds) xs ->
  (forall s, In s (gr_states (grules_of (push_all k fl mds xs))) -> N.of_nat (List.length (all_sets (g_bytes g) s)) < eol_tok g) ->
  (forall x t, In x (rules_at (push_all k fl mds xs) 0) -> In t (gr_tokens x) -> sliceable (g_bytes g) t) ->
  build f g (grules_of (push_all k fl mds xs)) = Ok m -> ReTokeniser.has fl rf_match_zero_len = false -> f_adv kc = true -> RulesBuild.covers kc m ->
  Forall (fits (c_bytes kc)) cps -> Forall (fun c => c <= 0x10ffff) cps ->
  exists l m', tokens (sreads (npos kc) (skip_id kc) (f_bol kc) xs cps) true 0 l /\ minimise (c_bits kc) m = Ok m' /\
    forall mm, mm = m \/ mm = m' ->
      u_iterates (fun n fuel inner => u8_tokens n fuel inner kc mm (concat (map utf8 cps)) true 0) (u8_ops (concat (map utf8 cps))) (map utf8 cps) cps l None /\
      (Forall scalar cps -> u_iterates (fun n fuel inner => u16_tokens n fuel inner kc mm (concat (map utf16 cps)) true 0) (u16_ops (concat (map utf16 cps))) (map utf16 cps) cps l None).
Proof.
  intros H1 H2 H3 H4 H5 H6 H7 H8 H9 H10 H11 H12 H13 H14 H15.
  destruct (texts_all_tokens k g kc fl mds f m cps H1 H2 H5 H6 H11 H12 H14 H13 xs H3 H4 H7 H8 H9 H10 (or_intror (or_intror H15))) as (l & T & (I1 & _ & (m' & M & I2 & _) & _) & O).
  exists l, m'. split; [exact T|]. split; [exact M|]. intros mm [-> | ->]; split; intros; (apply utf8_iterates || apply utf16_iterates); auto.
Qed.
Theorem states_to_utf k g kc fl more mds ds f m cps : 1 < rnpos k -> g_bits g = r_bits k -> g_bytes g = r_bytes k -> 0 < g_bytes g -> agree kc g ->
  NoDup (initial :: more) -> Forall (fun n => validate n = true) more ->
  N.of_nat (List.length (initial :: more)) < 2 ^ r_bits k -> smacros_ok k fl mds -> Forall (decl_ok k fl mds (initial :: more)) ds ->
  (forall s, In s (gr_states (grules_of (make_lexer k fl more mds ds))) -> N.of_nat (List.length (all_sets (g_bytes g) s)) < eol_tok g) ->
  (forall i x t, In x (rules_at (make_lexer k fl more mds ds) i) -> In t (gr_tokens x) -> sliceable (g_bytes g) t) ->
  build f g (grules_of (make_lexer k fl more mds ds)) = Ok m -> ReTokeniser.has fl rf_match_zero_len = false ->
  f_adv kc = true -> f_multi kc = true -> RulesBuild.covers kc m -> Forall (fits (c_bytes kc)) cps -> Forall (fun c => c <= 0x10ffff) cps ->
  exists l e m', mtokens (npos kc) (skip_id kc) (f_bol kc) ds cps initial [] true 0 l e /\ minimise (c_bits kc) m = Ok m' /\
    forall mm, mm = m \/ mm = m' ->
      u_iterates (fun n fuel inner => u8_tokens n fuel inner kc mm (concat (map utf8 cps)) true 0) (u8_ops (concat (map utf8 cps))) (map utf8 cps) cps l e /\
      (Forall scalar cps -> u_iterates (fun n fuel inner => u16_tokens n fuel inner kc mm (concat (map utf16 cps)) true 0) (u16_ops (concat (map utf16 cps))) (map utf16 cps) cps l e).
Proof.
  intros H1 H2 H3 H4 H5 H6 H7 H8 H9 H10 H11 H12 H13 H14 H15 H16 H17 H18 H19.
  destruct (states_all_tokens k g kc fl more mds ds f m cps H1 H2 H3 H4 H5 H6 H7 H8 H9 H10 H11 H12 H13 H14 H15 H16 H18 (or_intror (or_intror H19)) H17) as (l & e & T & (I1 & _ & (m' & M & I2 & _) & _) & O).
  exists l, e, m'. split; [exact T|]. split; [exact M|]. intros mm [-> | ->]; split; intros; (apply utf8_iterates || apply utf16_iterates); auto.
Qed.
Theorem texts_malformed_utf8 k g kc fl mds xs f m buf : 1 < rnpos k -> g_bits g = r_bits k -> g_bytes g = r_bytes k -> 0 < g_bytes g -> agree kc g ->
  smacros_ok k fl mds -> Forall (srule_ok k fl mds) xs ->
  (forall s, In s (gr_states (grules_of (push_all k fl mds xs))) -> N.of_nat (List.length (all_sets (g_bytes g) s)) < eol_tok g) ->
  (forall x t, In x (rules_at (push_all k fl mds xs) 0) -> In t (gr_tokens x) -> sliceable (g_bytes g) t) ->
  build f g (grules_of (push_all k fl mds xs)) = Ok m -> ReTokeniser.has fl rf_match_zero_len = false -> f_adv kc = true -> RulesBuild.covers kc m ->
  Forall (fun b => b < 256) buf -> ~ (exists chunks, buf = concat chunks /\ Forall u8_shape chunks) ->
  (forall chunks junk, buf = concat chunks ++ junk -> Forall u8_shape chunks -> Forall (fun c => c <= 0x10ffff /\ fits (c_bytes kc) c) (map u8_val chunks ++ [0])) ->
  forall n fuel inner, (List.length buf < n)%nat -> (List.length buf < fuel)%nat -> (List.length buf < inner)%nat ->
  exists e, u8_tokens n fuel inner kc m buf true 0 = Throw e /\ utf_error e.
Proof.
  intros H1 H2 H3 H4 H5 H6 H7 H8 H9 H10 H11 H12 H13 HB NW HC n fuel inner L1 L2 L3.
  destruct (utf8_malformed kc m buf HB NW) as (chunks & junk & E & S & J & U). specialize (HC chunks junk E S).
  assert (LE : (List.length (map u8_val chunks ++ [0%N]) <= List.length buf)%nat).
  { rewrite E, !app_length, map_length. assert (List.length chunks <= List.length (concat chunks))%nat.
    { clear - S. induction S as [|c cs Hc _ IH]; cbn; [lia|]. rewrite app_length. apply u8_shape_nonempty in Hc. lia. }
    destruct junk; [congruence|]. cbn. lia. }
  destruct (texts_all_tokens k g kc fl mds f m (map u8_val chunks ++ [0]) H1 H2 H5 H6 H11 H12
    (Forall_impl (fits (c_bytes kc)) (fun c H => proj2 H) HC) H13 xs H3 H4 H7 H8 H9 H10 (or_intror (or_intror (Forall_impl _ (fun c H => proj1 H) HC)))) as (l & _ & (I1 & _) & _).
  destruct (I1 n fuel inner) as (rs & V & _); [lia|lia|lia|]. exact (U n fuel inner true 0 rs V).
Qed.
Theorem texts_malformed_utf16 k g kc fl mds xs f m buf : 1 < rnpos k -> g_bits g = r_bits k -> g_bytes g = r_bytes k -> 0 < g_bytes g -> agree kc g ->
  smacros_ok k fl mds -> Forall (srule_ok k fl mds) xs ->
  (forall s, In s (gr_states (grules_of (push_all k fl mds xs))) -> N.of_nat (List.length (all_sets (g_bytes g) s)) < eol_tok g) ->
  (forall x t, In x (rules_at (push_all k fl mds xs) 0) -> In t (gr_tokens x) -> sliceable (g_bytes g) t) ->
  build f g (grules_of (push_all k fl mds xs)) = Ok m -> ReTokeniser.has fl rf_match_zero_len = false -> f_adv kc = true -> RulesBuild.covers kc m ->
  ~ (exists chunks, buf = concat chunks /\ Forall u16_shape chunks) ->
  (forall chunks junk, buf = concat chunks ++ junk -> Forall u16_shape chunks -> Forall (fun c => c <= 0x10ffff /\ fits (c_bytes kc) c) (map u16_val chunks ++ [0])) ->
  forall n fuel inner, (List.length buf < n)%nat -> (List.length buf < fuel)%nat -> (List.length buf < inner)%nat ->
  exists e, u16_tokens n fuel inner kc m buf true 0 = Throw e /\ utf_error e.
Proof.
  intros H1 H2 H3 H4 H5 H6 H7 H8 H9 H10 H11 H12 H13 NW HC n fuel inner L1 L2 L3.
  destruct (utf16_malformed kc m buf NW) as (chunks & junk & E & S & J & U). specialize (HC chunks junk E S).
  assert (LE : (List.length (map u16_val chunks ++ [0%N]) <= List.length buf)%nat).
  { rewrite E, !app_length, map_length. assert (List.length chunks <= List.length (concat chunks))%nat.
    { clear - S. induction S as [|c cs Hc _ IH]; cbn; [lia|]. rewrite app_length. apply u16_shape_nonempty in Hc. lia. }
    destruct junk; [congruence|]. cbn. lia. }
  destruct (texts_all_tokens k g kc fl mds f m (map u16_val chunks ++ [0]) H1 H2 H5 H6 H11 H12
    (Forall_impl (fits (c_bytes kc)) (fun c H => proj2 H) HC) H13 xs H3 H4 H7 H8 H9 H10 (or_intror (or_intror (Forall_impl _ (fun c H => proj1 H) HC)))) as (l & _ & (I1 & _) & _).
  destruct (I1 n fuel inner) as (rs & V & _); [lia|lia|lia|]. exact (U n fuel inner true 0 rs V).
Qed.
