(** Lexers made from texts, built, saved and loaded. *)
From Verif Require Import Base Serialise SerialiseProofs StringToken StateMachine ReToken DfaSpec Grammar Tree Parser
  Generator Build Lookup TableSpec LookupSpec RuleSpec BuildSpec ParserTree BuildState BuildMachine BuildLookup BuildErrs BuildThms BuildClean Minimise TableSim MinimiseProofs Iterator GenCpp GenCppSpec GenBuilt GenMade FlagsSpec
  BuildCheck ReTokeniser ReTokeniserNext Rules TokeniseSpec RulesSpec RulesInv RulesBuild SaveBuilt
  SourceSpec SourceLexer SourceTop SourceStates StatesTop TokenList Routes StateTokens StateRoutes.
Local Open Scope N_scope.

(** ** The members of the rules object stay in their types *)
Section Typed.
  Variable k : rcfg.
  Notation B := (2 ^ r_bits k).
  Hypothesis B6 : 6 <= r_bits k.
  Notation cells := (Forall (Forall (fun v => v < B))).
  Record kept (r : rules) : Prop := {
    ke_map : Forall (fun p => snd p < B) (ru_map r);
    ke_features : Forall (fun v => v < B) (ru_features r);
    ke_ids : cells (ru_ids r); ke_uids : cells (ru_uids r);
    ke_nexts : cells (ru_nexts r); ke_pushes : cells (ru_pushes r)
  }.
  (** The arguments of the calls have the type id_type. *)
  Definition op_typed (o : op) : Prop :=
    match o with OPush _ id uid | OPushIn _ _ id _ uid => id < B /\ uid < B | _ => True end.

  Lemma B64 : 64 <= B.
  Proof. change 64 with (2 ^ 6). apply N.pow_le_mono_r; lia. Qed.
  Lemma rnpos_small : rnpos k < B.
  Proof. unfold rnpos, npos_of. pose proof B64. lia. Qed.
  Lemma all_upd A (P : A -> Prop) (l : list A) i v : Forall P l -> P v -> Forall P (upd l i v).
  Proof. revert i. induction l as [|x l IH]; intros [|i] F H; cbn; inversion F; subst; constructor; auto. Qed.
  Lemma all_append (l : list (list N)) i xs : cells l -> Forall (fun v => v < B) xs -> cells (append l i xs).
  Proof.
    intros F H. unfold append. apply all_upd; [auto|]. apply Forall_app. split; [|auto].
    destruct (Nat.lt_ge_cases i (length l)) as [L|L]; [|rewrite nth_overflow by auto; constructor].
    rewrite Forall_forall in F. apply F. now apply nth_In.
  Qed.
  Lemma all_same (v : list (list token)) x : x < B -> Forall (fun a => a < B) (map (fun _ => x) v).
  Proof. intros H. rewrite Forall_map. apply Forall_forall. auto. Qed.
  Lemma bits_small h b id rec bits : feature_bits k h b id rec = Ok bits -> bits < B.
  Proof.
    pose proof B64. unfold feature_bits. destruct (nth_error h 1); [|discriminate]. destruct (nth_error b _); [|discriminate]. intros [= <-].
    assert (H1 : 1 < B) by lia. assert (H2 : 2 < B) by lia. assert (H4 : 4 < B) by lia. assert (H8 : 8 < B) by lia. assert (H32 : 32 < B) by lia. assert (H0 : 0 < B) by lia.
    repeat apply lor_small.
    - destruct (is_type _ _); assumption.
    - destruct (is_type _ _); assumption.
    - destruct (_ =? _); [assumption|destruct (_ =? _); assumption].
    - destruct rec; assumption.
  Qed.
  Lemma kept_add i x v bits id uid next push pop r : kept r -> bits < B -> id < B -> uid < B -> next < B -> push < B ->
    kept (add_rules i x v bits id uid next push pop r).
  Proof.
    intros [K1 K2 K3 K4 K5 K6] Hb Hi Hu Hn Hp. unfold add_rules. constructor; cbn [ru_map ru_features ru_ids ru_uids ru_nexts ru_pushes]; auto using all_append, all_same.
    apply all_upd; [auto|]. apply lor_small; [|auto]. destruct (Nat.lt_ge_cases i (length (ru_features r))) as [L|L].
    - rewrite Forall_forall in K2. apply K2. now apply nth_In.
    - rewrite nth_overflow by auto. pose proof B64. lia.
  Qed.
  Lemma kept_none flags : kept (no_rules flags).
  Proof. constructor; constructor. Qed.
  Lemma kept_state n r : kept r -> kept (fst (push_state k n r)).
  Proof.
    intros K. unfold push_state. destruct (validate n); [|auto]. destruct (map_get _ _); [auto|].
    assert (X : 0 < B) by (pose proof B64; lia). destruct K as [K1 K2 K3 K4 K5 K6].
    cbv zeta. match goal with |- kept (fst (if ?c then _ else _)) => destruct c end; cbn [fst]; constructor; cbn [ru_map ru_features ru_ids ru_uids ru_nexts ru_pushes]; apply Forall_app;
      (split; [assumption|constructor; [|constructor]]); try constructor; try exact X; cbn [snd]; apply N.mod_lt; lia.
  Qed.
  Lemma kept_rule x id uid r : kept r -> id < B -> uid < B -> kept (fst (push_rule k x id uid r)).
  Proof.
    intros K Hi Hu. unfold push_rule. destruct (bad_id k id); [auto|]. destruct (tokenise _ _ _ _ _) as [[|t ts]| | |]; auto.
    destruct (feature_bits _ _ _ _ _) eqn:E; auto. cbn [fst]. apply bits_small in E. apply kept_add; auto using rnpos_small. pose proof B64. lia.
  Qed.
  Definition exit_in (e : exit_state) : Prop := match e with XGo n => n < B | XPush n o => n < B /\ match o with Some q => q < B | None => True end | _ => True end.
  Lemma got n r i : kept r -> get_state n r = Ok i -> i < B.
  Proof.
    intros K. unfold get_state. destruct (map_get n (ru_map r)) as [j|] eqn:E; [|discriminate]. intros [= <-].
    pose proof (ke_map _ K) as F. clear K. induction (ru_map r) as [|[a b] l IH]; cbn in E; [discriminate|]. inversion F; subst.
    destruct (text_eqb n a); [injection E as <-; auto|auto].
  Qed.
  Lemma exit_typed s r e : kept r -> parse_exit s r = Ok e -> exit_in e.
  Proof.
    intros K. unfold parse_exit. destruct (text_eqb s [46]); [intros [= <-]; exact I|].
    assert (M : forall s' : list N, (let push := peek s' =? 62 in
      let x := at_colon (if push then tl s' else s') in
      if validate (fst x) then
        match snd x with
        | None => do n <- get_state (fst x) r; Ok (if push then XPush n None else XGo n)
        | Some p =>
          if push then
            if validate p then
              do n <- get_state (fst x) r; do q <- get_state p r; Ok (XPush n (Some q))
            else Throw EBadName
          else Throw EBadName
        end
      else Throw EBadName) = Ok e -> exit_in e).
    { intros s'. cbv zeta. destruct (validate _); [|discriminate]. destruct (snd _) as [p|].
      - destruct (_ =? 62); [|discriminate]. destruct (validate p); [|discriminate]. intros H. step H. step H. injection H as <-. cbn. eauto using got.
      - intros H. step H. injection H as <-. destruct (_ =? 62); cbn; eauto using got. }
    destruct s as [|c s]; [apply (M [])|]. destruct (N.eq_dec c 60) as [->|N]; [intros [= <-]; exact I|].
    destruct c as [|p]; [apply (M (0 :: s))|]. intros H. apply (M (N.pos p :: s)). revert H.
    do 6 (try (destruct p as [p|p|]; try (exact (fun H => H)))); congruence.
  Qed.
  Lemma states_typed s r is : kept r -> parse_states k s r = Ok is -> Forall (fun i => i < B) is.
  Proof.
    intros K. unfold parse_states. destruct (text_eqb s [42]).
    - intros [= <-]. rewrite Forall_map. apply Forall_forall. intros i Hi. apply in_seq in Hi.
      pose proof (N.mod_lt (N.of_nat (length (ru_map r))) B ltac:(pose proof B64; lia)). lia.
    - generalize (at_commas s []). intros ns. revert is. induction ns as [|n ns IH]; intros is H; cbn [get_states] in H; [injection H as <-; constructor|].
      destruct (validate n); [|discriminate]. step H. step H. injection H as <-. constructor; [eauto using got|auto].
  Qed.
  Lemma kept_each x id uid e is : id < B -> uid < B -> exit_in e -> Forall (fun i => i < B) is -> forall r, kept r -> kept (fst (push_each k x id uid e is r)).
  Proof.
    intros Hi Hu He. induction is as [|i is IH]; intros F r K; [auto|]. inversion F; subst. cbn [push_each].
    destruct (tokenise _ _ _ _ _) as [[|t ts]| | |]; auto. destruct (feature_bits _ _ _ _ _) eqn:E; auto. destruct (Nat.ltb _ _); [|auto].
    apply IH; [auto|]. apply bits_small in E. pose proof rnpos_small. apply kept_add; auto; destruct e as [| |n|n [q|]]; cbn in *; tauto.
  Qed.
  Lemma kept_states c x id n check uid r : kept r -> id < B -> uid < B -> kept (fst (push_states k c x id n check uid r)).
  Proof.
    intros K Hi Hu. unfold push_states. destruct (check && bad_id k id); [auto|].
    destruct (parse_exit n r) eqn:E; auto. destruct (parse_states k c r) eqn:E2; auto. apply kept_each; eauto using exit_typed, states_typed.
  Qed.
  Lemma kept_macro n x r : kept r -> kept (fst (insert_macro k n x r)).
  Proof.
    intros [K1 K2 K3 K4 K5 K6]. unfold insert_macro. destruct (validate n); [|now constructor]. destruct (macro_find _ _); [now constructor|].
    destruct (tokenise _ _ _ _ _) as [[|t ts]| | |]; now constructor.
  Qed.
  Theorem kept_apply o r : kept r -> op_typed o -> kept (fst (apply k o r)).
  Proof.
    intros K T. destruct o; cbn [apply op_typed] in *.
    - cbv zeta. cbn [fst]. now apply kept_state.
    - now apply kept_macro.
    - destruct T. now apply kept_rule.
    - destruct T. now apply kept_states.
    - apply kept_states; auto using rnpos_small. pose proof B64. lia.
    - cbn [fst]. unfold clear, make_rules. apply kept_state, kept_none.
    - cbn [fst]. unfold clear_state. destruct (Nat.ltb _ _); [|auto]. destruct K as [K1 K2 K3 K4 K5 K6].
      assert (0 < B) by (pose proof B64; lia).
      constructor; cbn [ru_map ru_features ru_ids ru_uids ru_nexts ru_pushes]; auto; apply all_upd; auto.
    - destruct K. now constructor.
    - unfold reverse. destruct (reverse_states _); cbn [bind]; auto. destruct (reverse_macros _); cbn [bind]; auto. destruct K. now constructor.
  Qed.
  Lemma zip_typed ts : forall ids uids nexts pushes pops, Forall (fun v => v < B) ids -> Forall (fun v => v < B) uids -> Forall (fun v => v < B) nexts -> Forall (fun v => v < B) pushes ->
    Forall (rule_in B) (zip_rules ts ids uids nexts pushes pops).
  Proof.
    induction ts as [|t ts IH]; intros ids uids nexts pushes pops F1 F2 F3 F4; [constructor|].
    destruct F1; [constructor|]. destruct F2; [constructor|]. destruct F3; [constructor|]. destruct F4; [constructor|]. destruct pops; [constructor|].
    cbn [zip_rules]. constructor; [unfold rule_in; cbn; auto|auto].
  Qed.
  Lemma cells_nth (l : list (list N)) i : cells l -> Forall (fun v => v < B) (nth i l []).
  Proof.
    intros F. destruct (Nat.lt_ge_cases i (length l)) as [L|L]; [|rewrite nth_overflow by auto; constructor].
    rewrite Forall_forall in F. apply F. now apply nth_In.
  Qed.
  Theorem kept_typed r : kept r -> typed B (grules_of r).
  Proof.
    intros [K1 K2 K3 K4 K5 K6]. pose proof B64. split; [cbn; lia|]. cbn [grules_of gr_states]. rewrite Forall_map. apply Forall_forall. intros i _. cbn [gs_features gs_rules].
    split; [|apply zip_typed; now apply cells_nth]. destruct (Nat.lt_ge_cases i (length (ru_features r))) as [L|L].
    - rewrite Forall_forall in K2. apply K2. now apply nth_In.
    - rewrite nth_overflow by auto. lia.
  Qed.
  Lemma kept_fold A (f : rules -> A -> rules) (P : A -> Prop) : (forall r a, P a -> kept r -> kept (f r a)) -> forall l r, Forall P l -> kept r -> kept (fold_left f l r).
  Proof. intros H. induction l as [|a l IH]; intros r F K; [exact K|]. inversion F; subst. cbn [fold_left]. auto. Qed.
  Definition ids_typed (x : srule) : Prop := s_id x < B /\ s_uid x < B.
  Lemma kept_all fl mds xs : Forall ids_typed xs -> kept (push_all k fl mds xs).
  Proof.
    intros F. unfold push_all. apply kept_fold with (P := ids_typed); [|exact F|].
    - intros r a (H1 & H2) K. now apply kept_rule.
    - unfold put_macros. apply kept_fold with (P := fun _ => True); [intros; now apply kept_macro|now apply Forall_forall|]. apply kept_state, kept_none.
  Qed.
  Lemma kept_lexer fl more mds ds : Forall (fun d => ids_typed (d_rule d)) ds -> kept (make_lexer k fl more mds ds).
  Proof.
    intros F. unfold make_lexer. apply kept_fold with (P := fun d => ids_typed (d_rule d)); [|exact F|].
    - intros r d (H1 & H2) K. apply kept_apply; [exact K|]. unfold declare_op. destruct (_ =? 0); cbn; auto.
    - unfold put_macros. apply kept_fold with (P := fun _ => True); [intros; now apply kept_macro|now apply Forall_forall|].
      unfold make_states. apply kept_fold with (P := fun _ => True); [intros; now apply kept_state|now apply Forall_forall|]. apply kept_state, kept_none.
  Qed.
End Typed.

(** ** What is loaded is what was saved *)
(** With ids of at most 4 bytes no vector can be too long. *)
Lemma built_in_memory f g R m bytes : wide_ok g -> rules_wf g R -> build f g R = Ok m -> g_bits g = 8 * bytes -> bytes <= 4 ->
  N.of_nat (length (gr_states R)) < size_lim -> in_memory m.
Proof.
  intros WO RW HB Hbits H4 HL. destruct (build_machine f g R m WO RW HB) as ((_ & L & MT) & _). split; [now rewrite L|].
  apply Forall_forall. intros d Hd. apply In_nth_error in Hd as (i & Ed). assert (Hi : (i < length (i_dfa m))%nat) by (apply nth_error_Some; congruence).
  destruct (nth_error (gr_states R) i) as [gs|] eqn:Eg; [|apply nth_error_None in Eg; lia].
  destruct (MT (N.of_nat i) gs) as (t & Et & (s & ds & n & RC & Hn & _)); [now rewrite Nat2N.id|]. unfold get_table in Et. rewrite Nat2N.id, Ed in Et.
  destruct (nth_error (i_lookup m) i); [|discriminate]. destruct (nth_error (i_alphabet m) i); [|discriminate]. injection Et as <-.
  pose proof (rc_len _ _ _ _ _ _ RC) as LL. pose proof (rc_width _ _ _ _ _ _ RC) as W. cbn [t_dfa t_width] in *. rewrite LL.
  assert (G : gnpos g < 2 ^ 32).
  { unfold gnpos, npos_of. rewrite Hbits. assert (2 ^ (8 * bytes) <= 2 ^ 32) by (apply N.pow_le_mono_r; lia). assert (2 ^ (8 * bytes) <> 0) by (apply N.pow_nonzero; lia). lia. }
  change size_lim with (2 ^ 32 * 2 ^ 32). nia.
Qed.
(** Saved anywhere in a stream and loaded, into any machine, [m] is back, and the
    stream is after it. *)
Definition comes_back (csize bytes : N) (m : internals) (P : internals -> Prop) : Prop :=
  forall old st rest, at_ws st (save csize bytes m ++ rest) ->
    exists m' st', load csize bytes old st = Ok (m', st') /\ at_ws st' rest /\ P m'.

Section Object.
  Variables (k : rcfg) (g : gcfg) (r : rules) (f : nat) (kc : cfg) (m : internals) (csize bytes : N).
  Hypothesis NPOS : 1 < rnpos k.
  Hypothesis P : proper_unsplit k r.
  Hypothesis Hbits : g_bits g = r_bits k.
  Hypothesis Hbytes : g_bytes g = r_bytes k.
  Hypothesis Hb : 0 < g_bytes g.
  Hypothesis SI : simple g r.
  Hypothesis One : ru_map r <> [].
  Hypothesis AG : agree kc g.
  Hypothesis HB : build f g (grules_of r) = Ok m.
  Hypothesis CV : RulesBuild.covers kc m.
  Hypothesis K : kept k r.
  Hypothesis Ids : r_bits k = 8 * bytes.
  Hypothesis Two : 2 <= bytes <= 8.
  Hypothesis Cs : csize < size_lim.
  Hypothesis Mem : in_memory m \/ (bytes <= 4 /\ N.of_nat (length (ru_map r)) < size_lim).
  Lemma object_setting : setting f kc g (grules_of r) m [] (new_results kc 0 true 0).
  Proof.
    apply (made_setting k g r NPOS Hbits Hbytes Hb P SI f kc m [] _ AG HB CV); [constructor|]. split; [|split; [constructor|cbn; lia]].
    cbn [grules_of gr_states]. rewrite map_length, seq_length. cbn. destruct (ru_map r); [congruence|]. cbn [length]. lia.
  Qed.
  Lemma object_fits : Serialise.fits bytes m.
  Proof.
    pose proof object_setting as [_ WO RW _ _ _ _ _]. assert (T := kept_typed k ltac:(lia) r K). rewrite Ids in T.
    apply (built_fits f g (grules_of r) m bytes WO RW HB); [congruence|lia|exact T|]. destruct Mem as [M|[M1 M2]]; [exact M|].
    eapply built_in_memory; eauto; [congruence|]. cbn [grules_of gr_states]. now rewrite map_length, seq_length.
  Qed.
  Lemma same_bits : c_bits kc = 8 * bytes.
  Proof.
    destruct AG as (A & _). unfold npos, gnpos, npos_of in A. rewrite Hbits, Ids in A.
    assert (X : 2 ^ c_bits kc <> 0) by (apply N.pow_nonzero; lia). assert (Y : 2 ^ (8 * bytes) <> 0) by (apply N.pow_nonzero; lia).
    assert (E : 2 ^ c_bits kc = 2 ^ (8 * bytes)) by lia. apply N.pow_inj_r in E; [exact E|lia].
  Qed.
  Lemma saved_back m1 (Q : internals -> Prop) : Serialise.fits bytes m1 -> Q m1 -> comes_back csize bytes m1 Q.
  Proof.
    intros F q old st rest A. destruct (load_save csize bytes m1 old st rest Cs Two F A) as (st' & E & A'). exists m1, st'. auto.
  Qed.
  Theorem object_back (Q Q1 : internals -> Prop) : Q m -> (exists m', minimise (c_bits kc) m = Ok m' /\ Q1 m') ->
    comes_back csize bytes m Q /\ exists m', minimise (c_bits kc) m = Ok m' /\ comes_back csize bytes m' Q1.
  Proof.
    intros q (m' & E & q1). split; [apply saved_back; [exact object_fits|exact q]|]. exists m'. split; [exact E|]. apply saved_back; [|exact q1].
    eapply minimised_fits; [exact (se_mwf _ _ _ _ _ _ _ object_setting)|exact object_fits|exact same_bits|exact E].
  Qed.
End Object.

Section Texts.
  Variables (k : rcfg) (g : gcfg) (kc : cfg) (fl : N) (mds : list smacro) (f : nat) (m : internals) (inp : list N) (csize bytes : N).
  Hypothesis NPOS : 1 < rnpos k.
  Hypothesis Hbits : g_bits g = r_bits k.
  Hypothesis Hbytes : g_bytes g = r_bytes k.
  Hypothesis Hb : 0 < g_bytes g.
  Hypothesis AG : agree kc g.
  Hypothesis MO : smacros_ok k fl mds.
  Hypothesis Zero : has fl rf_match_zero_len = false.
  Hypothesis Adv : f_adv kc = true.
  Hypothesis HI : Forall (fits (c_bytes kc)) inp.
  Hypothesis HK : known_chars (g_bytes g) inp.
  Hypothesis CV : RulesBuild.covers kc m.
  Hypothesis Ids : r_bits k = 8 * bytes.
  Hypothesis Two : 2 <= bytes <= 8.
  Hypothesis Cs : csize < size_lim.
  Hypothesis Mem : in_memory m \/ bytes <= 4.

  Theorem texts_saved xs : Forall (srule_ok k fl mds) xs -> Forall (ids_typed k) xs ->
    (forall s, In s (gr_states (grules_of (push_all k fl mds xs))) -> N.of_nat (length (all_sets (g_bytes g) s)) < eol_tok g) ->
    (forall x t, In x (rules_at (push_all k fl mds xs) 0) -> In t (gr_tokens x) -> sliceable (g_bytes g) t) ->
    build f g (grules_of (push_all k fl mds xs)) = Ok m ->
    exists l, tokens (sreads (npos kc) (skip_id kc) (f_bol kc) xs inp) true 0 l /\
      comes_back csize bytes m (fun m' => every_route kc m' inp l) /\
      exists mini, minimise (c_bits kc) m = Ok mini /\ comes_back csize bytes mini (fun m' => iterates kc m' inp l /\ replaces kc m' inp l).
  Proof.
    intros Hx Tx Sets Sli HB. destruct (push_all_is k fl NPOS mds xs MO Hx) as (P & _ & Em & _).
    destruct (texts_all_tokens k g kc fl mds f m inp NPOS Hbits AG MO Zero Adv HI CV xs Hbytes Hb Hx Sets Sli HB HK) as (l & T & EV & _).
    exists l. split; [exact T|]. apply (object_back k g (push_all k fl mds xs) f kc m csize bytes NPOS P Hbits Hbytes Hb); auto.
    - eapply lexer_simple; eauto.
    - intros E. rewrite E in Em. discriminate.
    - apply kept_all; [lia|exact Tx].
    - destruct Mem as [M|M]; [auto|]. right. split; [exact M|]. rewrite Em. reflexivity.
    - apply EV.
  Qed.
  Variables (more : list (list N)) (ds : list decl).
  Hypothesis ND : NoDup (initial :: more).
  Hypothesis FV : Forall (fun n => validate n = true) more.
  Hypothesis LN : N.of_nat (length (initial :: more)) < 2 ^ r_bits k.
  Hypothesis Hd : Forall (decl_ok k fl mds (initial :: more)) ds.
  Hypothesis Td : Forall (fun d => ids_typed k (d_rule d)) ds.
  Hypothesis Multi : f_multi kc = true.
  Theorem states_saved :
    (forall s, In s (gr_states (grules_of (make_lexer k fl more mds ds))) -> N.of_nat (length (all_sets (g_bytes g) s)) < eol_tok g) ->
    (forall i x t, In x (rules_at (make_lexer k fl more mds ds) i) -> In t (gr_tokens x) -> sliceable (g_bytes g) t) ->
    build f g (grules_of (make_lexer k fl more mds ds)) = Ok m ->
    exists l e, mtokens (npos kc) (skip_id kc) (f_bol kc) ds inp initial [] true 0%nat l e /\
      comes_back csize bytes m (fun m' => all_roads kc m' inp l e) /\
      exists mini, minimise (c_bits kc) m = Ok mini /\ comes_back csize bytes mini (fun m' => iterates_to kc m' inp l e /\ replaces_to kc m' inp l e).
  Proof.
    intros Sets Sli HB.
    destruct (states_all_tokens k g kc fl more mds ds f m inp NPOS Hbits Hbytes Hb AG ND FV LN MO Hd Sets Sli HB Zero Adv Multi HI HK CV) as (l & e & T & EV & _).
    assert (PS : proper_unsplit k (make_lexer k fl more mds ds) /\ simple g (make_lexer k fl more mds ds)) by (eapply all_simple; eauto).
    destruct PS as (P & SI).
    destruct (lexer_object k fl more mds ds NPOS ND FV LN MO Hd) as (_ & _ & Em & _).
    exists l, e. split; [exact T|]. apply (object_back k g (make_lexer k fl more mds ds) f kc m csize bytes NPOS P Hbits Hbytes Hb SI); auto.
    - intros E. rewrite E in Em. discriminate.
    - apply kept_lexer; [lia|exact Td].
    - destruct Mem as [M|M]; [auto|]. right. split; [exact M|]. rewrite <- (map_length fst), Em. apply N.lt_le_trans with (1 := LN).
      change size_lim with (2 ^ 64). rewrite Ids. apply N.pow_le_mono_r; lia.
    - apply EV.
  Qed.
End Texts.
