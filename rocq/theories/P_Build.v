(** Properties C01-C05, C08, C17-C19, C30 and C32: lexers built from rules. *)
From Verif Require Import Base StringToken StringTokenSpec StateMachine ReToken DfaSpec Grammar Tree Parser
  Generator Build ParserTree Lookup TableSpec LookupSpec RuleSpec RuleWords BuildSpec BuildLookup BuildErrs
  BuildThms BuildCheck BolWords.
Local Open Scope N_scope.

(** ** Witness: start state 0 with the rules
      if   [a-z]+   ^#[a-z]*   " " (skipped)   " (to state 1)
    and start state 1 with
      [^"]{2,3}   " (to state 0)   [^"]                                     *)
Definition gx : gcfg := {| g_bits := 16; g_bytes := 1 |}.
Definition kx : cfg := {| f_bol := true; f_eol := false; f_multi := true; f_rec := false; f_adv := true;
                          c_bytes := 1; c_bits := 16 |}.
Definition ch (c : N) : token := {| tk_type := CHARSET; tk_extra := []; tk_str := [(c, c)] |}.
Definition cls (s : stoken) : token := {| tk_type := CHARSET; tk_extra := []; tk_str := s |}.
Definition rep (e : list N) : token := {| tk_type := REPEATN; tk_extra := e; tk_str := [] |}.
Definition rul (ts : list token) (id next : N) : grule :=
  {| gr_tokens := tok BEGIN :: ts ++ [tok END]; gr_id := id; gr_uid := 65535; gr_next := next;
     gr_push := 65535; gr_pop := false |}.
Definition letters : token := cls [(97, 122)].
Definition unquote : token := cls [(0, 33); (35, 255)].
Definition Rs (space : N) : grules :=
  {| gr_eoi := 0;
     gr_states := [ {| gs_rules := [ rul [ch 105; ch 102] 1 0; rul [letters; tok ONEORMORE] 2 0;
                                     rul [tok BOL; ch 35; letters; tok ZEROORMORE] 3 0;
                                     rul [ch 32] space 0; rul [ch 34] 4 1 ];
                       gs_features := fb_bol |};
                    {| gs_rules := [ rul [unquote; rep [50; 44; 51]] 5 1; rul [ch 34] 6 0;
                                     rul [unquote] 7 1 ];
                       gs_features := 0 |} ];
     gr_flags := {| zero_len_ok := false; suppressed_ok := false |} |}.
(** The space is skipped in [Rx] and is a token in [Ry]. *)
Definition Rx := Rs 65534.
Definition Ry := Rs 8.
Definition no_machine : internals :=
  {| i_eoi := 0; i_lookup := []; i_alphabet := []; i_features := 0; i_dfa := [] |}.
Definition built (R : grules) : internals := match build 100 gx R with Ok m => m | _ => no_machine end.
Definition mx := built Rx.
Definition my := built Ry.
(* #if ifx"ab"\nif *)
Definition inp := [35; 105; 102; 32; 105; 102; 120; 34; 97; 98; 34; 10; 105; 102].
Definition pos (bol : bool) (state : N) (p : nat) : results :=
  {| r_id := 0; r_uid := 65535; r_first := p; r_second := p; r_bol := bol; r_state := state; r_stack := [] |}.
Lemma setting_gx f R m bol st p : rules_wfb gx R = true -> targets_okb gx R = true ->
  forallb (fun g => forallb (fun x => negb (gr_pop x)) (gs_rules g)) (gr_states R) = true -> build f gx R = Ok m ->
  (p <= 14)%nat -> st < N.of_nat (length (gr_states R)) -> setting f kx gx R m inp (pos bol st p).
Proof.
  intros H1 H2 HP H3 Hp Hs. constructor; auto.
  - split; reflexivity.
  - now left.
  - now apply rules_wfb_ok.
  - now apply targets_okb_ok.
  - intros gs x Hg Hx. rewrite forallb_forall in HP. specialize (HP gs Hg). cbv beta in HP.
    rewrite forallb_forall in HP. specialize (HP x Hx). destruct (gr_pop x); discriminate.
  - repeat constructor.
  - split; [exact Hs|]. split; [constructor|exact Hp].
Qed.
Lemma Rx_setting bol st p : (p <= 14)%nat -> st < 2 -> setting 100 kx gx Rx mx inp (pos bol st p).
Proof. intros Hp Hs. apply setting_gx; auto; vm_compute; reflexivity. Qed.
Lemma Ry_setting bol st p : (p <= 14)%nat -> st < 2 -> setting 100 kx gx Ry my inp (pos bol st p).
Proof. intros Hp Hs. apply setting_gx; auto; vm_compute; reflexivity. Qed.
Lemma Rs_eager s : Forall (fun g => Forall eager (gs_rules g)) (gr_states (Rs s)).
Proof. repeat constructor. Qed.
Lemma Ry_plain : ids_plain kx Ry.
Proof.
  intros gs x Hg Hx. assert (F : forallb (fun gs => forallb (fun x => negb (gr_id x =? 0) && negb (gr_id x =? 65534)) (gs_rules gs)) (gr_states Ry) = true)
    by reflexivity.
  rewrite forallb_forall in F. specialize (F gs Hg). cbv beta in F. rewrite forallb_forall in F. specialize (F x Hx).
  apply andb_true_iff in F as [F1 F2]. apply negb_true_iff in F1, F2. apply N.eqb_neq in F1, F2. auto.
Qed.

(** ** C01-C03: a call of lookup() does what the rules say, with skipped rules,
    joined tokens, start states and the stack; and that determines it. *)
Theorem C01_lookup_follows_the_rules f k g R m inp r fuel inner : setting f k g R m inp r ->
  Forall (fun gs => Forall eager (gs_rules gs)) (gr_states R) ->
  match lookup fuel inner k m inp r with
  | Ok (r', o) => rlex k R inp (r_second r) r r' o /\ in_range R inp r'
  | Fuel => True
  | _ => False
  end.
Proof. intros H1 H2. exact (lookup_rlex f k g R m inp r H1 fuel inner H2). Qed.
Theorem C02_the_rules_determine_the_result k R inp r r1 o1 r2 o2 :
  rlex k R inp (r_second r) r r1 o1 -> rlex k R inp (r_second r) r r2 o2 ->
  o1 = o2 /\ (o1 = None -> r1 = r2).
Proof. intros H1 H2. destruct (rlex_det k R inp _ r r1 o1 H1 r r2 o2 eq_refl H2) as (A & _ & B). exact (conj A B). Qed.
(** The plain case: no rule is skipped or joined, no recursion. *)
Theorem C01_longest_match f k g R m inp r fuel inner r' o rs x0 q0 : setting f k g R m inp r ->
  Forall (fun gs => Forall eager (gs_rules gs)) (gr_states R) -> f_rec k = false -> ids_plain k R ->
  lookup fuel inner k m inp r = Ok (r', o) ->
  rules_of R (r_state r) rs -> In x0 rs -> (r_second r < q0 <= length inp)%nat ->
  rmatch x0 (f_bol k && r_bol r) (text_of inp (r_second r) q0) ->
  o = None /\ r_first r' = r_second r /\
  exists x, rlongest rs inp (f_bol k && r_bol r) (r_second r) x (r_second r') /\
    r_id r' = gr_id x /\ r_uid r' = gr_uid x /\ r_state r' = (if f_multi k then gr_next x else r_state r).
Proof. intros H1 H2 H3 H4 H5. exact (simple_longest f k g R m inp r H1 H2 H3 H4 fuel inner r' o H5 rs x0 q0). Qed.
Theorem C02_first_rule f k g R m inp r fuel inner r' o rs j x : setting f k g R m inp r ->
  Forall (fun gs => Forall eager (gs_rules gs)) (gr_states R) -> f_rec k = false -> ids_plain k R ->
  lookup fuel inner k m inp r = Ok (r', o) -> (r_second r < r_second r')%nat -> r_id r' <> npos k ->
  rules_of R (r_state r) rs -> nth_error rs j = Some x ->
  rmatch x (f_bol k && r_bol r) (text_of inp (r_second r) (r_second r')) ->
  (forall i y, (i < j)%nat -> nth_error rs i = Some y ->
     ~ rmatch y (f_bol k && r_bol r) (text_of inp (r_second r) (r_second r'))) ->
  r_id r' = gr_id x /\ r_uid r' = gr_uid x /\ r_state r' = (if f_multi k then gr_next x else r_state r).
Proof. intros H1 H2 H3 H4 H5. exact (simple_first f k g R m inp r H1 H2 H3 H4 fuel inner r' o H5 rs j x). Qed.
Theorem C03_unmatched f k g R m inp r fuel inner r' o rs : setting f k g R m inp r ->
  Forall (fun gs => Forall eager (gs_rules gs)) (gr_states R) -> f_rec k = false -> ids_plain k R ->
  lookup fuel inner k m inp r = Ok (r', o) ->
  rules_of R (r_state r) rs -> (r_second r < length inp)%nat -> f_adv k = true ->
  rnone rs inp (f_bol k && r_bol r) (r_second r) -> (forall x, In x rs -> ~ rmatch x false []) ->
  o = None /\ r_first r' = r_second r /\ r_id r' = npos k /\ r_uid r' = npos k /\
  r_second r' = S (r_second r) /\ r_state r' = r_state r.
Proof. intros H1 H2 H3 H4 H5. exact (simple_unmatched f k g R m inp r H1 H2 H3 H4 fuel inner r' o H5 rs). Qed.
Print Assumptions C01_lookup_follows_the_rules.
Print Assumptions C02_the_rules_determine_the_result.
Print Assumptions C01_longest_match.
Print Assumptions C02_first_rule.
Print Assumptions C03_unmatched.

(** From "#if" at the beginning of a line on, and then after it. *)
Fixpoint run (n : nat) (m : internals) (r : results) : list (N * nat * nat * N) :=
  match n with
  | O => []
  | S n =>
    match lookup 100 100 kx m inp r with
    | Ok (r', _) => (r_id r', r_first r', r_second r', r_state r') :: run n m r'
    | _ => []
    end
  end.
Example C01_run : run 8 mx (pos true 0 0) =
  [(3, 0%nat, 3%nat, 0); (2, 4%nat, 7%nat, 0); (4, 7%nat, 8%nat, 1); (5, 8%nat, 10%nat, 1); (6, 10%nat, 11%nat, 0);
   (65535, 11%nat, 12%nat, 0); (1, 12%nat, 14%nat, 0); (0, 14%nat, 14%nat, 0)].
Proof. vm_compute. reflexivity. Qed.
Lemma letters_lang cs : Forall (fun c => 97 <= c <= 122) cs -> cs <> [] ->
  rule_lang (rul [letters; tok ONEORMORE] 2 0) (map CChar cs).
Proof.
  intros H NE. exists [letters; tok ONEORMORE], (Some (XPlus (XSet [(97, 122)]))). split; [|split].
  - exists (tok BEGIN), (tok END). auto.
  - cbn. apply g_regex, g_seq. apply (g_dup (XSet [(97, 122)]) [letters] (tok ONEORMORE) XPlus).
    + now apply (g_set letters).
    + apply dp_plus. now left.
  - cbn. exists (length cs). split; [destruct cs; [congruence|cbn; lia]|].
    clear NE. induction H as [|c cs Hc H IH]; [reflexivity|].
    exists [CChar c], (map CChar cs). split; [reflexivity|]. split; [|exact IH].
    exists c. split; [|reflexivity]. left. exists 97, 122. split; [now left|exact Hc].
Qed.
Example C01_longest_match_case : exists rs x0, setting 100 kx gx Ry my inp (pos false 0 4) /\
  rules_of Ry 0 rs /\ In x0 rs /\ rmatch x0 false (text_of inp 4 7) /\
  lookup 100 100 kx my inp (pos false 0 4) =
    Ok ({| r_id := 2; r_uid := 65535; r_first := 4; r_second := 7; r_bol := false; r_state := 0; r_stack := [] |}, None).
Proof.
  eexists _, (rul [letters; tok ONEORMORE] 2 0). split; [apply Ry_setting; [lia|reflexivity]|].
  split; [eexists; split; reflexivity|]. split; [right; left; reflexivity|]. split; [|vm_compute; reflexivity].
  apply (letters_lang [105; 102; 120]); [|discriminate]. repeat constructor; lia.
Qed.
(** "if" is matched by two rules, and the first counts. *)
Lemma if_lang : rule_lang (rul [ch 105; ch 102] 1 0) (map CChar [105; 102]).
Proof.
  exists [ch 105; ch 102], (Some (XCat (XSet [(105, 105)]) (XSet [(102, 102)]))). split; [exists (tok BEGIN), (tok END); auto|]. split.
  - cbn. apply g_regex. apply (g_cat _ _ [ch 105] [ch 102]); [apply g_seq, g_expr, (g_set (ch 105)); reflexivity|apply g_expr, (g_set (ch 102)); reflexivity].
  - cbn. exists [CChar 105], [CChar 102]. split; [reflexivity|]. split.
    + exists 105. split; [|reflexivity]. left. exists 105, 105. split; [now left|lia].
    + exists 102. split; [|reflexivity]. left. exists 102, 102. split; [now left|lia].
Qed.
Example C02_case : exists rs x y, setting 100 kx gx Ry my inp (pos false 0 12) /\ ids_plain kx Ry /\ rules_of Ry 0 rs /\
  nth_error rs 0 = Some x /\ nth_error rs 1 = Some y /\ rmatch x false (text_of inp 12 14) /\ rmatch y false (text_of inp 12 14) /\ gr_id x = 1 /\ gr_id y = 2 /\
  lookup 100 100 kx my inp (pos false 0 12) =
    Ok ({| r_id := 1; r_uid := 65535; r_first := 12; r_second := 14; r_bol := false; r_state := 0; r_stack := [] |}, None).
Proof.
  eexists _, (rul [ch 105; ch 102] 1 0), (rul [letters; tok ONEORMORE] 2 0). split; [apply Ry_setting; [lia|reflexivity]|]. split; [exact Ry_plain|].
  split; [eexists; split; reflexivity|]. split; [reflexivity|]. split; [reflexivity|]. split; [exact if_lang|].
  split; [apply (letters_lang [105; 102]); [repeat constructor; lia|discriminate]|]. split; [reflexivity|]. split; [reflexivity|]. vm_compute. reflexivity.
Qed.
(** No rule of state 0 matches \n. *)
Example C03_case : exists rs, setting 100 kx gx Ry my inp (pos false 0 11) /\ ids_plain kx Ry /\ rules_of Ry 0 rs /\ length rs = 5%nat /\
  rnone rs inp false 11 /\ (forall x, In x rs -> ~ rmatch x false []) /\
  lookup 100 100 kx my inp (pos false 0 11) =
    Ok ({| r_id := 65535; r_uid := 65535; r_first := 11; r_second := 12; r_bol := true; r_state := 0; r_stack := [] |}, None).
Proof.
  assert (SE : setting 100 kx gx Ry my inp (pos false 0 11)) by (apply Ry_setting; [lia|reflexivity]).
  assert (L : lookup 100 100 kx my inp (pos false 0 11) =
    Ok ({| r_id := 65535; r_uid := 65535; r_first := 11; r_second := 12; r_bol := true; r_state := 0; r_stack := [] |}, None)) by (vm_compute; reflexivity).
  pose proof (C01_lookup_follows_the_rules 100 kx gx Ry my inp (pos false 0 11) 100 100 SE (Rs_eager 8)) as H. rewrite L in H. destruct H as [H _].
  assert (M : rmisses kx Ry inp (pos false 0 11)).
  { assert (ID : forall r x r1, reats kx inp (rhits kx Ry inp) r x r1 -> gr_id x <> 65535 /\ gr_id x <> 65534 /\ gr_id x <> 0).
    { intros r x r1 (q & (rs & (gs & Eg & <-) & B) & _). assert (I : In x (gs_rules gs)).
      { destruct B as [(_ & (j & E & _) & _)|(_ & _ & (j & E & _))]; eapply nth_error_In; eauto. }
      apply nth_error_In in Eg. destruct Eg as [<-|[<-|[]]]; cbn in I; repeat (destruct I as [<-|I]; [cbn; lia|]); destruct I. }
    inversion H as [? ? ? E|? ? x ? _ E _ _ E1|? ? x r1 ? ? _ E E1 _|? ? x r1 ? ? _ E _ J _|? ? c ? E M|]; subst.
    - discriminate.
    - apply ID in E. cbn in E1. lia.
    - apply ID in E. change (skip_id kx) with 65534 in E1. lia.
    - apply ID in E. destruct J as [J|(J & _)]; [change (gr_eoi Ry) with 0 in J; lia|discriminate].
    - exact M. }
  destruct M as (rs & Hr & M1 & M2). exists rs. split; [exact SE|]. split; [exact Ry_plain|]. split; [exact Hr|]. split.
  { destruct Hr as (gs & Eg & <-). cbn in Eg. injection Eg as <-. reflexivity. }
  split; [exact M1|]. split; [exact M2|exact L].
Qed.

(** ** C04 *)
(** With abstemious repeats too: whatever is returned, skipped or joined is
    matched by a rule, and not by an earlier one. *)
Theorem C04_tokens_are_justified f k g R m inp r fuel inner : setting f k g R m inp r ->
  match lookup fuel inner k m inp r with
  | Ok (r', o) => rlooks k R inp (rjustified k R inp) (fun _ => True) (r_second r) r r' o /\ in_range R inp r'
  | Fuel => True
  | _ => False
  end.
Proof. intros H1. exact (lookup_justified f k g R m inp r H1 fuel inner). Qed.
Theorem C04_token_is_matched f k g R m inp r fuel inner r' o : setting f k g R m inp r -> f_rec k = false ->
  ids_plain k R -> lookup fuel inner k m inp r = Ok (r', o) -> r_id r' <> gr_eoi R -> r_id r' <> npos k ->
  exists rs x, rules_of R (r_state r) rs /\ In x rs /\ r_id r' = gr_id x /\ r_uid r' = gr_uid x /\
    r_first r' = r_second r /\ natural x (f_bol k && r_bol r) (text_of inp (r_first r') (r_second r')).
Proof. intros H1 H2 H3. exact (simple_justified f k g R m inp r H1 H2 H3 fuel inner r' o). Qed.
Print Assumptions C04_tokens_are_justified.
Print Assumptions C04_token_is_matched.
(** Rules #.*?f and [a-z]: the first stops at the first f. *)
Definition Rz : grules :=
  {| gr_eoi := 0;
     gr_states := [ {| gs_rules := [ rul [ch 35; cls [(0, 255)]; tok AZEROORMORE; ch 102] 1 0; rul [letters] 2 0 ];
                       gs_features := 0 |} ];
     gr_flags := {| zero_len_ok := false; suppressed_ok := false |} |}.
Definition mz := built Rz.
Example C04_case : setting 100 kx gx Rz mz inp (pos true 0 0) /\
  lookup 100 100 kx mz inp (pos true 0 0) =
    Ok ({| r_id := 1; r_uid := 65535; r_first := 0; r_second := 3; r_bol := false; r_state := 0; r_stack := [] |}, None).
Proof.
  split; [|vm_compute; reflexivity]. apply setting_gx; auto; try lia; vm_compute; reflexivity.
Qed.

(** ** C05, C08 *)
Theorem C05_built_lookup_returns f k g R m inp r fuel inner : setting f k g R m inp r ->
  zero_len_ok (gr_flags R) = false -> (length inp < fuel)%nat -> (length inp < inner)%nat ->
  exists r' o, lookup fuel inner k m inp r = Ok (r', o).
Proof. intros H1. exact (lookup_total f k g R m inp r H1 fuel inner). Qed.
Theorem C05_built_lookup_moves f k g R m inp r fuel inner r' : setting f k g R m inp r ->
  zero_len_ok (gr_flags R) = false -> f_adv k = true ->
  lookup fuel inner k m inp r = Ok (r', None) -> r_id r' <> gr_eoi R ->
  (r_second r < r_second r' <= length inp)%nat.
Proof. intros H1. exact (lookup_forward f k g R m inp r H1 fuel inner r'). Qed.
Theorem C05_built_loop_ends f k g R m inp r : setting f k g R m inp r ->
  zero_len_ok (gr_flags R) = false -> f_adv k = true -> f_rec k = false ->
  exists j r', (j <= length inp - r_second r + 1)%nat /\ calls k m inp j r r' /\ r_id r' = gr_eoi R.
Proof. intros H1. exact (loop_ends f k g R m inp r H1). Qed.
Theorem C08_built_lookup_is_defined f k g R m inp r fuel inner : setting f k g R m inp r ->
  lookup fuel inner k m inp r <> UB /\ forall r' o, lookup fuel inner k m inp r = Ok (r', o) -> in_range R inp r'.
Proof. intros H1. exact (lookup_defined f k g R m inp r H1 fuel inner). Qed.
Print Assumptions C05_built_lookup_returns.
Print Assumptions C05_built_lookup_moves.
Print Assumptions C05_built_loop_ends.
Print Assumptions C08_built_lookup_is_defined.
Example C05_case : setting 100 kx gx Rx mx inp (pos true 0 0) /\ zero_len_ok (gr_flags Rx) = false /\
  length inp = 14%nat /\ length (run 8 mx (pos true 0 0)) = 8%nat.
Proof. split; [apply Rx_setting; [lia|reflexivity]|]. vm_compute. auto. Qed.

(** ** C17 *)
Theorem C17_all_or_nothing f k R sm : wide_ok k -> rules_wf k R ->
  match build_into f k R sm with
  | (sm', Ok _) => build f k R = Ok sm' /\ forall other, fst (build_into f k R other) = sm'
  | (sm', Throw e) => sm' = sm /\ why_not k R e
  | (_, UB) => False
  | (_, Fuel) => True
  end.
Proof. exact (build_all_or_nothing f k R sm). Qed.
Theorem C17_build_ends k R : wide_ok k -> rules_wf k R ->
  exists f0, forall f, (f0 <= f)%nat -> build f k R <> Fuel.
Proof. exact (build_terminates k R). Qed.
(** Everything that is accepted is a sentence of the grammar, and a syntax error
    is reported only if something is not. *)
Theorem C17_accepted_rules_parse f k R m g r : wide_ok k -> rules_wf k R -> build f k R = Ok m ->
  In g (gr_states R) -> In r (gs_rules g) -> parses r.
Proof. exact (built_parses f k R m g r). Qed.
Theorem C17_syntax_errors f k R e : wide_ok k -> rules_wf k R -> build f k R = Throw e ->
  e = ESyntax \/ e = EInternal -> exists g r, In g (gr_states R) /\ In r (gs_rules g) /\ ~ parses r.
Proof. exact (syntax_sound f k R e). Qed.
Print Assumptions C17_all_or_nothing.
Print Assumptions C17_build_ends.
Print Assumptions C17_accepted_rules_parse.
Print Assumptions C17_syntax_errors.
Definition one (ts : list token) : grules :=
  {| gr_eoi := 0; gr_states := [ {| gs_rules := [rul ts 1 0]; gs_features := 0 |} ];
     gr_flags := {| zero_len_ok := false; suppressed_ok := false |} |}.
Example C17_built : rules_wf gx Rx /\ build_into 100 gx Rx no_machine = (mx, Ok tt) /\ mx <> no_machine.
Proof. split; [apply rules_wfb_ok; vm_compute; reflexivity|]. split; [vm_compute; reflexivity|]. vm_compute. discriminate. Qed.
(** "a|": a syntax error leaves the other machine alone. *)
Example C17_not_built : rules_wf gx (one [ch 97; tok OR]) /\
  build_into 100 gx (one [ch 97; tok OR]) mx = (mx, Throw ESyntax).
Proof. split; [apply rules_wfb_ok; vm_compute; reflexivity|]. vm_compute. reflexivity. Qed.

(** ** C18 *)
Theorem C18_zero_len_only_if f k R : wide_ok k -> rules_wf k R -> build f k R = Throw EZeroLen ->
  zero_len_ok (gr_flags R) = false /\ exists g r, In g (gr_states R) /\ In r (gs_rules g) /\ rmatch r false [].
Proof. exact (zero_len_sound f k R). Qed.
Theorem C18_zero_len_if f k R m : wide_ok k -> rules_wf k R -> zero_len_ok (gr_flags R) = false ->
  build f k R = Ok m -> forall g r, In g (gr_states R) -> In r (gs_rules g) -> ~ rmatch r false [].
Proof. exact (zero_len_complete f k R m). Qed.
Print Assumptions C18_zero_len_only_if.
Print Assumptions C18_zero_len_if.
Example C18_case : rules_wf gx (one [letters; tok ZEROORMORE]) /\
  build 100 gx (one [letters; tok ZEROORMORE]) = Throw EZeroLen.
Proof. split; [apply rules_wfb_ok; vm_compute; reflexivity|]. vm_compute. reflexivity. Qed.

(** ** C19 *)
Theorem C19_suppressed_only_if f k R : wide_ok k -> rules_wf k R -> N.of_nat (rule_count R) < 2 ^ g_bits k ->
  Forall (fun g => Forall eager (gs_rules g)) (gr_states R) -> build f k R = Throw ESuppressed ->
  suppressed_ok (gr_flags R) = false /\
  exists g j, In g (gr_states R) /\ (j < length (gs_rules g))%nat /\ ~ returnable (gs_rules g) j.
Proof. exact (suppressed_sound f k R). Qed.
Theorem C19_suppressed_if f k R m : wide_ok k -> rules_wf k R -> N.of_nat (rule_count R) < 2 ^ g_bits k ->
  suppressed_ok (gr_flags R) = false -> build f k R = Ok m ->
  forall g j, In g (gr_states R) -> (j < length (gs_rules g))%nat -> returnable (gs_rules g) j.
Proof. exact (suppressed_complete f k R m). Qed.
Print Assumptions C19_suppressed_only_if.
Print Assumptions C19_suppressed_if.
(** [a-z]+ hides the rule "if" behind it. *)
Definition Rh : grules :=
  {| gr_eoi := 0; gr_states := [ {| gs_rules := [rul [letters; tok ONEORMORE] 1 0; rul [ch 105; ch 102] 2 0]; gs_features := 0 |} ];
     gr_flags := {| zero_len_ok := false; suppressed_ok := false |} |}.
Example C19_case : rules_wf gx Rh /\ rule_count Rh = 2%nat /\ build 100 gx Rh = Throw ESuppressed.
Proof. split; [apply rules_wfb_ok; vm_compute; reflexivity|]. vm_compute. auto. Qed.

(** ** C30 *)
(** A rule all of whose words begin with ^ is matched only at the beginning of a
    line, also if it is skipped or joined. *)
Theorem C30_anchored_rules f k g R m inp r fuel inner r' o : setting f k g R m inp r ->
  lookup fuel inner k m inp r = Ok (r', o) ->
  rlooks k R inp (fun s x q => rjustified k R inp s x q /\ (anchored_rule x -> f_bol k = true /\ r_bol s = true))
    (fun _ => True) (r_second r) r r' o.
Proof. exact (lookup_anchored f k g R m inp r fuel inner r' o). Qed.
(** And a rule without ^ is matched there as everywhere else. *)
Theorem C30_plain_rules x bol cs : plain_rule x -> (rmatch x bol cs <-> rmatch x false cs).
Proof. exact (plain_match x bol cs). Qed.
(** Where lines begin: after the token the flag tells if its last character was
    a newline. *)
Theorem C30_bol_flag f k g R m inp r fuel inner r' : setting f k g R m inp r -> f_bol k = true -> f_adv k = true ->
  lookup fuel inner k m inp r = Ok (r', None) -> (r_second r < r_second r')%nat ->
  exists c, nth_error inp (r_second r' - 1) = Some c /\ r_bol r' = (c =? 10).
Proof. exact (lookup_bol f k g R m inp r fuel inner r'). Qed.
(** A rule some of whose words begin with ^ (^a|b) is matched by these at the
    beginning of a line and by the others elsewhere. *)
Theorem C30_mixed_rules f k g R m inp r fuel inner r' o : setting f k g R m inp r ->
  Forall (fun gs => Forall eager (gs_rules gs)) (gr_states R) -> lookup fuel inner k m inp r = Ok (r', o) ->
  rlooks k R inp (fun s x q => rhits k R inp s x q /\ ((r_second s < q)%nat -> has_anchor x ->
      if f_bol k && r_bol s then rule_lang x (CBol :: map CChar (text_of inp (r_second s) q)) else rule_lang x (map CChar (text_of inp (r_second s) q))))
    (rmisses k R inp) (r_second r) r r' o.
Proof. exact (lookup_mixed f k g R m inp r fuel inner r' o). Qed.
(** The other rules match as their words say: without ^ everywhere, with ^ at the
    beginning of a line. *)
Theorem C30_words_say r bol cs : plain_rule r \/ anchored_rule r -> (rmatch r bol cs <-> natural r bol cs).
Proof. exact (natural_rmatch r bol cs). Qed.
Print Assumptions C30_mixed_rules.
Print Assumptions C30_words_say.
Print Assumptions C30_anchored_rules.
Print Assumptions C30_plain_rules.
Print Assumptions C30_bol_flag.
Example C30_case : setting 100 kx gx Rx mx inp (pos true 0 0) /\
  anchored_rule (rul [tok BOL; ch 35; letters; tok ZEROORMORE] 3 0) /\
  run 1 mx (pos true 0 0) = [(3, 0%nat, 3%nat, 0)] /\ run 1 mx (pos false 0 0) = [(65535, 0%nat, 1%nat, 0)].
Proof.
  split; [apply Rx_setting; [lia|reflexivity]|]. split; [|vm_compute; auto].
  apply (anchored_tokens _ (tok BOL) [ch 35; letters; tok ZEROORMORE]); auto.
  - exists (tok BEGIN), (tok END). auto.
  - intros d v' [= <- <-]. reflexivity.
  - intros u t w E D. apply (top_orb_ok [ch 35; letters; tok ZEROORMORE] 0 eq_refl u t w E D).
  - apply no_bolb. reflexivity.
Qed.
(** The rule ^a|b is (^a)|b: it begins with ^ but is returned for a b inside a
    line; yet it is not returned for a b at the beginning of a line, as if it were
    the rule b inside a line and the rule ^a at its beginning. *)
Definition Ra : grules :=
  {| gr_eoi := 0; gr_states := [ {| gs_rules := [rul [tok BOL; ch 97; tok OR; ch 98] 1 0]; gs_features := fb_bol |} ];
     gr_flags := {| zero_len_ok := false; suppressed_ok := false |} |}.
Theorem C30_alternatives_refuted : exists m, build 100 gx Ra = Ok m /\
  (exists r, lookup 100 100 kx m [99; 98] (pos false 0 1) = Ok (r, None) /\ r_id r = 1 /\ r_second r = 2%nat) /\
  (exists r, lookup 100 100 kx m [98] (pos true 0 0) = Ok (r, None) /\ r_id r = npos kx) /\
  natural (rul [tok BOL; ch 97; tok OR; ch 98] 1 0) true [98].
Proof.
  exists (built Ra). split; [vm_compute; reflexivity|]. split; [|split].
  - eexists. split; [vm_compute; reflexivity|]. vm_compute. auto.
  - eexists. split; [vm_compute; reflexivity|]. vm_compute. auto.
  - left. exists [tok BOL; ch 97; tok OR; ch 98], (Some (XAlt (XCat XBol (XSet [(97, 97)])) (XSet [(98, 98)]))). split; [|split].
    + exists (tok BEGIN), (tok END). auto.
    + apply (g_or _ _ [tok BOL; ch 97] [ch 98] (tok OR)); auto.
      * apply g_regex. apply (g_cat _ _ [tok BOL] [ch 97]); [apply g_seq|]; apply g_expr; [now apply (g_bol (tok BOL))|now apply (g_set (ch 97))].
      * apply g_seq, g_expr. now apply (g_set (ch 98)).
    + right. exists 98. split; [|reflexivity]. left. exists 98, 98. split; [now left|lia].
Qed.
Print Assumptions C30_alternatives_refuted.
Example C30_mixed_case : setting 100 kx gx Ra (built Ra) [98; 97] (pos true 0 0) /\
  Forall (fun gs => Forall eager (gs_rules gs)) (gr_states Ra) /\
  has_anchor (rul [tok BOL; ch 97; tok OR; ch 98] 1 0) /\
  map (fun p => match lookup 100 100 kx (built Ra) [98; 97] p with Ok (r, None) => r_id r | _ => 77 end)
    [pos true 0 0; pos false 0 0; pos true 0 1; pos false 0 1] = [65535; 1; 1; 65535].
Proof.
  split; [constructor|].
  - split; reflexivity.
  - now left.
  - now apply rules_wfb_ok.
  - now apply targets_okb_ok.
  - intros gs x [<-|[]] [<-|[]]; discriminate.
  - vm_compute. reflexivity.
  - repeat constructor.
  - split; [reflexivity|]. split; [constructor|cbn; lia].
  - split; [repeat constructor|]. split; [|vm_compute; reflexivity].
    exists [CChar 97]. exists [tok BOL; ch 97; tok OR; ch 98], (Some (XAlt (XCat XBol (XSet [(97, 97)])) (XSet [(98, 98)]))). split; [|split].
    + exists (tok BEGIN), (tok END). auto.
    + apply (g_or _ _ [tok BOL; ch 97] [ch 98] (tok OR)); auto.
      * apply g_regex. apply (g_cat _ _ [tok BOL] [ch 97]); [apply g_seq|]; apply g_expr; [now apply (g_bol (tok BOL))|now apply (g_set (ch 97))].
      * apply g_seq, g_expr. now apply (g_set (ch 98)).
    + left. exists [CBol], [CChar 97]. split; [reflexivity|]. split; [reflexivity|]. exists 97. split; [|reflexivity]. left. exists 97, 97. split; [now left|lia].
Qed.

(** ** C32 *)
(** After a token the state is the one the matched rule names; its rules are the
    ones the next call uses, by C01. *)
Theorem C32_next_state f k g R m inp r fuel inner r' o : setting f k g R m inp r -> f_rec k = false -> f_multi k = true ->
  ids_plain k R -> lookup fuel inner k m inp r = Ok (r', o) -> r_id r' <> gr_eoi R -> r_id r' <> npos k ->
  (r_second r < r_second r')%nat ->
  exists rs x, rules_of R (r_state r) rs /\ In x rs /\ r_id r' = gr_id x /\ r_uid r' = gr_uid x /\
    natural x (f_bol k && r_bol r) (text_of inp (r_first r') (r_second r')) /\ r_state r' = gr_next x.
Proof. exact (simple_next f k g R m inp r fuel inner r' o). Qed.
Theorem C32_states_exist f k g R m inp n r r' : setting f k g R m inp r -> calls k m inp n r r' ->
  setting f k g R m inp r'.
Proof. exact (setting_calls f k g R m inp n r r'). Qed.
Print Assumptions C32_next_state.
Print Assumptions C32_states_exist.
Example C32_case : setting 100 kx gx Ry my inp (pos false 0 7) /\ ids_plain kx Ry /\
  run 2 my (pos false 0 7) = [(4, 7%nat, 8%nat, 1); (5, 8%nat, 10%nat, 1)] /\
  run 1 my (pos false 0 8) = [(2, 8%nat, 10%nat, 0)].
Proof. split; [apply Ry_setting; [lia|reflexivity]|]. split; [exact Ry_plain|]. vm_compute. auto. Qed.

(** ** C33: nested parentheses. State 0 pushes itself and enters state 1 on an
    open parenthesis; state 1 does so too and pops on a closing one. *)
Definition kr : cfg := {| f_bol := false; f_eol := false; f_multi := true; f_rec := true; f_adv := true;
                          c_bytes := 1; c_bits := 16 |}.
Definition rulp (ts : list token) (id next push : N) (pop : bool) : grule :=
  {| gr_tokens := tok BEGIN :: ts ++ [tok END]; gr_id := id; gr_uid := 65535; gr_next := next;
     gr_push := push; gr_pop := pop |}.
Definition Rn : grules :=
  {| gr_eoi := 0;
     gr_states := [ {| gs_rules := [ rulp [ch 40] 1 1 0 false; rul [letters] 2 0 ]; gs_features := fb_rec |};
                    {| gs_rules := [ rulp [ch 40] 3 1 1 false; rulp [ch 41] 4 65535 65535 true;
                                     rul [letters; tok ONEORMORE] 5 1 ]; gs_features := fb_rec |} ];
     gr_flags := {| zero_len_ok := false; suppressed_ok := false |} |}.
Definition mn := built Rn.
(* (a(b))c *)
Definition inp_n := [40; 97; 40; 98; 41; 41; 99].
Theorem C33_lookup_follows_the_stack f k g R m inp r fuel inner : setting f k g R m inp r ->
  Forall (fun gs => Forall eager (gs_rules gs)) (gr_states R) ->
  match lookup fuel inner k m inp r with
  | Ok (r', o) => rlex k R inp (r_second r) r r' o /\ in_range R inp r'
  | Fuel => True
  | _ => False
  end.
Proof. intros H1 H2. exact (lookup_rlex f k g R m inp r H1 fuel inner H2). Qed.
Print Assumptions C33_lookup_follows_the_stack.
Fixpoint stacks (n : nat) (r : results) : list (N * N * list (N * N)) :=
  match n with
  | O => []
  | S n' => match lookup 100 100 kr mn inp_n r with
            | Ok (r', None) => (r_id r', r_state r', r_stack r') :: stacks n' r'
            | _ => []
            end
  end.
Example C33_built_case : setting 100 kr gx Rn mn inp_n (pos false 0 0) /\
  stacks 8 (pos false 0 0) =
    [(1, 1, [(0, 1)]); (5, 1, [(0, 1)]); (3, 1, [(1, 3); (0, 1)]); (5, 1, [(1, 3); (0, 1)]);
     (4, 1, [(0, 1)]); (4, 0, []); (2, 0, []); (0, 0, [])].
Proof.
  split; [|vm_compute; reflexivity]. constructor.
  - split; reflexivity.
  - now left.
  - apply rules_wfb_ok. vm_compute. reflexivity.
  - apply targets_okb_ok. vm_compute. reflexivity.
  - reflexivity.
  - vm_compute. reflexivity.
  - repeat constructor.
  - split; [reflexivity|]. split; [constructor|cbn; lia].
Qed.
