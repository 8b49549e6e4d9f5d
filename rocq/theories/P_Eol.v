(** Properties C05, C08 and C31: lexers built from rules with $. *)
From Verif Require Import Base StringToken StringTokenSpec StateMachine ReToken DfaSpec Grammar Tree Parser
  Generator Build ParserTree Lookup TableSpec LookupSpec RuleSpec RuleWords TokeniseSpec BuildSpec BuildLookup
  BuildCheck EolSpec EolCheck EolLookup P_Build BolWords.
Local Open Scope N_scope.

(** ** Witness: the rules  [a-z]+$   [a-z]+   \n   *)
Definition ke : cfg := {| f_bol := true; f_eol := true; f_multi := false; f_rec := false; f_adv := true;
                          c_bytes := 1; c_bits := 16 |}.
Definition dollar : token := tok EOL.
Definition state1 (features : N) (rs : list grule) : grules :=
  {| gr_eoi := 0; gr_states := [ {| gs_rules := rs; gs_features := features |} ];
     gr_flags := {| zero_len_ok := false; suppressed_ok := false |} |}.
Definition Re : grules :=
  state1 fb_eol [ rul [letters; tok ONEORMORE; dollar] 1 0; rul [letters; tok ONEORMORE] 2 0; rul [ch 10] 3 0 ].
Definition me := built Re.
(* ab cd\nef *)
Definition inpe := [97; 98; 32; 99; 100; 10; 101; 102].
Lemma setting_e f R m p x : rules_fairb gx R = true -> targets_okb gx R = true ->
  forallb (fun g => forallb (fun x => negb (gr_pop x)) (gs_rules g)) (gr_states R) = true -> build f gx R = Ok m ->
  Forall (fun c => c < 256) x ->
  (p <= length x)%nat -> 0 < N.of_nat (length (gr_states R)) -> fair_setting f ke gx R m x (pos true 0 p).
Proof.
  intros H1 H2 HP H3 HF Hp Hs. constructor; auto.
  - split; reflexivity.
  - now left.
  - now apply rules_fairb_ok.
  - now apply targets_okb_ok.
  - intros gs y Hg Hy. rewrite forallb_forall in HP. specialize (HP gs Hg). cbv beta in HP.
    rewrite forallb_forall in HP. specialize (HP y Hy). destruct (gr_pop y); discriminate.
  - split; [exact Hs|]. split; [constructor|exact Hp].
Qed.
Lemma Re_setting p : (p <= 8)%nat -> fair_setting 100 ke gx Re me inpe (pos true 0 p).
Proof. intros Hp. apply setting_e; auto; try (vm_compute; reflexivity). repeat constructor. Qed.
Fixpoint rune (n : nat) (m : internals) (x : list N) (r : results) : list (N * nat * nat) :=
  match n with
  | O => []
  | S n =>
    match lookup 100 100 ke m x r with
    | Ok (r', _) => (r_id r', r_first r', r_second r') :: rune n m x r'
    | _ => []
    end
  end.
Example C31_run : rune 6 me inpe (pos true 0 0) =
  [(2, 0%nat, 2%nat); (65535, 2%nat, 3%nat); (1, 3%nat, 5%nat); (3, 5%nat, 6%nat); (1, 6%nat, 8%nat); (0, 8%nat, 8%nat)].
Proof. vm_compute. reflexivity. Qed.

(** ** C08: any rules, $ and ^ anywhere *)
Theorem C08_any_rules_lookup_is_defined f k g R m inp r fuel inner : fair_setting f k g R m inp r ->
  match lookup fuel inner k m inp r with
  | Ok (r', _) => in_range R inp r'
  | Fuel => True
  | _ => False
  end.
Proof. intros H. exact (line_defined f k g R m inp r H fuel inner). Qed.
Print Assumptions C08_any_rules_lookup_is_defined.
Example C08_any_rules_case : fair_setting 100 ke gx Re me inpe (pos true 0 3).
Proof. apply Re_setting. lia. Qed.

(** ** C05 *)
(** $ is last, as the tokeniser has it; no rule can match the empty text, at an
    end of line or elsewhere. *)
Theorem C05_any_rules_lookup_returns f k g R m inp r fuel inner : fair_setting f k g R m inp r ->
  each_rule R dollar_last -> each_rule R substantial ->
  (length inp < fuel)%nat -> (length inp * 2 + 1 < inner)%nat ->
  exists r' o, lookup fuel inner k m inp r = Ok (r', o).
Proof. intros H1 H2 H3. exact (line_total f k g R m inp r H1 1 fuel inner (each_consumes R H2 H3) (each_bounded R H2)). Qed.
Theorem C05_any_rules_lookup_moves f k g R m inp r fuel inner r' : fair_setting f k g R m inp r ->
  each_rule R dollar_last -> each_rule R substantial -> f_adv k = true ->
  lookup fuel inner k m inp r = Ok (r', None) -> r_id r' <> gr_eoi R ->
  (r_second r < r_second r' <= length inp)%nat.
Proof. intros H1 H2 H3. exact (line_forward f k g R m inp r H1 fuel inner r' (each_consumes R H2 H3)). Qed.
Theorem C05_any_rules_loop_ends f k g R m inp r : fair_setting f k g R m inp r ->
  each_rule R dollar_last -> each_rule R substantial -> f_adv k = true -> f_rec k = false ->
  exists j r', (j <= length inp - r_second r + 1)%nat /\ calls k m inp j r r' /\ r_id r' = gr_eoi R.
Proof. intros H1 H2 H3. exact (line_loop_ends f k g R m inp r H1 1 (each_consumes R H2 H3) (each_bounded R H2)). Qed.
Print Assumptions C05_any_rules_lookup_returns.
Print Assumptions C05_any_rules_lookup_moves.
Print Assumptions C05_any_rules_loop_ends.
Lemma rul_last ts i u : eol_lastb ts = true -> dollar_last (rul ts i u).
Proof.
  intros H. exists ts. split; [|now apply eol_lastb_ok]. exists (tok BEGIN), (tok END). auto.
Qed.
Lemma Re_last : each_rule Re dollar_last.
Proof.
  intros gs x [<-|[]] Hx. cbn in Hx. destruct Hx as [<-|[<-|[<-|[]]]]; now apply rul_last.
Qed.
(** The expressions of the three rules. *)
Definition xa := XPlus (XSet [(97, 122)]).
Lemma xa_gram : gram GSeq xa [letters; tok ONEORMORE].
Proof.
  apply g_seq. apply (g_dup (XSet [(97, 122)]) [letters] (tok ONEORMORE) XPlus).
  - now apply (g_set letters).
  - apply dp_plus. now left.
Qed.
Lemma lang1 w : rule_lang (rul [letters; tok ONEORMORE; dollar] 1 0) w <-> clang (XCat xa XEol) w.
Proof.
  apply (rule_lang_o _ [letters; tok ONEORMORE; dollar] (Some (XCat xa XEol))).
  - exists (tok BEGIN), (tok END). auto.
  - cbn. apply g_regex. apply (g_cat xa XEol [letters; tok ONEORMORE] [dollar] xa_gram). apply g_expr. now apply g_eol.
Qed.
Lemma lang2 w : rule_lang (rul [letters; tok ONEORMORE] 2 0) w <-> clang xa w.
Proof.
  apply (rule_lang_o _ [letters; tok ONEORMORE] (Some xa)).
  - exists (tok BEGIN), (tok END). auto.
  - cbn. apply g_regex, xa_gram.
Qed.
Lemma lang3 w : rule_lang (rul [ch 10] 3 0) w <-> clang (XSet [(10, 10)]) w.
Proof.
  apply (rule_lang_o _ [ch 10] (Some (XSet [(10, 10)]))).
  - exists (tok BEGIN), (tok END). auto.
  - cbn. apply g_regex, g_seq, g_expr. now apply (g_set (ch 10)).
Qed.
Lemma xa_char w : clang xa w -> exists c v, w = CChar c :: v.
Proof.
  intros (n & Hn & H). destruct n as [|n]; [lia|]. destruct H as (u & v & -> & (c & _ & ->) & _).
  exists c, v. reflexivity.
Qed.
Lemma chars_first r : (forall w, rule_lang r w -> exists c v, w = CChar c :: v) -> substantial r.
Proof.
  intros H. split; [intros M|intros [M|M]]; apply H in M as (c & v & E); discriminate E.
Qed.
Lemma Re_substantial : each_rule Re substantial.
Proof.
  intros gs x [<-|[]] Hx. cbn in Hx. destruct Hx as [<-|[<-|[<-|[]]]]; apply chars_first; intros w Hw.
  - apply lang1 in Hw as (u & v & -> & Hu & _). apply xa_char in Hu as (c & u' & ->). exists c, (u' ++ v). reflexivity.
  - apply lang2 in Hw. now apply xa_char.
  - apply lang3 in Hw as (c & _ & ->). exists c, []. reflexivity.
Qed.
Example C05_any_rules_case : fair_setting 100 ke gx Re me inpe (pos true 0 3) /\ each_rule Re dollar_last /\
  each_rule Re substantial.
Proof. split; [apply Re_setting; lia|]. split; [exact Re_last|exact Re_substantial]. Qed.
(** The rule $ alone is accepted by build() and matches nothing for ever. *)
Theorem C05_dollar_alone_refuted : exists R m, build 100 gx R = Ok m /\ zero_len_ok (gr_flags R) = false /\
  each_rule R dollar_last /\
  fair_setting 100 ke gx R m [97; 10] (pos true 0 1) /\
  lookup 100 100 ke m [97; 10] (pos true 0 1) =
    Ok ({| r_id := 1; r_uid := 65535; r_first := 1; r_second := 1; r_bol := true; r_state := 0; r_stack := [] |}, None).
Proof.
  set (R := state1 fb_eol [rul [dollar] 1 0; rul [ch 97] 2 0]). exists R, (built R).
  split; [vm_compute; reflexivity|]. split; [reflexivity|]. split; [|split].
  - intros gs x [<-|[]] Hx. cbn in Hx. destruct Hx as [<-|[<-|[]]]; now apply rul_last.
  - apply setting_e; auto; try (vm_compute; reflexivity). { repeat constructor. } cbn; lia.
  - vm_compute. reflexivity.
Qed.
Print Assumptions C05_dollar_alone_refuted.

(** ** C31 *)
(** If all rules with the returned id end with $, the token stands at the end of
    a line. *)
Theorem C31_dollar_only_at_line_ends f k g R m inp r fuel inner r' : fair_setting f k g R m inp r ->
  lookup fuel inner k m inp r = Ok (r', None) -> r_id r' <> npos k -> r_id r' <> gr_eoi R ->
  each_rule R (fun x => gr_id x = r_id r' -> ends_line x) -> at_line_end inp (r_second r').
Proof. intros H. exact (line_end_only f k g R m inp r H fuel inner r'). Qed.
(** A rule whose last token is $, without | outside parentheses, ends with $. *)
Theorem C31_dollar_at_the_end x v e : rule_tokens x (v ++ [e]) -> tk_type e = EOL -> no_top_or v -> ends_line x.
Proof. exact (ends_tokens x v e). Qed.
Print Assumptions C31_dollar_only_at_line_ends.
Print Assumptions C31_dollar_at_the_end.
Example C31_case : fair_setting 100 ke gx Re me inpe (pos true 0 3) /\
  lookup 100 100 ke me inpe (pos true 0 3) =
    Ok ({| r_id := 1; r_uid := 65535; r_first := 3; r_second := 5; r_bol := false; r_state := 0; r_stack := [] |}, None) /\
  each_rule Re (fun x => gr_id x = 1 -> ends_line x).
Proof.
  split; [apply Re_setting; lia|]. split; [vm_compute; reflexivity|].
  intros gs x [<-|[]] Hx E. cbn in Hx. destruct Hx as [<-|[<-|[<-|[]]]]; [|discriminate|discriminate].
  apply (ends_tokens _ [letters; tok ONEORMORE] dollar).
  - exists (tok BEGIN), (tok END). auto.
  - reflexivity.
  - intros u t q Eq _. destruct u as [|? [|? [|? ?]]]; cbn in Eq; injection Eq as <-; subst; try discriminate.
    all: injection H as <-; discriminate.
Qed.

(** (a|b)$, a\nx and b\ny share the state reached by the end of line: b\nx is
    returned as the second rule, which does not match it. *)
Definition Rc : grules :=
  state1 fb_eol [ rul [tok OPENPAREN; ch 97; tok OR; ch 98; tok CLOSEPAREN; dollar] 1 0;
                  rul [ch 97; ch 10; ch 120] 2 0; rul [ch 98; ch 10; ch 121] 3 0 ].
Theorem C31_other_rules_change_refuted : exists m r' x, build 100 gx Rc = Ok m /\
  fair_setting 100 ke gx Rc m [98; 10; 120] (pos true 0 0) /\
  lookup 100 100 ke m [98; 10; 120] (pos true 0 0) = Ok (r', None) /\ r_id r' = 2 /\ r_second r' = 3%nat /\
  x = rul [ch 97; ch 10; ch 120] 2 0 /\ each_rule Rc (fun y => gr_id y = 2 -> y = x) /\
  forall bol, ~ rmatch x bol [98; 10; 120].
Proof.
  exists (built Rc), {| r_id := 2; r_uid := 65535; r_first := 0; r_second := 3; r_bol := false; r_state := 0; r_stack := [] |},
    (rul [ch 97; ch 10; ch 120] 2 0).
  split; [vm_compute; reflexivity|]. split; [apply setting_e; auto; try (vm_compute; reflexivity); try lia; repeat constructor|].
  split; [vm_compute; reflexivity|]. split; [reflexivity|]. split; [reflexivity|]. split; [reflexivity|]. split.
  - intros gs y [<-|[]] Hy E. cbn in Hy. destruct Hy as [<-|[<-|[<-|[]]]]; [discriminate|reflexivity|discriminate].
  - assert (L : forall w, rule_lang (rul [ch 97; ch 10; ch 120] 2 0) w <->
      clang (XCat (XCat (XSet [(97, 97)]) (XSet [(10, 10)])) (XSet [(120, 120)])) w).
    { intros w. apply (rule_lang_o _ [ch 97; ch 10; ch 120] (Some (XCat (XCat (XSet [(97, 97)]) (XSet [(10, 10)])) (XSet [(120, 120)])))).
      - exists (tok BEGIN), (tok END). auto.
      - cbn. apply g_regex. apply (g_cat _ _ [ch 97; ch 10] [ch 120]); [apply (g_cat _ _ [ch 97] [ch 10]); [apply g_seq|]|];
          apply g_expr. { now apply (g_set (ch 97)). } { now apply (g_set (ch 10)). } { now apply (g_set (ch 120)). } }
    intros bol MM. apply (rmatch_natural _ bol bol) in MM; [|auto]. destruct MM as [M|[_ M]]; apply L in M as (u & v & E & (u1 & u2 & -> & (c & Hc & ->) & _) & _); [|discriminate].
    cbn in E. injection E as <- _. destruct Hc as [(lo & hi & [[= <- <-]|[]] & Hc)|(_ & lo & [I|[]] & _)]; [lia|discriminate].
Qed.
Print Assumptions C31_other_rules_change_refuted.
(** The remaining treatment of clashes is undefined behaviour for simple rules:
    a$ with a+$, and a class with \r before $, as in a.$ *)
Theorem C31_two_dollars_undefined_refuted : exists R, rules_fair gx R /\ each_rule R dollar_last /\
  build 100 gx R = UB.
Proof.
  exists (state1 fb_eol [rul [ch 97; dollar] 1 0; rul [ch 97; tok ONEORMORE; dollar] 2 0]).
  split; [apply rules_fairb_ok; vm_compute; reflexivity|]. split; [|vm_compute; reflexivity].
  intros gs x [<-|[]] Hx. cbn in Hx. destruct Hx as [<-|[<-|[]]]; now apply rul_last.
Qed.
Theorem C31_dot_dollar_undefined_refuted : exists R, rules_fair gx R /\ each_rule R dollar_last /\
  length (gr_states R) = 1%nat /\ build 100 gx R = UB.
Proof.
  exists (state1 fb_eol [rul [ch 97; cls [(0, 9); (11, 255)]; dollar] 1 0]).
  split; [apply rules_fairb_ok; vm_compute; reflexivity|]. split; [|split; [reflexivity|vm_compute; reflexivity]].
  intros gs x [<-|[]] Hx. cbn in Hx. destruct Hx as [<-|[]]; now apply rul_last.
Qed.
Print Assumptions C31_two_dollars_undefined_refuted.
Print Assumptions C31_dot_dollar_undefined_refuted.
(** [a-z]+$ suppresses [a-z]+\n: build() throws, although the two rules match
    different texts. *)
Theorem C31_suppression_refuted : exists R x, rules_fair gx R /\ each_rule R dollar_last /\
  each_rule R (fun y => y = x \/ ends_line y) /\ rmatch x false [97; 10] /\ build 100 gx R = Throw ESuppressed.
Proof.
  exists (state1 fb_eol [rul [letters; tok ONEORMORE; dollar] 1 0; rul [letters; tok ONEORMORE; ch 10] 2 0]),
    (rul [letters; tok ONEORMORE; ch 10] 2 0).
  split; [apply rules_fairb_ok; vm_compute; reflexivity|]. split.
  { intros gs x [<-|[]] Hx. cbn in Hx. destruct Hx as [<-|[<-|[]]]; now apply rul_last. }
  split.
  { intros gs x [<-|[]] Hx. cbn in Hx. destruct Hx as [<-|[<-|[]]]; [right|now left].
    apply (ends_tokens _ [letters; tok ONEORMORE] dollar).
    - exists (tok BEGIN), (tok END). auto.
    - reflexivity.
    - intros u t q Eq _. destruct u as [|? [|? [|? ?]]]; cbn in Eq; injection Eq as <-; subst; try discriminate.
      all: injection H as <-; discriminate. }
  split; [|vm_compute; reflexivity].
  apply (rule_lang_o _ [letters; tok ONEORMORE; ch 10] (Some (XCat xa (XSet [(10, 10)])))).
  - exists (tok BEGIN), (tok END). auto.
  - cbn. apply g_regex. apply (g_cat _ _ [letters; tok ONEORMORE] [ch 10] xa_gram). apply g_expr. now apply (g_set (ch 10)).
  - exists [CChar 97], [CChar 10]. split; [reflexivity|]. split.
    + exists 1%nat. split; [lia|]. exists [CChar 97], []. split; [reflexivity|]. split; [|reflexivity].
      exists 97. split; [|reflexivity]. left. exists 97, 122. split; [now left|lia].
    + exists 10. split; [|reflexivity]. left. exists 10, 10. split; [now left|lia].
Qed.
Print Assumptions C31_suppression_refuted.
(** Where both match, the rule with $ is preferred to an earlier rule without. *)
Theorem C31_priority_refuted : exists R m r', R = state1 fb_eol [rul [ch 97; ch 98] 1 0; rul [ch 97; ch 98; dollar] 2 0] /\
  build 100 gx R = Ok m /\ fair_setting 100 ke gx R m [97; 98; 10] (pos true 0 0) /\
  lookup 100 100 ke m [97; 98; 10] (pos true 0 0) = Ok (r', None) /\ r_id r' = 2.
Proof.
  set (R := state1 fb_eol [rul [ch 97; ch 98] 1 0; rul [ch 97; ch 98; dollar] 2 0]).
  exists R, (built R), {| r_id := 2; r_uid := 65535; r_first := 0; r_second := 2; r_bol := false; r_state := 0; r_stack := [] |}.
  split; [reflexivity|]. split; [vm_compute; reflexivity|].
  split; [apply setting_e; auto; try (vm_compute; reflexivity); try (cbn; lia); repeat constructor|].
  split; [vm_compute; reflexivity|reflexivity].
Qed.
Print Assumptions C31_priority_refuted.
