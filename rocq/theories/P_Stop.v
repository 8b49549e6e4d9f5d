(** Property C55: where a token with an abstemious repeat ends. *)
From Verif Require Import Base StringToken StringTokenSpec RegexSpec StateMachine ReToken DfaSpec Grammar Tree Parser
  Generator Build ParserTree Lookup TableSpec LookupSpec RuleSpec RuleWords BuildSpec BuildLookup BuildErrs
  BuildThms BuildCheck LazySpec LazyLookup LoopSpec StopSpec LoopWords LoopLookup P_Build P_Lazy BolWords.
Local Open Scope N_scope.

(** ** C55: lookup() never reads on after a match of a rule X L*? Y, where X and Y
    are characters and L a choice of characters that covers Y, unless another rule
    can go on. *)
Theorem C55_lookup_stops f k g R m inp r fuel inner : setting f k g R m inp r -> g_bytes g = 1 -> lazy_nonempty R ->
  match lookup fuel inner k m inp r with
  | Ok (r', o) => rlex_stop k R inp (r_second r) r r' o /\ in_range R inp r'
  | Fuel => True
  | _ => False
  end.
Proof. exact (lookup_stop f k g R m inp r fuel inner). Qed.
(** What such rules match. *)
Theorem C55_loop_words x ts X b bs z Y : rule_tokens x ts -> loop_tokens ts X b bs z Y ->
  forall bol cs, Forall (fun c => c <= 0x10ffff) cs -> rmatch x bol cs <-> loop_text X bs Y cs.
Proof. exact (loop_words x ts X b bs z Y). Qed.
(** The token is exactly the shortest text that the rule matches, if no other rule
    goes on after its opening characters (those from [r_second r] to [q0]). *)
Theorem C55_shortest_token f k g R m inp r fuel inner r' o rs i x q0 q : setting f k g R m inp r -> g_bytes g = 1 ->
  lazy_nonempty R -> f_rec k = false -> ids_plain k R ->
  lookup fuel inner k m inp r = Ok (r', o) ->
  rules_of R (r_state r) rs -> nth_error rs i = Some x -> loop_rule x ->
  (r_second r < q0 <= q)%nat -> (q <= length inp)%nat ->
  (forall j r' cs, j <> i -> nth_error rs j = Some r' ->
     ~ rmatch r' (f_bol k && r_bol r) (text_of inp (r_second r) q0 ++ cs)) ->
  (forall j r' q', j <> i -> nth_error rs j = Some r' -> (r_second r < q' < q0)%nat ->
     rmatch r' (f_bol k && r_bol r) (text_of inp (r_second r) q') -> eager r') ->
  rmatch x (f_bol k && r_bol r) (text_of inp (r_second r) q) ->
  (forall q', (r_second r < q' < q)%nat -> ~ rmatch x (f_bol k && r_bol r) (text_of inp (r_second r) q')) ->
  o = None /\ r_first r' = r_second r /\ r_second r' = q /\
  r_id r' = gr_id x /\ r_uid r' = gr_uid x /\ r_state r' = (if f_multi k then gr_next x else r_state r).
Proof.
  intros H1 H2 H3 H4 H5 H6. exact (stop_opener f k g R m inp r H1 H2 H3 H4 H5 fuel inner r' o H6 rs i x q0 q).
Qed.
(** The same with other rules that may go on, where they do not. *)
Theorem C55_stops_where_others_end f k g R m inp r fuel inner r' o rs x q : setting f k g R m inp r -> g_bytes g = 1 ->
  lazy_nonempty R -> f_rec k = false -> ids_plain k R ->
  lookup fuel inner k m inp r = Ok (r', o) ->
  rules_of R (r_state r) rs -> (r_second r < q <= length inp)%nat ->
  rstops rs inp (f_bol k && r_bol r) (r_second r) q x ->
  (forall q' x', (r_second r < q' < q)%nat ->
     rfirst_match rs (f_bol k && r_bol r) (text_of inp (r_second r) q') x' -> eager x') ->
  o = None /\ r_first r' = r_second r /\ r_second r' = q /\
  r_id r' = gr_id x /\ r_uid r' = gr_uid x /\ r_state r' = (if f_multi k then gr_next x else r_state r).
Proof.
  intros H1 H2 H3 H4 H5 H6. exact (stop_exact f k g R m inp r H1 H2 H3 H4 H5 fuel inner r' o H6 rs x q).
Qed.
Print Assumptions C55_lookup_stops.
Print Assumptions C55_loop_words.
Print Assumptions C55_shortest_token.
Print Assumptions C55_stops_where_others_end.

(** Comments [/][*](.|\n)*?[*][/] beside [/] and [a-z]+ on the text
      /*a*/b*/                                                              *)
Definition dot : token := cls [(0, 9); (11, 255)].
Definition comment : list token :=
  [ch 47; ch 42; tok OPENPAREN; dot; tok OR; ch 10; tok CLOSEPAREN; tok AZEROORMORE; ch 42; ch 47].
Definition comment_rules : list grule := [rul comment 1 0; rul [ch 47] 2 0; rul [letters; tok ONEORMORE] 3 0].
Definition Rc : grules :=
  {| gr_eoi := 0; gr_states := [ {| gs_rules := comment_rules; gs_features := 0 |} ];
     gr_flags := {| zero_len_ok := false; suppressed_ok := false |} |}.
Definition mc := built Rc.
Definition inpc := [47; 42; 97; 42; 47; 98; 42; 47].
Lemma Rc_setting : setting 100 kx gx Rc mc inpc (pos true 0 0).
Proof.
  constructor.
  - split; reflexivity.
  - now left.
  - now apply rules_wfb_ok.
  - now apply targets_okb_ok.
  - intros gs x [<-|[]] [<-|[<-|[<-|[]]]]; discriminate.
  - vm_compute. reflexivity.
  - repeat constructor.
  - split; [reflexivity|]. split; [constructor|cbn; lia].
Qed.
Lemma comment_tokens : rule_tokens (rul comment 1 0) comment.
Proof. exists (tok BEGIN), (tok END). auto. Qed.
Lemma comment_loop : loop_tokens comment [ch 47; ch 42] [tok OPENPAREN; dot; tok OR; ch 10; tok CLOSEPAREN] [dot; ch 10]
  (tok AZEROORMORE) [ch 42; ch 47].
Proof.
  constructor; auto; try discriminate; try (repeat constructor; reflexivity).
  - apply (choice_alts (tok OPENPAREN) dot [tok OR; ch 10] [ch 10] (tok CLOSEPAREN)); auto. repeat constructor.
  - intros y c [<-|[<-|[]]] (a & b & [[= <- <-]|[]] & Hc); exists dot; (split; [now left|]);
      exists 11, 255; (split; [right; now left|lia]).
Qed.
Lemma Rc_nonempty : lazy_nonempty Rc.
Proof.
  destruct Rc_setting as [_ H1 H2 _ _ H3 _ _]. apply (C54_nonempty 100 gx Rc mc); auto.
  intros gs x [<-|[]] [<-|[<-|[<-|[]]]] NE.
  - apply (plain_tokens _ comment); [exact comment_tokens|]. apply no_bolb. reflexivity.
  - exfalso. apply NE. reflexivity.
  - exfalso. apply NE. reflexivity.
Qed.
Lemma slash_words bol cs : rmatch (rul [ch 47] 2 0) bol cs -> cs = [47].
Proof.
  assert (T : rule_tokens (rul [ch 47] 2 0) [ch 47]) by (exists (tok BEGIN), (tok END); auto).
  assert (G : ogram (Some (XSet [(47, 47)])) [ch 47]) by (cbn; apply g_regex, g_seq, g_expr; now apply (g_set (ch 47))).
  intros M. apply (rmatch_natural _ bol bol) in M; [|auto]. revert M. unfold natural. rewrite !(rule_lang_o _ _ _ _ T G). cbn [oclang clang].
  intros [(c & [(a & b & [[= <- <-]|[]] & Hc)|(_ & lo & [[=]|[]] & _)] & E)|(_ & c & _ & E)]; [|discriminate].
  destruct cs as [|c' [|? ?]]; try discriminate. injection E as ->. f_equal. lia.
Qed.
Lemma letter_words bol c cs : rmatch (rul [letters; tok ONEORMORE] 3 0) bol (c :: cs) -> 97 <= c <= 122.
Proof.
  assert (T : rule_tokens (rul [letters; tok ONEORMORE] 3 0) [letters; tok ONEORMORE]) by (exists (tok BEGIN), (tok END); auto).
  assert (G : ogram (Some (XPlus (XSet [(97, 122)]))) [letters; tok ONEORMORE]).
  { cbn. apply g_regex, g_seq. apply (g_dup (XSet [(97, 122)]) [letters] (tok ONEORMORE) XPlus); [now apply (g_set letters)|].
    apply dp_plus. now left. }
  intros M. apply (rmatch_natural _ bol bol) in M; [|auto]. revert M. unfold natural. rewrite !(rule_lang_o _ _ _ _ T G). cbn [oclang clang].
  intros [(n & Hn & H)|(_ & n & Hn & H)]; (destruct n as [|n]; [lia|]); cbn [power] in H;
    destruct H as (u & v & E & (c' & [(a & b & [[= <- <-]|[]] & Hc)|(_ & lo & [[=]|[]] & _)] & ->) & _); cbn in E.
  - injection E as -> _. auto.
  - discriminate.
Qed.
Example C55_case : setting 100 kx gx Rc mc inpc (pos true 0 0) /\ lazy_nonempty Rc /\
  loop_rule (rul comment 1 0) /\
  rmatch (rul comment 1 0) true (text_of inpc 0 5) /\ rmatch (rul comment 1 0) true (text_of inpc 0 8) /\
  forall r' o, lookup 100 100 kx mc inpc (pos true 0 0) = Ok (r', o) -> r_second r' = 5%nat /\ r_id r' = 1.
Proof.
  assert (LO : forall p q, Forall (fun c => c <= 0x10ffff) (text_of inpc p q)).
  { intros p q. unfold text_of. assert (L : Forall (fun c => c <= 0x10ffff) inpc) by (repeat constructor; discriminate). rewrite Forall_forall in *.
    intros c Hc. apply L. rewrite <- (firstn_skipn p inpc). apply in_or_app. right. rewrite <- (firstn_skipn (q - p) (skipn p inpc)). apply in_or_app. now left. }
  assert (LW : forall bol cs, Forall (fun c => c <= 0x10ffff) cs -> rmatch (rul comment 1 0) bol cs <-> loop_text [ch 47; ch 42] [dot; ch 10] [ch 42; ch 47] cs)
    by (exact (C55_loop_words _ _ _ _ _ _ _ comment_tokens comment_loop)).
  assert (M1 : forall c, mem c (tk_str (ch c))) by (intros c; exists c, c; split; [now left|lia]).
  assert (MD : forall c, 10 < c <= 255 -> mem c (tk_str dot)) by (intros c Hc; exists 11, 255; split; [right; now left|lia]).
  assert (W5 : rmatch (rul comment 1 0) true (text_of inpc 0 5)).
  { apply LW; [apply LO|]. exists [47; 42], [97], [42; 47]. split; [reflexivity|]. split; [repeat constructor; apply M1|].
    split; [|repeat constructor; apply M1]. repeat constructor. exists dot. split; [now left|apply MD; lia]. }
  assert (W8 : rmatch (rul comment 1 0) true (text_of inpc 0 8)).
  { apply LW; [apply LO|]. exists [47; 42], [97; 42; 47; 98], [42; 47]. split; [reflexivity|]. split; [repeat constructor; apply M1|].
    split; [|repeat constructor; apply M1]. repeat constructor; exists dot; (split; [now left|apply MD; lia]). }
  assert (LR : loop_rule (rul comment 1 0)).
  { exists comment. do 5 eexists. split; [exact comment_tokens|exact comment_loop]. }
  split; [exact Rc_setting|]. split; [exact Rc_nonempty|]. split; [exact LR|]. split; [exact W5|]. split; [exact W8|].
  intros r' o HL.
  destruct (C55_shortest_token 100 kx gx Rc mc inpc (pos true 0 0) 100 100 r' o comment_rules 0 (rul comment 1 0) 2 5
    Rc_setting eq_refl Rc_nonempty eq_refl) as (_ & _ & E1 & E2 & _); auto.
  - intros gs x [<-|[]] [<-|[<-|[<-|[]]]]; split; discriminate.
  - eexists. split; reflexivity.
  - cbn. lia.
  - clear HL. intros j x cs Hj Ex M. destruct j as [|[|[|j]]]; try (cbn in Ex; destruct j; discriminate); [congruence| |];
      injection Ex as <-.
    + apply slash_words in M. discriminate.
    + apply letter_words in M. lia.
  - clear HL. intros j x q' Hj Ex _ _. destruct j as [|[|[|j]]]; try (cbn in Ex; destruct j; discriminate); [congruence| |];
      injection Ex as <-; reflexivity.
  - cbn [r_second pos]. intros q' Hq' M. apply LW in M as (u & v & w & E & F1 & _ & F3); [|apply LO].
    assert (L1 : length u = 2%nat) by (inversion F1 as [|? ? ? ? _ G]; inversion G as [|? ? ? ? _ G2]; inversion G2; auto).
    assert (L3 : length w = 2%nat) by (inversion F3 as [|? ? ? ? _ G]; inversion G as [|? ? ? ? _ G2]; inversion G2; auto).
    assert (L : length (text_of inpc 0 q') = (2 + length v + 2)%nat) by (rewrite E, !app_length; lia).
    assert (q' = 4%nat). { cbn in Hq'. destruct q' as [|[|[|[|[|q']]]]]; cbn in L; lia. }
    clear HL. subst q'. cbn in L. destruct v; [|cbn in L; lia]. destruct u as [|a [|b [|]]]; try discriminate.
    cbn in E. injection E as <- <- <-. inversion F3 as [|? ? ? ? Hm _]; subst. destruct Hm as (x & y & [[= <- <-]|[]] & Hc). lia.
Qed.

(** Where another rule goes on, the token ends neither at the first match nor with
    the other rule: a.*?b beside [a-z]+ takes the whole of acbcb1b. *)
Definition fence : list token := [ch 97; dot; tok AZEROORMORE; ch 98].
Definition Rf : grules :=
  {| gr_eoi := 0; gr_states := [ {| gs_rules := [rul fence 1 0; rul [letters; tok ONEORMORE] 2 0]; gs_features := 0 |} ];
     gr_flags := {| zero_len_ok := false; suppressed_ok := false |} |}.
Definition mf := built Rf.
Definition inpf := [97; 99; 98; 99; 98; 49; 98].
Theorem C55_other_rules_refuted : exists f k g R m inp r rs x r' q, setting f k g R m inp r /\ lazy_nonempty R /\
  rules_of R (r_state r) rs /\ nth_error rs 0 = Some x /\ loop_rule x /\
  lookup 100 100 k m inp r = Ok (r', None) /\ r_id r' = gr_id x /\ (r_second r < q < r_second r')%nat /\
  rmatch x (f_bol k && r_bol r) (text_of inp (r_second r) q).
Proof.
  assert (T : rule_tokens (rul fence 1 0) fence) by (exists (tok BEGIN), (tok END); auto).
  assert (LT : loop_tokens fence [ch 97] [dot] [dot] (tok AZEROORMORE) [ch 98]).
  { constructor; auto; try discriminate; try (repeat constructor; reflexivity).
    intros y c [<-|[]] (a & b & [[= <- <-]|[]] & Hc); exists dot; (split; [now left|]);
      exists 11, 255; (split; [right; now left|lia]). }
  assert (SE : setting 100 kx gx Rf mf inpf (pos true 0 0)).
  { constructor.
    - split; reflexivity.
    - now left.
    - now apply rules_wfb_ok.
    - now apply targets_okb_ok.
    - intros gs x [<-|[]] [<-|[<-|[]]]; discriminate.
    - vm_compute. reflexivity.
    - repeat constructor.
    - split; [reflexivity|]. split; [constructor|cbn; lia]. }
  exists 100%nat, kx, gx, Rf, mf, inpf, (pos true 0 0). do 3 eexists. exists 3%nat. split; [exact SE|]. split.
  { destruct SE as [_ H1 H2 _ _ H3 _ _]. apply (C54_nonempty 100 gx Rf mf); auto.
    intros gs x [<-|[]] [<-|[<-|[]]] NE; [|exfalso; apply NE; reflexivity].
    apply (plain_tokens _ fence); [exact T|]. apply no_bolb. reflexivity. }
  split; [eexists; split; reflexivity|]. split; [reflexivity|]. split; [do 6 eexists; split; [exact T|exact LT]|].
  split; [vm_compute; reflexivity|]. split; [reflexivity|]. split; [cbn; lia|].
  apply (C55_loop_words _ _ _ _ _ _ _ T LT); [repeat constructor; discriminate|]. exists [97], [99], [98].
  assert (M1 : forall c, mem c (tk_str (ch c))) by (intros c; exists c, c; split; [now left|lia]).
  split; [reflexivity|]. split; [repeat constructor; apply M1|]. split; [|repeat constructor; apply M1].
  repeat constructor. exists dot. split; [now left|]. exists 11, 255. split; [right; now left|lia].
Qed.
(** Nor do other abstemious repeats stop at the first match: a(bc?)+? alone takes
    abc although ab is a match. *)
Definition nested : list token :=
  [ch 97; tok OPENPAREN; ch 98; ch 99; tok OPT; tok CLOSEPAREN; tok AONEORMORE].
Definition Rn : grules :=
  {| gr_eoi := 0; gr_states := [ {| gs_rules := [rul nested 1 0]; gs_features := 0 |} ];
     gr_flags := {| zero_len_ok := false; suppressed_ok := false |} |}.
Definition mn := built Rn.
Definition inpn := [97; 98; 99; 98; 99].
Theorem C55_any_repeat_refuted : exists f k g R m inp r x r' q, setting f k g R m inp r /\
  rules_of R (r_state r) [x] /\ ~ eager x /\
  lookup 100 100 k m inp r = Ok (r', None) /\ r_id r' = gr_id x /\ (r_second r < q < r_second r')%nat /\
  rmatch x (f_bol k && r_bol r) (text_of inp (r_second r) q).
Proof.
  assert (T : rule_tokens (rul nested 1 0) nested) by (exists (tok BEGIN), (tok END); auto).
  assert (G : ogram (Some (XCat (XSet [(97, 97)]) (XPlus (XCat (XSet [(98, 98)]) (XOpt (XSet [(99, 99)])))))) nested).
  { cbn. apply g_regex. apply (g_cat _ _ [ch 97] [tok OPENPAREN; ch 98; ch 99; tok OPT; tok CLOSEPAREN; tok AONEORMORE]).
    - apply g_seq, g_expr. now apply (g_set (ch 97)).
    - apply (g_dup _ [tok OPENPAREN; ch 98; ch 99; tok OPT; tok CLOSEPAREN] (tok AONEORMORE) XPlus).
      + apply (g_paren _ [ch 98; ch 99; tok OPT] (tok OPENPAREN) (tok CLOSEPAREN)); [reflexivity| |reflexivity].
        apply g_regex. apply (g_cat _ _ [ch 98] [ch 99; tok OPT]).
        * apply g_seq, g_expr. now apply (g_set (ch 98)).
        * apply (g_dup (XSet [(99, 99)]) [ch 99] (tok OPT) XOpt); [now apply (g_set (ch 99))|]. apply dp_opt. now left.
      + apply dp_plus. now right. }
  exists 100%nat, kx, gx, Rn, mn, inpn, (pos true 0 0), (rul nested 1 0). eexists. exists 2%nat. split.
  { constructor.
    - split; reflexivity.
    - now left.
    - now apply rules_wfb_ok.
    - now apply targets_okb_ok.
    - intros gs x [<-|[]] [<-|[]]; discriminate.
    - vm_compute. reflexivity.
    - repeat constructor.
    - split; [reflexivity|]. split; [constructor|cbn; lia]. }
  split; [eexists; split; reflexivity|]. split; [discriminate|]. split; [vm_compute; reflexivity|]. split; [reflexivity|].
  split; [cbn; lia|]. right. split; [apply no_words_anchor, (plain_tokens _ nested T), no_bolb; reflexivity|]. apply (rule_lang_o _ _ _ _ T G). cbn [oclang clang].
  assert (M1 : forall c, SliceSpec.takes [(c, c)] c) by (intros c; left; exists c, c; split; [now left|lia]).
  exists [CChar 97], [CChar 98]. split; [reflexivity|]. split; [exists 97; auto|]. exists 1%nat. split; [lia|].
  exists [CChar 98], []. split; [reflexivity|]. split; [|reflexivity].
  exists [CChar 98], []. split; [reflexivity|]. split; [exists 98; auto|now left].
Qed.
Print Assumptions C55_other_rules_refuted.
Print Assumptions C55_any_repeat_refuted.
