(** Property C54: lexers with abstemious repeats. *)
From Verif Require Import Base StringToken StringTokenSpec RegexSpec StateMachine ReToken DfaSpec Grammar Tree Parser
  Generator Build ParserTree Lookup TableSpec LookupSpec RuleSpec RuleWords BuildSpec BuildLookup BuildErrs
  BuildThms BuildCheck LazySpec LazyLookup P_Build BolWords.
Local Open Scope N_scope.

(** ** C54: the longest match is given up only for a match of an abstemious rule,
    and a character is passed over only if no rule matches. *)
Theorem C54_lookup_with_abstemious_rules f k g R m inp r fuel inner : setting f k g R m inp r -> lazy_nonempty R ->
  match lookup fuel inner k m inp r with
  | Ok (r', o) => rlex_lazy k R inp (r_second r) r r' o /\ in_range R inp r'
  | Fuel => True
  | _ => False
  end.
Proof. exact (lookup_lazy f k g R m inp r fuel inner). Qed.
(** The plain case: no rule is skipped or joined, no recursion. *)
Theorem C54_token_taken f k g R m inp r fuel inner r' o rs x0 q0 : setting f k g R m inp r ->
  lazy_nonempty R -> f_rec k = false -> ids_plain k R ->
  lookup fuel inner k m inp r = Ok (r', o) ->
  rules_of R (r_state r) rs -> In x0 rs -> (r_second r < q0 <= length inp)%nat ->
  rmatch x0 (f_bol k && r_bol r) (text_of inp (r_second r) q0) ->
  o = None /\ r_first r' = r_second r /\
  exists x, rtakes rs inp (f_bol k && r_bol r) (r_second r) x (r_second r') /\
    r_id r' = gr_id x /\ r_uid r' = gr_uid x /\ r_state r' = (if f_multi k then gr_next x else r_state r).
Proof. intros H1 H2 H3 H4 H5. exact (lazy_takes f k g R m inp r H1 H2 H3 H4 fuel inner r' o H5 rs x0 q0). Qed.
(** When the hypothesis on abstemious rules holds. *)
Theorem C54_nonempty f g R m : wide_ok g -> rules_wf g R -> zero_len_ok (gr_flags R) = false ->
  build f g R = Ok m ->
  (forall gs x, In gs (gr_states R) -> In x (gs_rules gs) -> ~ eager x -> plain_rule x) -> lazy_nonempty R.
Proof. exact (lazy_nonempty_plain f g R m). Qed.
Print Assumptions C54_lookup_with_abstemious_rules.
Print Assumptions C54_token_taken.
Print Assumptions C54_nonempty.

(** #.*?f and [a-z]+: the first rule stops at the first f although it matches
    longer texts. The second one goes on to the end of the letters. *)
Definition Rl : grules :=
  {| gr_eoi := 0;
     gr_states := [ {| gs_rules := [ rul [ch 35; cls [(0, 255)]; tok AZEROORMORE; ch 102] 1 0;
                                     rul [letters; tok ONEORMORE] 2 0 ];
                       gs_features := 0 |} ];
     gr_flags := {| zero_len_ok := false; suppressed_ok := false |} |}.
Definition ml := built Rl.
Lemma Rl_setting p : (p <= 14)%nat -> setting 100 kx gx Rl ml inp (pos true 0 p).
Proof. intros Hp. apply setting_gx; auto; vm_compute; reflexivity. Qed.
Lemma Rl_nonempty : lazy_nonempty Rl.
Proof.
  destruct (Rl_setting 0) as [_ H1 H2 _ _ H3 _ _]; [lia|]. apply (C54_nonempty 100 gx Rl ml); auto.
  intros gs x [<-|[]] [<-|[<-|[]]] NE.
  - apply (plain_tokens _ [ch 35; cls [(0, 255)]; tok AZEROORMORE; ch 102]); [exists (tok BEGIN), (tok END); auto|].
    apply no_bolb. reflexivity.
  - exfalso. apply NE. reflexivity.
Qed.
Lemma Rl_rest q : (3 < q <= 14)%nat -> nth_error inp (q - 1) = Some 102 ->
  rmatch (rul [ch 35; cls [(0, 255)]; tok AZEROORMORE; ch 102] 1 0) true (text_of inp 0 q).
Proof.
  intros Hq E. right. split.
  { apply no_words_anchor. apply (plain_tokens _ [ch 35; cls [(0, 255)]; tok AZEROORMORE; ch 102]); [exists (tok BEGIN), (tok END); auto|]. apply no_bolb. reflexivity. }
  exists [ch 35; cls [(0, 255)]; tok AZEROORMORE; ch 102],
    (Some (XCat (XCat (XSet [(35, 35)]) (XStar (XSet [(0, 255)]))) (XSet [(102, 102)]))). split; [|split].
  - exists (tok BEGIN), (tok END). auto.
  - cbn. apply g_regex. apply (g_cat _ _ [ch 35; cls [(0, 255)]; tok AZEROORMORE] [ch 102]).
    + apply (g_cat _ _ [ch 35] [cls [(0, 255)]; tok AZEROORMORE]).
      * apply g_seq, g_expr. now apply (g_set (ch 35)).
      * apply (g_dup (XSet [(0, 255)]) [cls [(0, 255)]] (tok AZEROORMORE) XStar); [now apply (g_set (cls [(0, 255)]))|].
        apply dp_star. now right.
    + apply g_expr. now apply (g_set (ch 102)).
  - assert (Q : q = 6%nat \/ q = 14%nat).
    { do 15 (destruct q as [|q]; [cbn in E; (discriminate || lia || auto)|]). lia. }
    assert (ALL : forall cs, Forall (fun c => c <= 255) cs -> power (clang (XSet [(0, 255)])) (length cs) (map CChar cs)).
    { induction 1 as [|c cs Hc H IH]; [reflexivity|]. exists [CChar c], (map CChar cs). split; [reflexivity|]. split; [|exact IH].
      exists c. split; [|reflexivity]. left. exists 0, 255. split; [now left|lia]. }
    cbn [oclang clang]. exists (map CChar (text_of inp 0 (q - 1))), [CChar 102]. split; [|split].
    + destruct Q as [-> | ->]; reflexivity.
    + exists [CChar 35], (map CChar (text_of inp 1 (q - 1))). split; [destruct Q as [-> | ->]; reflexivity|]. split.
      * exists 35. split; [|reflexivity]. left. exists 35, 35. split; [now left|lia].
      * eexists. apply ALL. destruct Q as [-> | ->]; vm_compute; repeat constructor; discriminate.
    + exists 102. split; [|reflexivity]. left. exists 102, 102. split; [now left|lia].
Qed.
Example C54_case : setting 100 kx gx Rl ml inp (pos true 0 0) /\ lazy_nonempty Rl /\
  rmatch (rul [ch 35; cls [(0, 255)]; tok AZEROORMORE; ch 102] 1 0) true (text_of inp 0 14) /\
  run 1 ml (pos true 0 0) = [(1, 0%nat, 3%nat, 0)] /\ run 1 ml (pos true 0 4) = [(2, 4%nat, 7%nat, 0)].
Proof.
  split; [apply Rl_setting; lia|]. split; [exact Rl_nonempty|]. split; [|split; vm_compute; reflexivity].
  apply Rl_rest; [lia|reflexivity].
Qed.
