(** C58: greedy repeats in abstemious rules. *)
From Verif Require Import Base StringToken StringTokenSpec RegexSpec StateMachine ReToken DfaSpec Grammar
  Tree Parser Generator Build Lookup TableSpec LookupSpec BuildCheck RuleSpec RuleWords BuildSpec BuildMachine BuildThms
  LazySpec P_Build P_Lazy LoopSpec StopSpec P_Stop MarkSpec MarkWords KeptSpec HardLookup BolWords.
Local Open Scope N_scope.

(** The marked words of a rule are its words. *)
Theorem C58_marks_words : forall r w, w <> [] ->
  (rule_lang r w <-> exists W, rule_marks r W /\ map fst W = w).
Proof. exact marks_words. Qed.
Theorem C58_goes_on_match : forall y bol cs c cs', goes_on y bol cs c cs' -> rmatch y bol (cs ++ c :: cs').
Proof. exact goes_on_match. Qed.

(** What lookup() returns: no token ends where a rule goes on with a further
    round of a greedy repeat. *)
Theorem C58_lookup_kept : forall f k g R m inp r fuel inner,
  setting f k g R m inp r -> lazy_nonempty R ->
  match lookup fuel inner k m inp r with
  | Ok (r', o) => rlex_kept k R inp (r_second r) r r' o /\ in_range R inp r'
  | Fuel => True
  | _ => False
  end.
Proof. exact lookup_kept. Qed.
Theorem C58_token_kept : forall f k g R m inp r fuel inner r' o rs x0 q0,
  setting f k g R m inp r -> lazy_nonempty R -> f_rec k = false -> ids_plain k R ->
  lookup fuel inner k m inp r = Ok (r', o) ->
  rules_of R (r_state r) rs -> In x0 rs -> (r_second r < q0 <= length inp)%nat ->
  rmatch x0 (f_bol k && r_bol r) (text_of inp (r_second r) q0) ->
  o = None /\ r_first r' = r_second r /\
  exists x, rtakes_kept rs inp (f_bol k && r_bol r) (r_second r) x (r_second r') /\
    r_id r' = gr_id x /\ r_uid r' = gr_uid x /\ r_state r' = (if f_multi k then gr_next x else r_state r).
Proof. exact kept_token. Qed.
Print Assumptions C58_marks_words.
Print Assumptions C58_goes_on_match.
Print Assumptions C58_lookup_kept.
Print Assumptions C58_token_kept.

(** a.*?b+ takes acbbb out of acbbbcb: it matches acb, goes on with b as a round of
    the greedy +, and gives up the longer match acbbbcb. *)
Definition tail : list token := [ch 97; dot; tok AZEROORMORE; ch 98; tok ONEORMORE].
Definition Rt : grules :=
  {| gr_eoi := 0; gr_states := [ {| gs_rules := [rul tail 1 0]; gs_features := 0 |} ];
     gr_flags := {| zero_len_ok := false; suppressed_ok := false |} |}.
Definition mt := built Rt.
Definition inpt := [97; 99; 98; 98; 98; 99; 98].
Lemma tail_tokens : rule_tokens (rul tail 1 0) tail.
Proof. exists (tok BEGIN), (tok END). auto. Qed.
Lemma Rt_setting : setting 100 kx gx Rt mt inpt (pos true 0 0).
Proof.
  constructor.
  - split; reflexivity.
  - now left.
  - now apply rules_wfb_ok.
  - now apply targets_okb_ok.
  - intros gs x [<-|[]] [<-|[]]; discriminate.
  - vm_compute. reflexivity.
  - repeat constructor.
  - split; [reflexivity|]. split; [constructor|cbn; lia].
Qed.
Lemma Rt_nonempty : lazy_nonempty Rt.
Proof.
  destruct Rt_setting as [_ H1 H2 _ _ H3 _ _]. apply (C54_nonempty 100 gx Rt mt); auto.
  intros gs x [<-|[]] [<-|[]] NE. apply (plain_tokens _ tail); [exact tail_tokens|]. apply no_bolb. reflexivity.
Qed.
Lemma mem1 c : mem c [(c, c)].
Proof. exists c, c. split; [now left|lia]. Qed.
(** The token cannot end after acb or acbb. *)
Lemma tail_goes_on n : (n < 2)%nat ->
  goes_on (rul tail 1 0) true (text_of inpt 0 (3 + n)) 98 (text_of inpt (4 + n) 5).
Proof.
  intros Hn. exists ([(CChar 97, false); (CChar 99, false); (CChar 98, false)] ++ repeat (CChar 98, true) n), (repeat (CChar 98, true) (1 - n)).
  assert (NA : ~ has_anchor (rul tail 1 0)) by (apply no_words_anchor, (plain_tokens _ tail tail_tokens), no_bolb; reflexivity).
  split; [|split; [right; split; [exact NA|]|]; destruct n as [|[|n]]; [reflexivity|reflexivity|lia|reflexivity|reflexivity|lia]].
  exists tail. eexists. split; [exact tail_tokens|]. split.
  - apply m_regex. eapply (m_cat _ _ [ch 97; dot; tok AZEROORMORE] [ch 98; tok ONEORMORE]).
    + eapply (m_cat _ _ [ch 97] [dot; tok AZEROORMORE]); [apply m_seq, m_expr; now apply (m_set (ch 97))|].
      eapply (m_dup _ [dot] (tok AZEROORMORE) false 0 None); [now apply (m_set dot)|now apply md_astar].
    + eapply (m_dup _ [ch 98] (tok ONEORMORE) true 1 None); [now apply (m_set (ch 98))|now apply md_plus].
  - cbn [mlang]. exists [(CChar 97, false); (CChar 99, false)], ((CChar 98, false) :: repeat (CChar 98, true) 2).
    split; [destruct n as [|[|n]]; [reflexivity|reflexivity|lia]|]. split.
    + exists [(CChar 97, false)], [(CChar 99, false)]. split; [reflexivity|]. split; [exists 97; split; [left; apply mem1|auto]|].
      exists [], [(CChar 99, false)], 1%nat. split; [reflexivity|]. split; [reflexivity|]. split; [exact I|].
      exists [(CChar 99, false)], []. split; [reflexivity|]. split; [|reflexivity]. eexists. split; [|reflexivity].
      exists 99. split; [|auto]. left. exists 11, 255. split; [right; now left|lia].
    + exists [(CChar 98, false)], (repeat (CChar 98, true) 2), 2%nat. split; [reflexivity|]. split; [|split; [exact I|]].
      * exists [(CChar 98, false)], []. split; [reflexivity|]. split; [|reflexivity]. exists 98. split; [left; apply mem1|auto].
      * assert (X : exists y, (exists c, SliceSpec.takes [(98, 98)] c /\ y = [(CChar c, false)]) /\ [(CChar 98, true)] = begin_mark y).
        { exists [(CChar 98, false)]. split; [|reflexivity]. exists 98. split; [left; apply mem1|auto]. }
        exists [(CChar 98, true)], [(CChar 98, true)]. split; [reflexivity|]. split; [exact X|].
        exists [(CChar 98, true)], []. split; [reflexivity|]. split; [exact X|reflexivity].
Qed.
Example C58_case : setting 100 kx gx Rt mt inpt (pos true 0 0) /\ lazy_nonempty Rt /\
  (forall n, (n < 2)%nat -> goes_on (rul tail 1 0) true (text_of inpt 0 (3 + n)) 98 (text_of inpt (4 + n) 5)) /\
  (exists r', lookup 100 100 kx mt inpt (pos true 0 0) = Ok (r', None) /\ r_second r' = 5%nat /\ r_id r' = 1).
Proof.
  split; [exact Rt_setting|]. split; [exact Rt_nonempty|]. split; [exact tail_goes_on|].
  eexists. split; [vm_compute; reflexivity|]. split; reflexivity.
Qed.
(** x(a*b)*? takes x out of xb but not out of xab: the round of a* that begins with
    a is greedy. *)
Definition inner : list token :=
  [ch 120; tok OPENPAREN; ch 97; tok ZEROORMORE; ch 98; tok CLOSEPAREN; tok AZEROORMORE].
Definition Ri : grules :=
  {| gr_eoi := 0; gr_states := [ {| gs_rules := [rul inner 1 0]; gs_features := 0 |} ];
     gr_flags := {| zero_len_ok := false; suppressed_ok := false |} |}.
Definition mi := built Ri.
Lemma inner_tokens : rule_tokens (rul inner 1 0) inner.
Proof. exists (tok BEGIN), (tok END). auto. Qed.
Example C58_inner_case : setting 100 kx gx Ri mi [120; 97; 98] (pos true 0 0) /\ lazy_nonempty Ri /\
  goes_on (rul inner 1 0) true [120] 97 [98] /\
  (exists r', lookup 100 100 kx mi [120; 97; 98] (pos true 0 0) = Ok (r', None) /\ r_second r' = 3%nat) /\
  (exists r', lookup 100 100 kx mi [120; 98] (pos true 0 0) = Ok (r', None) /\ r_second r' = 1%nat).
Proof.
  assert (SE : setting 100 kx gx Ri mi [120; 97; 98] (pos true 0 0)).
  { constructor.
    - split; reflexivity.
    - now left.
    - now apply rules_wfb_ok.
    - now apply targets_okb_ok.
    - intros gs x [<-|[]] [<-|[]]; discriminate.
    - vm_compute. reflexivity.
    - repeat constructor.
    - split; [reflexivity|]. split; [constructor|cbn; lia]. }
  split; [exact SE|]. split.
  { destruct SE as [_ H1 H2 _ _ H3 _ _]. apply (C54_nonempty 100 gx Ri mi); auto.
    intros gs x [<-|[]] [<-|[]] NE. apply (plain_tokens _ inner); [exact inner_tokens|]. apply no_bolb. reflexivity. }
  split; [|split; eexists; (split; [vm_compute; reflexivity|reflexivity])].
  exists [(CChar 120, false)], [(CChar 98, false)]. split; [|split; [right; split; [apply no_words_anchor, (plain_tokens _ inner inner_tokens), no_bolb; reflexivity|reflexivity]|reflexivity]].
  exists inner. eexists. split; [exact inner_tokens|]. split.
  - apply m_regex. eapply (m_cat _ _ [ch 120] [tok OPENPAREN; ch 97; tok ZEROORMORE; ch 98; tok CLOSEPAREN; tok AZEROORMORE]).
    + apply m_seq, m_expr. now apply (m_set (ch 120)).
    + eapply (m_dup _ [tok OPENPAREN; ch 97; tok ZEROORMORE; ch 98; tok CLOSEPAREN] (tok AZEROORMORE) false 0 None).
      * eapply (m_paren _ [ch 97; tok ZEROORMORE; ch 98] (tok OPENPAREN) (tok CLOSEPAREN)); [reflexivity| |reflexivity].
        apply m_regex. eapply (m_cat _ _ [ch 97; tok ZEROORMORE] [ch 98]); [apply m_seq|apply m_expr; now apply (m_set (ch 98))].
        eapply (m_dup _ [ch 97] (tok ZEROORMORE) true 0 None); [now apply (m_set (ch 97))|now apply md_star].
      * now apply md_astar.
  - cbn [mlang]. exists [(CChar 120, false)], [(CChar 97, true); (CChar 98, false)]. split; [reflexivity|].
    split; [exists 120; split; [left; apply mem1|auto]|].
    exists [], [(CChar 97, true); (CChar 98, false)], 1%nat. split; [reflexivity|]. split; [reflexivity|]. split; [exact I|].
    exists [(CChar 97, true); (CChar 98, false)], []. split; [reflexivity|]. split; [|reflexivity]. eexists. split; [|reflexivity].
    exists [(CChar 97, true)], [(CChar 98, false)]. split; [reflexivity|]. split; [|exists 98; split; [left; apply mem1|auto]].
    exists [], [(CChar 97, true)], 1%nat. split; [reflexivity|]. split; [reflexivity|]. split; [exact I|].
    exists [(CChar 97, true)], []. split; [reflexivity|]. split; [|reflexivity].
    exists [(CChar 97, false)]. split; [|reflexivity]. exists 97. split; [left; apply mem1|auto].
Qed.
