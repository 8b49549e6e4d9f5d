(** Property C69 for lexers with comments. *)
From Coq Require Import String.
From Verif Require Import Base StringToken StringTokenSpec StringTokenProofs StateMachine RegexSpec ReToken DfaSpec Grammar Tree Parser
  Generator Build Lookup TableSpec LookupSpec RuleSpec BuildSpec BuildCheck Minimise Iterator GenCpp
  ReTokeniser ReTokeniserNext Rules TokeniseSpec RulesSpec RulesBuild RulesCheck
  SourceSpec SourceSets SourceEsc SourceClass SourceClass2 SourceRep SourceLex SourceAll SourceLiteral SourceLexer SourceTop CommentSpec CommentTop TokenList Routes BuildTexts BuildComments P_Comment.
Local Open Scope N_scope.

(** build() always gives an answer about rules some of which are comments. A state
    without rules or a text with the empty word are what it says; comments are never
    the reason. A machine is only made when, unless hidden rules are allowed, every
    rule is the first to match some text. *)
Theorem C69_comments_outcome k g fl mds ys : 1 < rnpos k -> g_bits g = r_bits k -> r_bytes k = 1 -> g_bytes g = 1 ->
  smacros_ok k fl mds -> Forall (item_ok k fl mds) ys -> apart 1 fl ys -> N.of_nat (2 * items_sets ys) < eol_tok g -> N.of_nat (List.length ys) < 2 ^ g_bits g ->
  exists f0, forall f, (f0 <= f)%nat ->
    match build f g (grules_of (push_items k fl mds ys)) with
    | Ok _ => ys <> [] /\ (has fl rf_match_zero_len = false -> forall x, In (IText x) ys -> ~ slang (s_sx x) []) /\
        (has fl 32 = false -> forall j, (j < List.length ys)%nat -> exists y bol cs, nth_error ys j = Some y /\ imatch 1 fl y bol cs /\
           forall j' y', (j' < j)%nat -> nth_error ys j' = Some y' -> ~ imatch 1 fl y' bol cs)
    | Throw EEmptyState => ys = []
    | Throw EZeroLen => has fl rf_match_zero_len = false /\ exists x, In (IText x) ys /\ slang (s_sx x) []
    | Throw ESuppressed => has fl 32 = false
    | Throw EOverflow => True
    | _ => False
    end.
Proof. exact (items_outcome k g fl mds ys). Qed.
(** With hidden rules allowed and no text with the empty word, a lexer comes out that
    reads every input as the texts say, or there are too many states. *)
Theorem C69_comments_lexer k g fl mds ys kc : 1 < rnpos k -> g_bits g = r_bits k -> r_bytes k = 1 -> g_bytes g = 1 ->
  smacros_ok k fl mds -> Forall (item_ok k fl mds) ys -> apart 1 fl ys -> N.of_nat (2 * items_sets ys) < eol_tok g -> N.of_nat (List.length ys) < 2 ^ g_bits g ->
  ys <> [] -> (forall x, In (IText x) ys -> ~ slang (s_sx x) []) -> has fl 32 = true ->
  agree kc g -> has fl rf_match_zero_len = false -> f_adv kc = true ->
  exists f0, (forall f, (f0 <= f)%nat -> build f g (grules_of (push_items k fl mds ys)) = Throw EOverflow) \/
    exists m, (forall f, (f0 <= f)%nat -> build f g (grules_of (push_items k fl mds ys)) = Ok m) /\
      (RulesBuild.covers kc m -> forall inp, Forall (fits (c_bytes kc)) inp ->
        exists l, tokens (ireads 1 fl (npos kc) (skip_id kc) (f_bol kc) ys inp) true 0 l /\ every_route kc m inp l).
Proof. exact (fun H1 H2 H3 H4 H5 H6 H7 H8 H9 => items_build k g fl mds ys H1 H2 H3 H4 H5 H6 H7 H8 H9 kc). Qed.
Print Assumptions C69_comments_outcome.
Print Assumptions C69_comments_lexer.

(** The lexer of C62 is accepted. *)
Example C69_comments_case : Forall (item_ok kr 2 []) ys /\ apart 1 2 ys /\ N.of_nat (2 * items_sets ys) < eol_tok gr /\ N.of_nat (List.length ys) < 2 ^ g_bits gr /\
  has 2 32 = false /\ build 200 gr (grules_of (push_items kr 2 [] ys)) = Ok mm.
Proof. split; [exact ys_ok|]. split; [exact ys_apart|]. repeat (split; [vm_compute; reflexivity|]). vm_compute. reflexivity. Qed.
(** A comment and two rules "/", of which the second is hidden: refused without
    allow_suppressed_rules, accepted with it. *)
Definition c3 : cmt := {| c_open := txt "/*"; c_body := txt "(.|\n)"; c_set := fun c => any_char 1 34 c \/ cased 1 false (eq 10) c; c_close := txt "*/"; c_id := 65534; c_uid := 65535 |}.
Definition lit3 (s : list N) (id : N) : srule := {| s_text := in_quotes s; s_sx := literal 1 34 s; s_id := id; s_uid := 65535 |}.
Definition zs : list item := [IComment c3; IText (lit3 (txt "/") 2); IText (lit3 (txt "/") 3)].
Lemma lit3_ok s id : s <> [] -> forallb (fun c => c <=? 255) (in_quotes s) = true -> forallb (fun c => negb (is_digit c)) (in_quotes s) = true -> id <> 0 -> id <> 65535 ->
  srule_ok kr 34 [] (lit3 s id).
Proof.
  intros N H1 H2 I1 I2. constructor; [now apply quoted_means|now apply fits_small|now apply no_digits|split; assumption|apply unanchored_early].
  intros w H. apply literal_lang in H as (cs & -> & _); eauto.
Qed.
Lemma zs_ok : Forall (item_ok kr 34 []) zs.
Proof.
  constructor; [|constructor; [|constructor; [|constructor]]]; cbn [item_ok].
  - constructor; try discriminate; [| |apply fits_small; reflexivity|apply no_digits; reflexivity|split; discriminate].
    + apply (ch_alts 1 34 _ (txt ".|\n")). apply (al_more 1 34 _ [46] _ (txt "\n")); [apply as_atom, sa_dot|]. apply al_one, as_atom. apply (sa_escape 1 34 false _ [110] 10).
      apply ec_letter. vm_compute. auto 10.
    + intros x d [<-|[<-|[]]] [<-|[H _]]; try discriminate; left; vm_compute; intuition discriminate.
  - apply lit3_ok; try discriminate; reflexivity.
  - apply lit3_ok; try discriminate; reflexivity.
Qed.
Lemma alike3 s u : alike 1 34 s u <-> u = s.
Proof. apply same_chars. Qed.
Lemma lit3_match s id bol cs : s <> [] -> smatch (lit3 s id) bol cs -> cs = s.
Proof.
  intros N. unfold smatch. destruct bol; [intros [H|[_ H]]|intros H]; apply literal_lang in H; try assumption; destruct H as (ds & E & F); apply same_chars in F; [destruct ds; discriminate| |].
  all: subst ds; revert E; clear; revert cs; induction s as [|c s IH]; intros [|d cs] E; try discriminate; [reflexivity|]; injection E as <- E; now rewrite (IH _ E).
Qed.
Lemma zs_apart : apart 1 34 zs.
Proof.
  intros i j c y NE E1 E2. unfold zs in E1, E2.
  destruct i as [|[|[|i]]]; cbn in E1; try discriminate; [|destruct i; discriminate]; injection E1 as <-.
  destruct j as [|[|[|j]]]; cbn in E2; try discriminate; [exfalso; apply NE; reflexivity| | |destruct j; discriminate]; injection E2 as <-; intros bol u w A M;
    apply alike3 in A; subst u; apply lit3_match in M; discriminate.
Qed.
Example C69_hidden_case : Forall (item_ok kr 34 []) zs /\ apart 1 34 zs /\ N.of_nat (2 * items_sets zs) < eol_tok gr /\ has 34 32 = true /\ has 34 rf_match_zero_len = false /\
  (forall x, In (IText x) zs -> ~ slang (s_sx x) []) /\
  (exists m, build 200 gr (grules_of (push_items kr 34 [] zs)) = Ok m /\ RulesBuild.covers kl m) /\
  build 200 gr (grules_of (push_items kr 2 [] zs)) = Throw ESuppressed /\ build 200 gr (grules_of (push_items kr 2 [] [])) = Throw EEmptyState.
Proof.
  split; [exact zs_ok|]. split; [exact zs_apart|]. repeat (split; [vm_compute; reflexivity|]). split.
  - intros x [E|[E|[E|[]]]] H; try discriminate; injection E as <-; apply literal_lang in H as (cs & E & F); try discriminate; apply same_chars in F; subst cs; discriminate.
  - split; [eexists; split; [vm_compute; reflexivity|vm_compute; congruence]|]. split; vm_compute; reflexivity.
Qed.
