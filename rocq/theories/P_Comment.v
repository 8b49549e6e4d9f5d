(** C62: lexers with rules for comments do what their texts say. *)
From Coq Require Import String.
From Verif Require Import Base StringToken StringTokenSpec StringTokenProofs StateMachine RegexSpec ReToken DfaSpec Grammar Tree Parser
  Generator Build Lookup TableSpec LookupSpec RuleSpec BuildSpec BuildCheck
  ReTokeniser ReTokeniserNext Rules TokeniseSpec RulesSpec RulesBuild RulesCheck
  SourceSpec SourceSets SourceEsc SourceClass SourceClass2 SourceRep SourceLex SourceAll SourceLiteral SourceLexer SourceTop CommentSpec CommentTop.
Local Open Scope N_scope.

(** push() accepts the rules, one after the other. *)
Theorem C62_pushes_succeed k fl mds ys y : 1 < rnpos k -> smacros_ok k fl mds -> Forall (item_ok k fl mds) (ys ++ [y]) ->
  snd (push_rule k (i_text y) (i_id y) (i_uid y) (push_items k fl mds ys)) = Ok tt.
Proof. intros NP. exact (push_items_succeed k fl NP mds ys y). Qed.
(** Each call of lookup() returns what the texts say: the longest match, where a
    comment is matched up to its first end and no further. *)
Theorem C62_lexer_with_comments k g kc fl mds ys f m inp res fuel inner : 1 < rnpos k -> g_bits g = r_bits k -> r_bytes k = 1 -> g_bytes g = 1 -> agree kc g ->
  smacros_ok k fl mds -> Forall (item_ok k fl mds) ys -> apart 1 fl ys -> N.of_nat (2 * items_sets ys) < eol_tok g ->
  build f g (grules_of (push_items k fl mds ys)) = Ok m -> has fl rf_match_zero_len = false -> f_adv kc = true ->
  Forall (fits (c_bytes kc)) inp -> covers kc m -> ready inp res -> (List.length inp < fuel)%nat -> (List.length inp < inner)%nat ->
  exists res', lookup fuel inner kc m inp res = Ok (res', None) /\ ready inp res' /\
    ireads 1 fl (npos kc) (skip_id kc) (f_bol kc) ys inp (r_bol res) (r_second res) (r_id res') (r_uid res') (r_first res') (r_second res') (r_bol res').
Proof.
  intros H1 H2 H3 H4 H5 H6 H7 H8 H9 H10 H11 H12 H13. exact (items_to_tokens k g kc fl mds ys f m inp H1 H2 H3 H4 H5 H6 H7 H8 H9 H10 H11 H12 H13 res fuel inner).
Qed.
(** That leaves no choice. *)
Theorem C62_determined b fl none skip see ys inp bol p id uid i j l : ireads b fl none skip see ys inp bol p id uid i j l ->
  forall id' uid' i' j' l', ireads b fl none skip see ys inp bol p id' uid' i' j' l' -> id = id' /\ uid = uid' /\ i = i' /\ j = j' /\ l = l'.
Proof. exact (ireads_det b fl none skip see ys inp bol p id uid i j l). Qed.
Print Assumptions C62_pushes_succeed.
Print Assumptions C62_lexer_with_comments.
Print Assumptions C62_determined.

(** "/*"(.|\n)*?"*/" which is skipped, "<!"[!-~]*?"!>", "/", "<" and [a-c]+. *)
Definition kr : rcfg := {| r_bytes := 1; r_bits := 16 |}.
Definition gr : gcfg := {| g_bits := 16; g_bytes := 1 |}.
Definition kl : cfg := {| f_bol := false; f_eol := false; f_multi := false; f_rec := false; f_adv := true;
                          c_bytes := 1; c_bits := 16 |}.
Definition abc (c : N) : Prop := cased 1 false (fun c => 97 <= c <= 99) c \/ False.
Definition visible (c : N) : Prop := cased 1 false (fun c => 33 <= c <= 126) c \/ False.
Definition c1 : cmt := {| c_open := txt "/*"; c_body := txt "(.|\n)"; c_set := fun c => any_char 1 2 c \/ cased 1 false (eq 10) c; c_close := txt "*/"; c_id := 65534; c_uid := 65535 |}.
Definition c2 : cmt := {| c_open := txt "<!"; c_body := txt "[!-~]"; c_set := visible; c_close := txt "!>"; c_id := 5; c_uid := 9 |}.
Definition word : srule := {| s_text := txt "[a-c]+"; s_sx := SPlus (SSet abc); s_id := 1; s_uid := 7 |}.
Definition lit (s : list N) (id : N) : srule := {| s_text := in_quotes s; s_sx := literal 1 2 s; s_id := id; s_uid := 65535 |}.
Definition ys : list item := [IComment c1; IText (lit (txt "/") 2); IText word; IComment c2; IText (lit (txt "<") 3)].
Lemma fits_small l : forallb (fun c => c <=? 255) l = true -> small 1 l.
Proof. intros H. apply Forall_forall. rewrite forallb_forall in H. intros c Hc. apply N.leb_le. exact (H c Hc). Qed.
Lemma no_digits l : forallb (fun c => negb (is_digit c)) l = true -> numbers_fit l.
Proof.
  intros H p ds r E D. destruct ds as [|d ds]; [reflexivity|]. exfalso. rewrite forallb_forall in H. assert (I : In d l) by (rewrite E; apply in_or_app; right; now left).
  specialize (H d I). inversion D as [|? ? Hd _]; subst. apply is_digit_iff in Hd. rewrite Hd in H. discriminate.
Qed.
Lemma lit_ok s id : s <> [] -> forallb (fun c => c <=? 255) (in_quotes s) = true -> forallb (fun c => negb (is_digit c)) (in_quotes s) = true -> id <> 0 -> id <> 65535 ->
  srule_ok kr 2 [] (lit s id).
Proof.
  intros N H1 H2 I1 I2. constructor; [now apply quoted_means|now apply fits_small|now apply no_digits|split; assumption|apply unanchored_early].
  intros w H. apply literal_lang in H as (cs & -> & _); eauto.
Qed.
Lemma plus_unanchored P w : slang (SPlus (SSet P)) w -> exists cs, w = map CChar cs.
Proof.
  intros (n & _ & H). revert w H. induction n as [|n IH]; intros v1 H; cbn in H; [exists []; exact H|]. destruct H as (p & q & -> & (d & _ & ->) & H). destruct (IH _ H) as (cs & ->). exists (d :: cs). reflexivity.
Qed.
Lemma ys_ok : Forall (item_ok kr 2 []) ys.
Proof.
  constructor; [|constructor; [|constructor; [|constructor; [|constructor; [|constructor]]]]]; cbn [item_ok].
  - constructor; try discriminate; [| |apply fits_small; reflexivity|apply no_digits; reflexivity|split; discriminate].
    + apply (ch_alts 1 2 _ (txt ".|\n")). apply (al_more 1 2 _ [46] _ (txt "\n")); [apply as_atom, sa_dot|]. apply al_one, as_atom. apply (sa_escape 1 2 false _ [110] 10).
      apply ec_letter. vm_compute. auto 10.
    + intros x d [<-|[<-|[]]] [<-|[H _]]; try discriminate; left; vm_compute; intuition discriminate.
  - apply lit_ok; try discriminate; reflexivity.
  - constructor; [|apply fits_small; reflexivity|apply no_digits; reflexivity|split; discriminate|apply unanchored_early; intros w; apply plus_unanchored].
    apply sr_regex, sr_seq. apply (sr_postfix 1 [] 2 true [] (txt "[a-c]") (SSet abc) [43] SPlus); [|apply po_plus|intros (c & t & E & _); discriminate].
    apply sr_atom, as_atom. apply (sa_class 1 2 true _ (txt "a-c]")). apply cl_of; [|intros (c & t & E & <-); discriminate|exists 97; left; left; lia].
    apply (cb_item 1 false true (txt "a-c") _ (txt "]")); [|apply cb_end].
    apply (ci_range 1 false true (txt "]") [97] 97 [99] 99); [apply cc_plain; try discriminate|apply cc_plain; try discriminate|lia].
  - constructor; try discriminate; [| |apply fits_small; reflexivity|apply no_digits; reflexivity|split; discriminate].
    + apply ch_one, as_atom. apply (sa_class 1 2 false _ (txt "!-~]")). apply cl_of; [|intros (c & t & E & <-); discriminate|exists 97; left; left; lia].
      apply (cb_item 1 false true (txt "!-~") _ (txt "]")); [|apply cb_end].
      apply (ci_range 1 false true (txt "]") [33] 33 [126] 126); [apply cc_plain; try discriminate|apply cc_plain; try discriminate|lia].
    + intros x d [<-|[<-|[]]] [<-|[H _]]; try discriminate; left; left; vm_compute; split; discriminate.
  - apply lit_ok; try discriminate; reflexivity.
Qed.
Lemma alike_same s u : alike 1 2 s u <-> u = s.
Proof. apply same_chars. Qed.
Lemma lit_match s id bol cs : s <> [] -> smatch (lit s id) bol cs -> cs = s.
Proof.
  intros N. unfold smatch. destruct bol; [intros [H|[_ H]]|intros H]; apply literal_lang in H; try assumption; destruct H as (ds & E & F); apply same_chars in F; [destruct ds; discriminate| |].
  all: subst ds; revert E; clear; revert cs; induction s as [|c s IH]; intros [|d cs] E; try discriminate; [reflexivity|]; injection E as <- E; now rewrite (IH _ E).
Qed.
Lemma word_match bol cs : smatch word bol cs -> exists c t, cs = c :: t /\ abc c.
Proof.
  unfold smatch. destruct bol; [intros [(n & L & H)|[_ (n & L & H)]]|intros (n & L & H)]; (destruct n as [|n]; [lia|]); cbn in H; destruct H as (p & q & E & (d & D & ->) & _); [discriminate| |];
    (destruct cs as [|c t]; [discriminate|]; injection E as -> _; eauto).
Qed.
Lemma ys_apart : apart 1 2 ys.
Proof.
  intros i j c y NE E1 E2. unfold ys in E1, E2.
  destruct i as [|[|[|[|[|i]]]]]; cbn in E1; try discriminate; [| |destruct i; discriminate]; injection E1 as <-;
    (destruct j as [|[|[|[|[|j]]]]]; cbn in E2; try discriminate; [| | | | |destruct j; discriminate]); try (exfalso; apply NE; reflexivity); injection E2 as <-; intros.
  all: repeat match goal with H : alike _ _ _ _ |- _ => apply alike_same in H; subst end; try discriminate.
  all: intros M; (apply lit_match in M; [discriminate M|discriminate]) || (apply word_match in M; destruct M as (d & t & E & [[D|[D _]]|[]]); [|discriminate]; injection E as <- _; lia).
Qed.
Definition mm : internals := match build 200 gr (grules_of (push_items kr 2 [] ys)) with Ok m => m | _ => {| i_eoi := 0; i_lookup := []; i_alphabet := []; i_features := 0; i_dfa := [] |} end.
Definition text := txt "ab/*b**c*/c*/<!a!>b!>/*c<".
Definition at0 (p : nat) : results := {| r_id := 0; r_uid := 0; r_first := 0; r_second := p; r_bol := Nat.eqb p 0; r_state := 0; r_stack := [] |}.
Definition got (p : nat) : option (N * N * nat * nat) :=
  match lookup 50 50 kl mm text (at0 p) with Ok (r, None) => Some (r_id r, r_uid r, r_first r, r_second r) | _ => None end.
(** The word ab; the comment is skipped, c; /; the other comment up to its first end;
    a comment without an end is only a slash. *)
Example C62_case : Forall (item_ok kr 2 []) ys /\ apart 1 2 ys /\ build 200 gr (grules_of (push_items kr 2 [] ys)) = Ok mm /\
  N.of_nat (2 * items_sets ys) < eol_tok gr /\ covers kl mm /\ Forall (fits 1) text /\ ready text (at0 0) /\
  map got [0; 2; 12; 13; 21]%nat = [Some (1, 7, 0%nat, 2%nat); Some (1, 7, 10%nat, 11%nat); Some (2, 65535, 12%nat, 13%nat); Some (5, 9, 13%nat, 18%nat); Some (2, 65535, 21%nat, 22%nat)].
Proof.
  split; [exact ys_ok|]. split; [exact ys_apart|]. split; [vm_compute; reflexivity|]. split; [vm_compute; reflexivity|]. split; [vm_compute; congruence|].
  split; [repeat constructor|]. split; [repeat split; vm_compute; lia|]. vm_compute. reflexivity.
Qed.
