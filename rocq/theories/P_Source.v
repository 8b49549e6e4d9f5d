(** Properties C36-C39 and C51: what the texts of regular expressions mean. *)
From Coq Require Import String.
From Verif Require Import Base StringToken StringTokenSpec StringTokenProofs StateMachine RegexSpec ReToken DfaSpec Grammar Tree Parser
  Generator Build Lookup TableSpec LookupSpec RuleSpec BuildSpec BuildCheck
  ReTokeniser ReTokeniserNext Rules TokeniseSpec RulesSpec RulesBuild RulesCheck FoldData
  SourceSpec SourceSets SourceEsc SourceClass SourceClass2 SourceRep SourceLex SourceAll SourceLiteral SourceLexer SourceTop.
Local Open Scope N_scope.

(** ** C51: the meaning of a text is the meaning of its tokens *)
Theorem C51_text_to_tokens b fl ms text s rule : regex_means b [] fl text s -> small b text ->
  exists w r, tokenise b fl ms text rule = Ok [between w] /\ gram GRegex r w /\ (forall u, slang s u <-> clang r u /\ known b u) /\ has_lazy (between w) = false /\
    (csets w <= leaves s)%nat.
Proof.
  intros M S. destruct (source_tokenise b [] fl ms text s rule (mtable_nil b ms) M S) as (w & r & T & G & L & Z & _ & C). exists w, r. auto.
Qed.
(** The same when the rules know macros: {NAME} means what the text of the macro means. *)
Theorem C51_macros_to_tokens k fl mds text s rule : 1 < rnpos k -> smacros_ok k fl mds -> regex_means (r_bytes k) (meanings mds) fl text s -> small (r_bytes k) text ->
  exists w r, tokenise (r_bytes k) fl (ru_macros (put_macros k mds (make_rules k fl))) text rule = Ok [between w] /\ gram GRegex r w /\
    (forall u, slang s u <-> clang r u /\ known (r_bytes k) u) /\ has_lazy (between w) = false /\ (csets w <= leaves s)%nat.
Proof.
  intros NP MO M S. destruct (put_macros_is k fl NP mds (make_rules k fl) (pu_new k fl) (make_flags k fl) (make_macros k fl) MO) as (_ & _ & _ & _ & MT & _).
  destruct (source_tokenise _ _ _ _ _ _ rule MT M S) as (w & r & T & G & L & Z & _ & C). exists w, r. auto.
Qed.
(** Every macro of such a list is accepted, one call after the other. *)
Theorem C51_macros_succeed k fl mds m : 1 < rnpos k -> smacros_ok k fl (mds ++ [m]) ->
  snd (insert_macro k (m_name m) (m_text m) (put_macros k mds (make_rules k fl))) = Ok tt.
Proof.
  intros NP MO. destruct (put_macros_is k fl NP _ (make_rules k fl) (pu_new k fl) (make_flags k fl) (make_macros k fl) MO) as (_ & _ & _ & _ & _ & _ & H). now apply H.
Qed.
Theorem C51_one_meaning k fl mds text s s' : 1 < rnpos k -> smacros_ok k fl mds -> small (r_bytes k) text -> regex_means (r_bytes k) (meanings mds) fl text s ->
  regex_means (r_bytes k) (meanings mds) fl text s' -> forall w, slang s w <-> slang s' w.
Proof.
  intros NP MO. destruct (put_macros_is k fl NP mds (make_rules k fl) (pu_new k fl) (make_flags k fl) (make_macros k fl) MO) as (_ & _ & _ & _ & MT & _).
  exact (one_meaning _ _ fl _ text s s' MT).
Qed.
(** A lexer made from such texts returns what their meanings say. *)
Theorem C51_text_to_lexer k g kc fl mds xs f m inp res fuel inner : 1 < rnpos k -> g_bits g = r_bits k -> g_bytes g = r_bytes k ->
  0 < g_bytes g -> agree kc g -> smacros_ok k fl mds -> Forall (srule_ok k fl mds) xs ->
  (forall s, In s (gr_states (grules_of (push_all k fl mds xs))) -> N.of_nat (List.length (all_sets (g_bytes g) s)) < eol_tok g) ->
  (forall x t, In x (rules_at (push_all k fl mds xs) 0) -> In t (gr_tokens x) -> sliceable (g_bytes g) t) ->
  build f g (grules_of (push_all k fl mds xs)) = Ok m -> has fl rf_match_zero_len = false -> f_adv kc = true ->
  Forall (fits (c_bytes kc)) inp -> known_chars (g_bytes g) inp -> covers kc m -> ready inp res -> (List.length inp < fuel)%nat -> (List.length inp < inner)%nat ->
  exists res', lookup fuel inner kc m inp res = Ok (res', None) /\ ready inp res' /\
    sreads (npos kc) (skip_id kc) (f_bol kc) xs inp (r_bol res) (r_second res) (r_id res') (r_uid res') (r_first res') (r_second res') (r_bol res').
Proof. intros H1 H2 H3 H4 H5 H6 H7 H8 H9 H10 H11 H12 H13 H14. exact (texts_to_tokens k g kc fl mds xs f m inp H1 H2 H3 H4 H5 H6 H7 H8 H9 H10 H11 H12 H13 H14 res fuel inner). Qed.
Theorem C51_lexer_is_determined none skip see xs inp bol p id uid i j b : sreads none skip see xs inp bol p id uid i j b ->
  forall id' uid' i' j' b', sreads none skip see xs inp bol p id' uid' i' j' b' -> id = id' /\ uid = uid' /\ i = i' /\ j = j' /\ b = b'.
Proof. exact (sreads_det none skip see xs inp bol p id uid i j b). Qed.
(** For characters of one byte the number of sets is no obstacle. *)
Theorem C51_few_sets k g fl mds xs : 1 < rnpos k -> g_bytes g = 1 -> smacros_ok k fl mds -> Forall (srule_ok k fl mds) xs -> N.of_nat (2 * set_count xs) < eol_tok g ->
  forall s, In s (gr_states (grules_of (push_all k fl mds xs))) -> N.of_nat (List.length (all_sets (g_bytes g) s)) < eol_tok g.
Proof. exact (narrow_sets k g fl mds xs). Qed.
Print Assumptions C51_text_to_tokens.
Print Assumptions C51_macros_to_tokens.
Print Assumptions C51_macros_succeed.
Print Assumptions C51_one_meaning.
Print Assumptions C51_text_to_lexer.
Print Assumptions C51_lexer_is_determined.
Print Assumptions C51_few_sets.

(** Rules ^#[a-c]+, "if" and a blank that is skipped. *)
Definition kr : rcfg := {| r_bytes := 1; r_bits := 16 |}.
Definition gr : gcfg := {| g_bits := 16; g_bytes := 1 |}.
Definition kl : cfg := {| f_bol := true; f_eol := false; f_multi := false; f_rec := false; f_adv := true;
                          c_bytes := 1; c_bits := 16 |}.
Definition abc (c : N) : Prop := cased 1 false (fun c => 97 <= c <= 99) c \/ False.
Definition hash : sx := SSet (cased 1 false (eq 35)).
Definition x1 : srule := {| s_text := txt "^#[a-c]+"; s_sx := SCat SBol (SCat hash (SPlus (SSet abc))); s_id := 1; s_uid := 7 |}.
Definition x2 : srule := {| s_text := in_quotes (txt "if"); s_sx := literal 1 2 (txt "if"); s_id := 2; s_uid := 65535 |}.
Definition x3 : srule := {| s_text := escaped (txt " "); s_sx := literal 1 2 (txt " "); s_id := 65534; s_uid := 65535 |}.
Definition xs := [x1; x2; x3].
Lemma fits_small l : forallb (fun c => c <=? 255) l = true -> small 1 l.
Proof. intros H. apply Forall_forall. rewrite forallb_forall in H. intros c Hc. apply N.leb_le. exact (H c Hc). Qed.
Lemma no_digits l : forallb (fun c => negb (is_digit c)) l = true -> numbers_fit l.
Proof.
  intros H p ds r E D. destruct ds as [|d ds]; [reflexivity|]. exfalso. rewrite forallb_forall in H. assert (I : In d l) by (rewrite E; apply in_or_app; right; now left).
  specialize (H d I). inversion D as [|? ? Hd _]; subst. apply is_digit_iff in Hd. rewrite Hd in H. discriminate.
Qed.
Lemma x1_means : regex_means 1 [] 2 (s_text x1) (s_sx x1).
Proof.
  apply sr_regex. apply (sr_cat 1 [] 2 true [] [94] SBol (txt "#[a-c]+")); [apply sr_seq, sr_expr, sr_bol|].
  apply (sr_cat 1 [] 2 false [] [35] hash (txt "[a-c]+")).
  - apply sr_seq, sr_expr, sr_atom, as_atom, (sa_plain 1 2); [vm_compute; intuition discriminate|discriminate].
  - apply sr_seq. apply (sr_postfix 1 [] 2 false [] (txt "[a-c]") (SSet abc) [43] SPlus); [|apply po_plus|intros (c & t & E & _); discriminate].
    apply sr_atom, as_atom. apply (sa_class 1 2 false _ (txt "a-c]")). apply cl_of; [|intros (c & t & E & <-); discriminate|exists 97; left; left; lia].
    apply (cb_item 1 false true (txt "a-c") _ (txt "]")); [|apply cb_end].
    apply (ci_range 1 false true (txt "]") [97] 97 [99] 99); [apply cc_plain; try discriminate|apply cc_plain; try discriminate|lia].
Qed.
Lemma xs_ok : Forall (srule_ok kr 2 []) xs.
Proof.
  assert (LIT : forall s, s <> [] -> unanchored (literal 1 2 s)) by (intros s N w H; apply literal_lang in H as (cs & -> & _); eauto).
  constructor; [|constructor; [|constructor; [|constructor]]].
  - constructor; [apply x1_means|apply fits_small; reflexivity|apply no_digits; reflexivity|split; discriminate|apply anchored_early].
    intros w (u & v & -> & -> & (u1 & v1 & -> & (c & _ & ->) & (n & _ & P))). assert (Q : exists cs, v1 = map CChar cs).
    { revert v1 P. induction n as [|n IH]; intros v1 P; cbn in P; [exists []; exact P|]. destruct P as (p & q & -> & (d & _ & ->) & P). destruct (IH _ P) as (cs & ->). exists (d :: cs). reflexivity. }
    destruct Q as (cs & ->). exists (c :: cs). reflexivity.
  - constructor; [apply quoted_means; discriminate|apply fits_small; reflexivity|apply no_digits; reflexivity|split; discriminate|now apply unanchored_early, LIT].
  - constructor; [apply escaped_means; [reflexivity|discriminate]|apply fits_small; reflexivity|apply no_digits; reflexivity|split; discriminate|now apply unanchored_early, LIT].
Qed.
Definition mm : internals := match build 100 gr (grules_of (push_all kr 2 [] xs)) with Ok m => m | _ => {| i_eoi := 0; i_lookup := []; i_alphabet := []; i_features := 0; i_dfa := [] |} end.
Definition text := txt "#abc if #ab".
Definition at0 (p : nat) : results := {| r_id := 0; r_uid := 0; r_first := 0; r_second := p; r_bol := Nat.eqb p 0; r_state := 0; r_stack := [] |}.
Definition got (p : nat) : option (N * N * nat * nat) :=
  match lookup 50 50 kl mm text (at0 p) with Ok (r, None) => Some (r_id r, r_uid r, r_first r, r_second r) | _ => None end.
Example C51_case : Forall (srule_ok kr 2 []) xs /\ build 100 gr (grules_of (push_all kr 2 [] xs)) = Ok mm /\
  N.of_nat (2 * set_count xs) < eol_tok gr /\ covers kl mm /\ Forall (fits 1) text /\ ready text (at0 0) /\
  map got [0; 4; 7; 11]%nat = [Some (1, 7, 0%nat, 4%nat); Some (2, 65535, 5%nat, 7%nat); Some (65535, 65535, 8%nat, 9%nat); Some (0, 65535, 11%nat, 11%nat)].
Proof.
  split; [exact xs_ok|]. split; [vm_compute; reflexivity|]. split; [vm_compute; reflexivity|]. split; [vm_compute; congruence|].
  split; [repeat constructor|]. split; [repeat split; vm_compute; lia|]. vm_compute. reflexivity.
Qed.
(** ^a|b: some words begin with ^. At the beginning of a line only a is matched,
    elsewhere only b. *)
Definition one (c : N) : sx := SSet (cased 1 false (eq c)).
Definition mixed : srule := {| s_text := txt "^a|b"; s_sx := SAlt (SCat SBol (one 97)) (one 98); s_id := 1; s_uid := 7 |}.
Definition m_mixed : internals := match build 100 gr (grules_of (push_all kr 2 [] [mixed])) with Ok m => m | _ => {| i_eoi := 0; i_lookup := []; i_alphabet := []; i_features := 0; i_dfa := [] |} end.
Example C51_mixed_case : Forall (srule_ok kr 2 []) [mixed] /\ build 100 gr (grules_of (push_all kr 2 [] [mixed])) = Ok m_mixed /\
  ~ smatch mixed true (txt "b") /\ smatch mixed true (txt "a") /\ smatch mixed false (txt "b") /\ ~ smatch mixed false (txt "a") /\
  map (fun t => match lookup 50 50 kl m_mixed t (at0 0) with Ok (r, None) => r_id r | _ => 77 end) [txt "b"; txt "a"] = [65535; 1] /\
  map (fun t => match lookup 50 50 kl m_mixed t (at0 1) with Ok (r, None) => r_id r | _ => 77 end) [txt "xb"; txt "xa"] = [1; 65535].
Proof.
  split; [|split; [vm_compute; reflexivity|]].
  - constructor; [|constructor]. constructor; [|apply fits_small; reflexivity|apply no_digits; reflexivity|split; discriminate|].
    + apply (sr_alt 1 [] 2 true [] (txt "^a") (SCat SBol (one 97)) (txt "b")).
      * apply sr_regex. apply (sr_cat 1 [] 2 true _ [94] SBol [97]); [apply sr_seq, sr_expr, sr_bol|].
        apply sr_seq, sr_expr, sr_atom, as_atom, (sa_plain 1 2); [vm_compute; intuition discriminate|discriminate].
      * apply sr_regex, sr_seq, sr_expr, sr_atom, as_atom, (sa_plain 1 2); [vm_compute; intuition discriminate|discriminate].
    + intros w [(u & v & -> & -> & (c & _ & ->))|(c & _ & ->)]; exists [c]; [right|left]; reflexivity.
  - assert (A : anchors (s_sx mixed)).
    { exists [CChar 97]. left. exists [CBol], [CChar 97]. split; [reflexivity|]. split; [reflexivity|]. exists 97. split; [now left|reflexivity]. }
    split; [|split; [|split; [|split; [|split; vm_compute; reflexivity]]]].
    + intros [[(u & v & E & -> & (c & [<-|[H _]] & ->))|(c & _ & E)]|[N _]]; [discriminate..|contradiction].
    + left. left. exists [CBol], [CChar 97]. split; [reflexivity|]. split; [reflexivity|]. exists 97. split; [now left|reflexivity].
    + right. exists 98. split; [now left|reflexivity].
    + intros [(u & v & E & -> & _)|(c & [<-|[H _]] & E)]; discriminate.
Qed.
(** Macros: letters without b, names made of them, and a rule that uses the second. *)
Definition letter (c : N) : Prop := (cased 1 false (fun c => 97 <= c <= 122) c \/ False) /\ ~ (cased 1 false (eq 98) c \/ False).
Definition under (c : N) : Prop := cased 1 false (eq 95) c.
Definition id_sx : sx := SCat (SSet letter) (SStar (SAlt (SSet letter) (SSet under))).
Definition md1 : smacro := {| m_name := txt "L"; m_text := txt "[a-z]{-}[b]"; m_sx := SSet letter |}.
Definition md2 : smacro := {| m_name := txt "ID"; m_text := txt "{L}({L}|_)*"; m_sx := id_sx |}.
Definition mds := [md1; md2].
Definition y1 : srule := {| s_text := txt "{ID}"; s_sx := id_sx; s_id := 1; s_uid := 7 |}.
Definition y2 : srule := {| s_text := txt "b{+}_"; s_sx := SSet (fun c => cased 1 false (eq 98) c \/ under c); s_id := 2; s_uid := 65535 |}.
Definition ys := [y1; y2].
Lemma set_unanchored P : unanchored (SSet P).
Proof. intros w (c & _ & ->). exists [c]. reflexivity. Qed.
Lemma id_unanchored : unanchored id_sx.
Proof.
  intros w (u & v & -> & (c & _ & ->) & (n & P)). assert (Q : exists cs, v = map CChar cs).
  { revert v P. induction n as [|n IH]; intros v P; cbn in P; [exists []; exact P|]. destruct P as (p & q & -> & D & P). destruct (IH _ P) as (cs & ->).
    destruct D as [(d & _ & ->)|(d & _ & ->)]; exists (d :: cs); reflexivity. }
  destruct Q as (cs & ->). exists (c :: cs). reflexivity.
Qed.
Lemma md1_means E : regex_means 1 E 2 (m_text md1) (m_sx md1).
Proof.
  apply sr_regex, sr_seq, sr_expr, sr_atom. apply (as_less 1 2 true [] (txt "[a-z]") _ (txt "[b]")).
  - apply as_atom, (sa_class 1 2 true _ (txt "a-z]")). apply cl_of; [|intros (c & t & H & <-); discriminate|exists 97; left; left; lia].
    apply (cb_item 1 false true (txt "a-z") _ (txt "]")); [|apply cb_end].
    apply (ci_range 1 false true (txt "]") [97] 97 [122] 122); [apply cc_plain; try discriminate|apply cc_plain; try discriminate|lia].
  - apply (sa_class 1 2 false _ (txt "b]")). apply cl_of; [|intros (c & t & H & <-); discriminate|exists 98; left; left; reflexivity].
    apply (cb_item 1 false true (txt "b") _ (txt "]")); [|apply cb_end].
    apply (ci_char 1 false true (txt "]") [98] 98); [apply cc_plain; try discriminate|vm_compute; try discriminate].
  - exists 97. split; [left; left; lia|]. intros [[H|[H _]]|[]]; discriminate.
Qed.
Lemma md2_means : regex_means 1 (meanings [md1]) 2 (m_text md2) (m_sx md2).
Proof.
  assert (LE : forall first rest, src 1 (meanings [md1]) 2 first GAtom rest (txt "{L}") (SSet letter)).
  { intros first rest. apply (sr_macro 1 (meanings [md1]) 2 first rest (txt "L")); [|now left]. exists 76, []. split; [reflexivity|]. split; [left; vm_compute; split; discriminate|constructor]. }
  apply sr_regex. apply (sr_cat 1 (meanings [md1]) 2 true [] (txt "{L}") _ (txt "({L}|_)*")); [apply sr_seq, sr_expr, LE|].
  apply sr_seq. apply (sr_postfix 1 (meanings [md1]) 2 false [] (txt "({L}|_)") _ [42] SStar); [|apply po_star|intros (c & t & H & _); discriminate].
  apply (sr_group 1 (meanings [md1]) 2 false [42] (txt "{L}|_")). apply (sr_alt 1 (meanings [md1]) 2 false _ (txt "{L}") _ [95]); [apply sr_regex, sr_seq, sr_expr, LE|].
  apply sr_regex, sr_seq, sr_expr, sr_atom, as_atom, (sa_plain 1 2); [vm_compute; intuition discriminate|discriminate].
Qed.
Lemma mds_ok : smacros_ok kr 2 mds.
Proof.
  apply (sm_snoc kr 2 [md1] md2); [apply (sm_snoc kr 2 [] md1)| | | | | |].
  - constructor.
  - apply md1_means.
  - apply fits_small; reflexivity.
  - apply no_digits; reflexivity.
  - exists 76, []. split; [reflexivity|]. split; [left; vm_compute; split; discriminate|constructor].
  - intros [].
  - apply set_unanchored.
  - apply md2_means.
  - apply fits_small; reflexivity.
  - apply no_digits; reflexivity.
  - exists 73, [68]. split; [reflexivity|]. split; [left; vm_compute; split; discriminate|]. constructor; [left; vm_compute; intuition discriminate|constructor].
  - intros [H|[]]; discriminate.
  - apply id_unanchored.
Qed.
Lemma ys_ok : Forall (srule_ok kr 2 mds) ys.
Proof.
  constructor; [|constructor; [|constructor]].
  - constructor; [|apply fits_small; reflexivity|apply no_digits; reflexivity|split; discriminate|apply unanchored_early, id_unanchored].
    apply sr_regex, sr_seq, sr_expr, (sr_macro 1 (meanings mds) 2 true [] (txt "ID")); [|right; now left].
    exists 73, [68]. split; [reflexivity|]. split; [left; vm_compute; split; discriminate|]. constructor; [left; vm_compute; intuition discriminate|constructor].
  - constructor; [|apply fits_small; reflexivity|apply no_digits; reflexivity|split; discriminate|apply unanchored_early, set_unanchored].
    apply sr_regex, sr_seq, sr_expr, sr_atom. apply (as_more 1 2 true [] [98] _ [95]); [apply as_atom|]; (apply (sa_plain 1 2); [vm_compute; intuition discriminate|discriminate]).
Qed.
Definition my : internals := match build 100 gr (grules_of (push_all kr 2 mds ys)) with Ok m => m | _ => {| i_eoi := 0; i_lookup := []; i_alphabet := []; i_features := 0; i_dfa := [] |} end.
Definition text_y := txt "ac_b_z1".
Definition got_y (p : nat) : option (N * N * nat * nat) :=
  match lookup 50 50 kl my text_y (at0 p) with Ok (r, None) => Some (r_id r, r_uid r, r_first r, r_second r) | _ => None end.
Example C51_macro_case : smacros_ok kr 2 mds /\ Forall (srule_ok kr 2 mds) ys /\ build 100 gr (grules_of (push_all kr 2 mds ys)) = Ok my /\
  N.of_nat (2 * set_count ys) < eol_tok gr /\ covers kl my /\ Forall (fits 1) text_y /\ ready text_y (at0 0) /\
  map got_y [0; 3; 4; 5; 6]%nat = [Some (1, 7, 0%nat, 3%nat); Some (2, 65535, 3%nat, 4%nat); Some (2, 65535, 4%nat, 5%nat); Some (1, 7, 5%nat, 6%nat); Some (65535, 65535, 6%nat, 7%nat)].
Proof.
  split; [exact mds_ok|]. split; [exact ys_ok|]. split; [vm_compute; reflexivity|]. split; [vm_compute; reflexivity|]. split; [vm_compute; congruence|].
  split; [repeat constructor|]. split; [repeat split; vm_compute; lia|]. vm_compute. reflexivity.
Qed.
(** A lexer for 32 bit characters: strings in single quotes, and single characters. *)
Definition kw : rcfg := {| r_bytes := 4; r_bits := 16 |}.
Definition gw : gcfg := {| g_bits := 16; g_bytes := 4 |}.
Definition klw : cfg := {| f_bol := false; f_eol := false; f_multi := false; f_rec := false; f_adv := true;
                           c_bytes := 4; c_bits := 16 |}.
Definition quote : sx := SSet (cased 4 false (eq 39)).
Definition no_quote : N -> Prop := outside 4 (fun c => cased 4 false (eq 39) c \/ False).
Definition w1 : srule := {| s_text := txt "'[^']*'"; s_sx := SCat quote (SCat (SStar (SSet no_quote)) quote); s_id := 1; s_uid := 65535 |}.
Definition w2 : srule := {| s_text := txt "."; s_sx := SSet (any_char 4 2); s_id := 2; s_uid := 65535 |}.
Definition ws := [w1; w2].
Lemma quote_means first rest : src 4 [] 2 first GSeq rest [39] quote.
Proof. apply sr_seq, sr_expr, sr_atom, as_atom, (sa_plain 4 2); [vm_compute; intuition discriminate|discriminate]. Qed.
Lemma w1_means : regex_means 4 [] 2 (s_text w1) (s_sx w1).
Proof.
  apply sr_regex. apply (sr_cat 4 [] 2 true [] [39] quote (txt "[^']*'")); [apply quote_means|].
  apply (sr_cat 4 [] 2 false [] (txt "[^']*") (SStar (SSet no_quote)) [39]); [|apply quote_means].
  apply sr_seq. apply (sr_postfix 4 [] 2 false [39] (txt "[^']") (SSet no_quote) [42] SStar); [|apply po_star|intros (c & t & E & <-); discriminate].
  apply sr_atom, as_atom. apply (sa_class 4 2 false _ (txt "^']")). apply cl_not; [|exists 0; split; [vm_compute; discriminate|intros [[H|[H _]]|[]]; discriminate]].
  apply (cb_item 4 false true [39] _ (txt "]")); [|apply cb_end]. apply ci_char; [apply cc_plain; discriminate|intros t E; discriminate].
Qed.
Lemma fits_wide l : forallb (fun c => c <=? 0x10ffff) l = true -> small 4 l.
Proof. intros H. apply Forall_forall. rewrite forallb_forall in H. intros c Hc. apply N.leb_le. exact (H c Hc). Qed.
Lemma ws_ok : Forall (srule_ok kw 2 []) ws.
Proof.
  constructor; [|constructor; [|constructor]].
  - constructor; [apply w1_means|apply fits_wide; reflexivity|apply no_digits; reflexivity|split; discriminate|apply unanchored_early].
    intros w (u & v & -> & (c & _ & ->) & (u1 & v1 & -> & (n & P) & (d & _ & ->))). assert (Q : exists cs, u1 = map CChar cs).
    { revert u1 P. induction n as [|n IH]; intros v1 P; cbn in P; [exists []; exact P|]. destruct P as (p & q & -> & (e & _ & ->) & P). destruct (IH _ P) as (cs & ->). exists (e :: cs). reflexivity. }
    destruct Q as (cs & ->). exists (c :: cs ++ [d]). cbn. now rewrite map_app.
  - constructor; [apply sr_regex, sr_seq, sr_expr, sr_atom, as_atom, sa_dot|apply fits_wide; reflexivity|apply no_digits; reflexivity|split; discriminate|apply unanchored_early].
    intros w (c & _ & ->). exists [c]. reflexivity.
Qed.
Definition mw : internals := match build 100 gw (grules_of (push_all kw 2 [] ws)) with Ok m => m | _ => {| i_eoi := 0; i_lookup := []; i_alphabet := []; i_features := 0; i_dfa := [] |} end.
Definition wide_text : list N := [39; 0x1f600; 10; 0xe9; 39; 0x10ffff; 10].
Definition gotw (p : nat) : option (N * nat * nat) :=
  match lookup 50 50 klw mw wide_text (at0 p) with Ok (r, None) => Some (r_id r, r_first r, r_second r) | _ => None end.
Example C51_wide_case : Forall (srule_ok kw 2 []) ws /\
  (forall s, In s (gr_states (grules_of (push_all kw 2 [] ws))) -> N.of_nat (List.length (all_sets (g_bytes gw) s)) < eol_tok gw) /\
  (forall x t, In x (rules_at (push_all kw 2 [] ws) 0) -> In t (gr_tokens x) -> sliceable (g_bytes gw) t) /\
  build 100 gw (grules_of (push_all kw 2 [] ws)) = Ok mw /\ covers klw mw /\ Forall (fits 4) wide_text /\ known_chars 4 wide_text /\ ready wide_text (at0 0) /\
  map gotw [0; 5; 6; 7]%nat = [Some (1, 0%nat, 5%nat); Some (2, 5%nat, 6%nat); Some (65535, 6%nat, 7%nat); Some (0, 7%nat, 7%nat)].
Proof.
  assert (S : simple gw (push_all kw 2 [] ws)) by (apply simpleb_ok; vm_compute; reflexivity). destruct S as (_ & _ & S3 & S4).
  split; [exact ws_ok|]. split; [exact S3|]. split; [exact (S4 0%nat)|]. split; [vm_compute; reflexivity|]. split; [vm_compute; congruence|].
  split; [repeat constructor|]. split; [right; right; repeat constructor; vm_compute; discriminate|]. split; [repeat split; vm_compute; lia|]. vm_compute. reflexivity.
Qed.
(** An operator behind quotes belongs to the last character. *)
Example C51_quoted_operator : regex_means 1 [] 2 (in_quotes (txt "ab") ++ [42])
  (SCat (SSet (cased 1 false (eq 97))) (SStar (SSet (cased 1 false (eq 98))))).
Proof.
  apply sr_regex. apply (sr_quoted_postfix 1 [] 2 true [] [97] (SSet (cased 1 false (eq 97))) [98] (cased 1 false (eq 98)) [42] SStar).
  - apply qu_one, (qc_plain 1 2); discriminate.
  - apply (qc_plain 1 2); discriminate.
  - apply po_star.
  - intros (c & t & E & _). discriminate.
Qed.
(** So the texts for ab in quotes and in parentheses mean different things with a star. *)
Theorem C51_quotes_group_refuted : exists q s s', regex_means 1 [] 2 q s /\ regex_means 1 [] 2 (q ++ [42]) s' /\
  ~ (forall w, slang s' w <-> exists n, power (slang s) n w).
Proof.
  exists (in_quotes (txt "ab")), (literal 1 2 (txt "ab")), (SCat (SSet (cased 1 false (eq 97))) (SStar (SSet (cased 1 false (eq 98))))). split; [apply quoted_means; discriminate|]. split; [apply C51_quoted_operator|].
  intros H. destruct (proj2 (H []) (ex_intro _ O eq_refl)) as (u & v & E & (c & _ & ->) & _). discriminate.
Qed.
Print Assumptions C51_quotes_group_refuted.

(** ** C36: texts that stand for themselves *)
Theorem C36_escaped b fl ms s rule : f_skip_ws fl = false -> f_icase fl = false -> s <> [] -> small b s ->
  exists w r, tokenise b fl ms (escaped s) rule = Ok [between w] /\ gram GRegex r w /\ forall u, clang r u /\ known b u <-> u = map CChar s.
Proof. exact (escaped_literal b fl ms s rule). Qed.
Theorem C36_quoted b fl ms s rule : f_icase fl = false -> s <> [] -> small b s ->
  exists w r, tokenise b fl ms (in_quotes s) rule = Ok [between w] /\ gram GRegex r w /\ forall u, clang r u /\ known b u <-> u = map CChar s.
Proof. exact (quoted_literal b fl ms s rule). Qed.
(** With icase every character may be in its other case. *)
Theorem C36_any_case b fl ms s rule : s <> [] -> small b s ->
  exists w r, tokenise b fl ms (in_quotes s) rule = Ok [between w] /\ gram GRegex r w /\
    forall u, clang r u /\ known b u <-> exists cs, u = map CChar cs /\ Forall2 (fun c d => cased b (f_icase fl) (eq c) d) s cs.
Proof. exact (quoted_cases b fl ms s rule). Qed.
Print Assumptions C36_escaped.
Print Assumptions C36_quoted.
Print Assumptions C36_any_case.
Example C36_case : escaped (txt "a.b*") = txt "a\.b\*" /\ small 1 (txt "a.b*") /\ in_quotes [34] = [34; 92; 34; 34] /\
  (exists l, tokenise 1 2 [] (escaped (txt "a.b*")) true = Ok [l] /\ List.length l = 6%nat) /\
  (exists l, tokenise 1 2 [] (in_quotes [34]) true = Ok [l] /\ List.length l = 3%nat).
Proof. repeat split; try (vm_compute; reflexivity); [apply fits_small; reflexivity|eexists; split; vm_compute; reflexivity..]. Qed.

(** ** C37: characters written with a backslash *)
Theorem C37_octal b inp n r : decode_octal b inp = Ok (n, r) <->
  exists ds, inp = ds ++ r /\ octal_number ds n /\ (List.length ds <= 3)%nat /\ (List.length ds = 3%nat \/ ~ begins octal_digit r) /\ n <= top b.
Proof. exact (decode_octal_iff b inp n r). Qed.
Theorem C37_hexadecimal b inp n r : decode_hex b inp = Ok (n, r) <->
  exists ds m, inp = ds ++ r /\ hex_number ds m /\ ds <> [] /\ ~ begins (fun c => exists v, hex_digit c v) r /\ n = m mod 2 ^ 64 /\ n <= top b.
Proof. exact (decode_hex_iff b inp n r). Qed.
Theorem C37_control inp n r : decode_control inp = Ok (n, r) <->
  exists c, inp = c :: r /\ ((lower c /\ n = c - 96) \/ (upper c /\ n = c - 64) \/ (c = 64 /\ n = 0)).
Proof. exact (decode_control_iff inp n r). Qed.
Theorem C37_escape b inp c r : hex_fits inp -> (escape_sequence b inp = Ok (EChar c, r) <-> exists e, inp = e ++ r /\ echar b r e c).
Proof. exact (escape_char_iff b inp c r). Qed.
Theorem C37_or_rejected b inp : match escape_sequence b inp with Ok _ | Throw ETokenise => True | _ => False end.
Proof. exact (escape_total b inp). Qed.
(** Values of 2^64 and more are not rejected. *)
Theorem C37_all_values_refuted : exists ds n, hex_number ds n /\ 2 ^ 64 < n /\ escape_sequence 1 (120 :: ds) = Ok (EChar 65, []).
Proof.
  exists (txt "10000000000000041"), (2 ^ 64 + 65). split; [|split; [reflexivity|vm_compute; reflexivity]].
  apply hex_number_iff. split; [repeat constructor|vm_compute; reflexivity].
Qed.
Print Assumptions C37_octal.
Print Assumptions C37_hexadecimal.
Print Assumptions C37_control.
Print Assumptions C37_escape.
Print Assumptions C37_or_rejected.
Print Assumptions C37_all_values_refuted.
Example C37_case : echar 1 (txt "g") (txt "x4A") 74 /\ hex_fits (txt "x4Ag") /\ escape_sequence 1 (txt "x4Ag") = Ok (EChar 74, txt "g") /\
  escape_sequence 1 (txt "x100") = Throw ETokenise /\ escape_sequence 4 (txt "x10ffff") = Ok (EChar 0x10ffff, []) /\
  escape_sequence 1 (txt "1012") = Ok (EChar 65, txt "2") /\ escape_sequence 1 (txt "cA") = Ok (EChar 1, []).
Proof.
  split; [|split; [|repeat split; vm_compute; reflexivity]].
  - apply ec_hex; [apply hex_number_iff; split; [repeat constructor|vm_compute; reflexivity]|discriminate| |vm_compute; discriminate].
    intros (c & t & [= <- <-] & v & H). inversion H; lia.
  - intros ds m r E H _. apply hex_number_iff in H as (F & ->). injection E as E. destruct ds as [|d1 [|d2 [|d3 ds]]]; [reflexivity| | |].
    + injection E as <- _. reflexivity.
    + injection E as <- <- _. reflexivity.
    + injection E as <- <- <- _. inversion F as [|? ? _ F1]; inversion F1 as [|? ? _ F2]; inversion F2 as [|? ? F3 _]. discriminate.
Qed.

(** ** C38: repeat counts, after the opening brace *)
Theorem C38_counts lhs inp : numbers_fit inp -> begins digit inp ->
  (forall t r, open_curly lhs inp = Ok (t, r) ->
    exists ds mn mx (lz : bool), inp = ds ++ 125 :: (if lz then 63 :: r else r) /\ (lz = false -> ~ begins (eq 63) r) /\
      counts ds mn mx /\ sound_counts mn mx /\ repeats t mn mx /\ is_lazy_type (tk_type t) = lz) /\
  (forall ds mn mx (lz : bool) r, inp = ds ++ 125 :: (if lz then 63 :: r else r) -> (lz = false -> ~ begins (eq 63) r) ->
    counts ds mn mx -> sound_counts mn mx -> exists t, open_curly lhs inp = Ok (t, r)).
Proof. exact (counts_iff lhs inp). Qed.
Lemma all_digits l : forallb is_digit l = true -> Forall digit l.
Proof. intros H. apply Forall_forall. rewrite forallb_forall in H. intros c Hc. apply is_digit_iff. auto. Qed.
(** Without the bound: counts that are not sound are accepted, sound ones are not. *)
Theorem C38_any_numbers_refuted : exists ds mn mx t, counts ds mn (Some mx) /\ mx < mn /\ open_curly CHARSET (ds ++ [125]) = Ok (t, []).
Proof.
  eexists (txt "18446744073709551616" ++ 44 :: txt "1"), (2 ^ 64), 1, _. split; [|split; [reflexivity|vm_compute; reflexivity]].
  apply cn_two; (split; [discriminate|]; split; [apply all_digits; reflexivity|vm_compute; reflexivity]).
Qed.
Theorem C38_sound_accepted_refuted : exists ds n, counts ds n (Some n) /\ 0 < n /\ open_curly CHARSET (ds ++ [125]) = Throw ETokenise.
Proof.
  eexists (txt "18446744073709551616"), (2 ^ 64). split; [|split; [reflexivity|vm_compute; reflexivity]].
  apply cn_one; (split; [discriminate|]; split; [apply all_digits; reflexivity|vm_compute; reflexivity]).
Qed.
Print Assumptions C38_counts.
Print Assumptions C38_any_numbers_refuted.
Print Assumptions C38_sound_accepted_refuted.
Example C38_case : counts (txt "2,4") 2 (Some 4) /\ sound_counts 2 (Some 4) /\ begins digit (txt "2,4}x") /\
  (exists t, open_curly CHARSET (txt "2,4}x") = Ok (t, txt "x") /\ tk_type t = REPEATN) /\
  open_curly CHARSET (txt "4,2}") = Throw ETokenise /\ open_curly CHARSET (txt "0}") = Throw ETokenise /\
  open_curly CHARSET (txt "2") = Throw ETokenise /\ open_curly CHARSET (txt "2,a}") = Throw ETokenise.
Proof.
  split; [apply (cn_two [50] 2 [52] 4); (split; [discriminate|]; split; [apply all_digits; reflexivity|vm_compute; reflexivity])|]. split; [vm_compute; split; discriminate|].
  split; [exists 50, (txt ",4}x"); split; [reflexivity|unfold digit; lia]|]. split; [eexists; split; vm_compute; reflexivity|]. repeat split; vm_compute; reflexivity.
Qed.

(** ** C39: classes *)
(** A class contains what its text says, a range with icase also the other case. *)
Theorem C39_range b ic t P x y : den b t P -> x <= y -> y <= max_char b ->
  den b (add_range b ic t (x, y)) (fun d => P d \/ cased b ic (fun c => x <= c <= y) d).
Proof. exact (add_range_den b ic t P x y). Qed.
Theorem C39_class b ic t P R : class b ic t P -> small b (t ++ R) -> exists u, charset nesting b ic (t ++ R) = Ok (u, R) /\ den b u P.
Proof. exact (class_reads b ic t P R). Qed.
Theorem C39_escaped_class b ic t P : eclass b ic t P ->
  exists s u, (forall r, escape_sequence b (t ++ r) = Ok (EClass s, r)) /\ charset nesting b ic (tl s) = Ok (u, []) /\ den b u P.
Proof. exact (eclass_reads b ic t P). Qed.
Theorem C39_closed_under_case : (forall t P, eclass 1 true t P -> closed P) /\ (forall t P, class 1 true t P -> closed P).
Proof. exact (conj (proj1 classes_closed) (proj2 (proj2 (proj2 classes_closed)))). Qed.
(** Not so for wide characters: the pairs of the table map U+0100 to itself. *)
Theorem C39_wide_refuted : exists u, charset nesting 2 true (txt "\x100]") = Ok (u, []) /\ mem 256 u /\ ~ mem 257 u.
Proof.
  exists [(256, 256)]. split; [vm_compute; reflexivity|]. split; [apply mem_cons; left; lia|].
  intros H. apply mem_cons in H as [H|H]; [lia|now apply mem_nil in H].
Qed.
(** [:print:] of wide characters is the class of control characters and such. *)
Theorem C39_print_refuted : exists u, charset nesting 4 false (txt "[:print:]]") = Ok (u, []) /\ mem 0 u /\ ~ mem 65 u.
Proof.
  destruct (charset nesting 4 false (txt "[:print:]]")) as [[u r]| | |] eqn:E; vm_compute in E; try discriminate. injection E as <- <-.
  eexists. split; [reflexivity|]. split; [apply mem_cons; left; lia|].
  intros H. repeat (apply mem_cons in H as [H|H]; [lia|]). now apply mem_nil in H.
Qed.
(** With 16 bit characters the classes of letters are refused. *)
Theorem C39_letters_refuted : charset nesting 4 false (txt "[:alpha:]]") <> Throw ETokenise /\ charset nesting 2 false (txt "[:alpha:]]") = Throw ETokenise.
Proof.
  split; [|vm_compute; reflexivity]. assert (B : match charset nesting 4 false (txt "[:alpha:]]") with Throw ETokenise => false | _ => true end = true) by (vm_compute; reflexivity).
  intros E. rewrite E in B. clear E. exact (Bool.diff_false_true B).
Qed.
Print Assumptions C39_range.
Print Assumptions C39_class.
Print Assumptions C39_escaped_class.
Print Assumptions C39_closed_under_case.
Print Assumptions C39_wide_refuted.
Print Assumptions C39_print_refuted.
Print Assumptions C39_letters_refuted.
Example C39_case : charset nesting 1 true (txt "a-cX0]z") = Ok ([(48, 48); (65, 67); (88, 88); (97, 99); (120, 120)], txt "z") /\
  charset nesting 1 true (txt "^a]") = Ok ([(0, 64); (66, 96); (98, 255)], []).
Proof. split; vm_compute; reflexivity. Qed.
