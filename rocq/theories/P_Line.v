(** C64: lexers with rules that end with $ do what their texts say. *)
From Coq Require Import String.
From Verif Require Import Base Minimise GenCpp GenCppSpec GenBuilt StringToken StringTokenSpec StringTokenProofs StateMachine RegexSpec ReToken DfaSpec Grammar Tree Parser
  Generator Build Lookup TableSpec LookupSpec RuleSpec BuildSpec BuildCheck Iterator
  ReTokeniser ReTokeniserNext Rules TokeniseSpec RulesSpec RulesBuild RulesCheck
  SourceSpec SourceSets SourceEsc SourceClass SourceClass2 SourceRep SourceLex SourceAll SourceLiteral SourceLexer SourceTop TokenList LineSpec LineTop LineRoutes.
Local Open Scope N_scope.

(** push() accepts the rules, one after the other. *)
Theorem C64_pushes_succeed k fl mds xs y : 1 < rnpos k -> smacros_ok k fl mds -> Forall (text_says k fl mds) (xs ++ [y]) ->
  snd (push_rule k (s_text y) (s_id y) (s_uid y) (push_all k fl mds xs)) = Ok tt.
Proof. exact (lines_succeed k fl mds xs y). Qed.
(** Each call of lookup() returns the longest match; a rule with $ matches only at the
    end of a line and comes before those without. *)
Theorem C64_lexer_with_dollar k g kc fl mds xs f m inp res fuel inner : 1 < rnpos k -> g_bits g = r_bits k -> g_bytes g = r_bytes k -> r_bytes k = 1 \/ r_bytes k = 2 ->
  agree kc g -> smacros_ok k fl mds -> Forall (lrule_ok k fl mds) xs -> sapart (r_bytes k) xs ->
  (forall s, In s (gr_states (grules_of (push_all k fl mds xs))) -> N.of_nat (List.length (all_sets (g_bytes g) s)) < eol_tok g) ->
  build f g (grules_of (push_all k fl mds xs)) = Ok m -> f_adv kc = true -> Forall (fits (c_bytes kc)) inp ->
  ready inp res -> (List.length inp < fuel)%nat -> (2 * List.length inp + 1 < inner)%nat ->
  exists res', lookup fuel inner kc m inp res = Ok (res', None) /\ ready inp res' /\
    dreads (npos kc) (skip_id kc) (f_bol kc) (f_eol kc) xs inp (r_bol res) (r_second res) (r_id res') (r_uid res') (r_first res') (r_second res') (r_bol res').
Proof.
  intros H1 H2 H3 H4 H5 H6 H7 H8 H9 H10 H11 H12. exact (texts_to_lines k g kc fl mds xs f m inp H1 H2 H3 H4 H5 H6 H7 H8 H9 H10 H11 H12 res fuel inner).
Qed.
(** For characters of one byte the number of sets is no obstacle. *)
Theorem C64_few_sets k g fl mds xs : 1 < rnpos k -> g_bytes g = 1 -> smacros_ok k fl mds -> Forall (text_says k fl mds) xs -> N.of_nat (2 * set_count xs) < eol_tok g ->
  forall s, In s (gr_states (grules_of (push_all k fl mds xs))) -> N.of_nat (List.length (all_sets (g_bytes g) s)) < eol_tok g.
Proof. exact (narrow_said k g fl mds xs). Qed.
(** That leaves no choice. *)
Theorem C64_determined none skip see ends xs inp bol p id uid i j b : dreads none skip see ends xs inp bol p id uid i j b ->
  forall id' uid' i' j' b', dreads none skip see ends xs inp bol p id' uid' i' j' b' -> id = id' /\ uid = uid' /\ i = i' /\ j = j' /\ b = b'.
Proof. exact (dreads_det none skip see ends xs inp bol p id uid i j b). Qed.
(** Nor for all the tokens, which iterators visit and replace() changes. *)
Theorem C64_all_tokens k g kc fl mds xs f m inp : 1 < rnpos k -> g_bits g = r_bits k -> g_bytes g = r_bytes k -> r_bytes k = 1 \/ r_bytes k = 2 ->
  agree kc g -> smacros_ok k fl mds -> Forall (lrule_ok k fl mds) xs -> sapart (r_bytes k) xs ->
  (forall s, In s (gr_states (grules_of (push_all k fl mds xs))) -> N.of_nat (List.length (all_sets (g_bytes g) s)) < eol_tok g) ->
  build f g (grules_of (push_all k fl mds xs)) = Ok m -> f_adv kc = true -> Forall (fits (c_bytes kc)) inp ->
  exists l, tokens (dreads (npos kc) (skip_id kc) (f_bol kc) (f_eol kc) xs inp) true 0 l /\
    (forall l', tokens (dreads (npos kc) (skip_id kc) (f_bol kc) (f_eol kc) xs inp) true 0 l' -> l' = l) /\
    forall n fuel inner, (List.length inp < n)%nat -> (List.length inp < fuel)%nat -> (2 * List.length inp + 1 < inner)%nat ->
      (exists rs, visit_all n fuel inner kc m inp 0 true 0 = Ok (rs, None) /\ map seen rs = l) /\
      forall fm out, replace n fuel inner kc m inp fm insert out = Ok (out ++ rewritten inp fm 0 l).
Proof. exact (lines_all_tokens k g kc fl mds xs f m inp). Qed.
(** The minimised machine gives the same tokens, and generated code, if the lines end with \n. *)
Theorem C64_every_route k g kc fl mds xs f m inp : 1 < rnpos k -> g_bits g = r_bits k -> g_bytes g = r_bytes k -> r_bytes k = 1 \/ r_bytes k = 2 ->
  agree kc g -> smacros_ok k fl mds -> Forall (lrule_ok k fl mds) xs -> sapart (r_bytes k) xs ->
  (forall s, In s (gr_states (grules_of (push_all k fl mds xs))) -> N.of_nat (List.length (all_sets (g_bytes g) s)) < eol_tok g) ->
  build f g (grules_of (push_all k fl mds xs)) = Ok m -> f_adv kc = true -> Forall (fits (c_bytes kc)) inp ->
  exists l, tokens (dreads (npos kc) (skip_id kc) (f_bol kc) (f_eol kc) xs inp) true 0 l /\
    (forall l', tokens (dreads (npos kc) (skip_id kc) (f_bol kc) (f_eol kc) xs inp) true 0 l' -> l' = l) /\ lines_routes kc m inp l.
Proof. exact (lines_all_routes k g kc fl mds xs f m inp). Qed.
Print Assumptions C64_pushes_succeed.
Print Assumptions C64_lexer_with_dollar.
Print Assumptions C64_few_sets.
Print Assumptions C64_determined.
Print Assumptions C64_all_tokens.
Print Assumptions C64_every_route.

(** [a-c]+$, [a-c]+ and \n, which is skipped. *)
Definition kr : rcfg := {| r_bytes := 1; r_bits := 16 |}.
Definition gr : gcfg := {| g_bits := 16; g_bytes := 1 |}.
Definition kl : cfg := {| f_bol := false; f_eol := true; f_multi := false; f_rec := false; f_adv := true;
                          c_bytes := 1; c_bits := 16 |}.
Definition abc (c : N) : Prop := cased 1 false (fun c => 97 <= c <= 99) c \/ False.
Definition x1 : srule := {| s_text := txt "[a-c]+$"; s_sx := SCat (SPlus (SSet abc)) SEol; s_id := 1; s_uid := 7 |}.
Definition x2 : srule := {| s_text := txt "[a-c]+"; s_sx := SPlus (SSet abc); s_id := 2; s_uid := 65535 |}.
Definition x3 : srule := {| s_text := txt "\n"; s_sx := SSet (cased 1 false (eq 10)); s_id := 65534; s_uid := 65535 |}.
Definition xs := [x1; x2; x3].
Lemma fits_small l : forallb (fun c => c <=? 255) l = true -> small 1 l.
Proof. intros H. apply Forall_forall. rewrite forallb_forall in H. intros c Hc. apply N.leb_le. exact (H c Hc). Qed.
Lemma no_digits l : forallb (fun c => negb (is_digit c)) l = true -> numbers_fit l.
Proof.
  intros H p ds r E D. destruct ds as [|d ds]; [reflexivity|]. exfalso. rewrite forallb_forall in H. assert (I : In d l) by (rewrite E; apply in_or_app; right; now left).
  specialize (H d I). inversion D as [|? ? Hd _]; subst. apply is_digit_iff in Hd. rewrite Hd in H. discriminate.
Qed.
Lemma word_means rest : ~ begins (eq 63) rest -> src 1 [] 2 true GExpr rest (txt "[a-c]+") (SPlus (SSet abc)).
Proof.
  intros N. apply (sr_postfix 1 [] 2 true rest (txt "[a-c]") (SSet abc) [43] SPlus); [|apply po_plus|exact N].
  apply sr_atom, as_atom. apply (sa_class 1 2 true _ (txt "a-c]")). apply cl_of; [|intros (c & t & E & <-); discriminate|exists 97; left; left; lia].
  apply (cb_item 1 false true (txt "a-c") _ (txt "]")); [|apply cb_end].
  apply (ci_range 1 false true (txt "]") [97] 97 [99] 99); [apply cc_plain; try discriminate|apply cc_plain; try discriminate|lia].
Qed.
Lemma abc_iff c : abc c -> 97 <= c <= 99.
Proof. intros [[H|[H _]]|[]]; [lia|discriminate]. Qed.
Lemma word_words w : slang (SPlus (SSet abc)) w -> exists c cs, w = CChar c :: map CChar cs /\ Forall (fun c => 97 <= c <= 99) (c :: cs).
Proof.
  intros (n & L & H). destruct n as [|n]; [lia|]. destruct H as (p & q & -> & (c & A & ->) & H). exists c. apply abc_iff in A. clear L.
  assert (K : exists cs, q = map CChar cs /\ Forall (fun c => 97 <= c <= 99) cs).
  { revert q H. induction n as [|n IH]; intros q H; cbn in H; [exists []; auto|]. destruct H as (u & v & -> & (d & D & ->) & H). destruct (IH v H) as (cs & -> & F).
    exists (d :: cs). split; [reflexivity|]. constructor; [now apply abc_iff|exact F]. }
  destruct K as (cs & -> & F). exists cs. split; [reflexivity|constructor; auto].
Qed.
Lemma xs_words x w : In x xs -> slang (s_sx x) w ->
  (exists c cs e, w = CChar c :: map CChar cs ++ dollar e /\ Forall (fun c => 97 <= c <= 99) (c :: cs)) \/ w = [CChar 10].
Proof.
  intros [<-|[<-|[<-|[]]]] H.
  - left. destruct H as (u & v & -> & H & ->). apply word_words in H as (c & cs & -> & F). exists c, cs, true. auto.
  - left. apply word_words in H as (c & cs & -> & F). exists c, cs, false. cbn. rewrite app_nil_r. auto.
  - right. destruct H as (c & [H|[H _]] & ->); [now subst|discriminate].
Qed.
Lemma xs_ok : Forall (lrule_ok kr 2 []) xs.
Proof.
  apply Forall_forall. intros x Hx. pose proof (fun w => xs_words x w Hx) as W.
  assert (L : loose (s_sx x)).
  { intros w H. destruct (W w H) as [(c & cs & e & -> & _)| ->]; [exists (c :: cs), e; reflexivity|exists [10], false; reflexivity]. }
  assert (S : solid (s_sx x)).
  { split; [|split]; intros H; destruct (W _ H) as [(c & cs & e & E & _)|E]; discriminate. }
  constructor; auto using loose_lined. clear W L S. destruct Hx as [<-|[<-|[<-|[]]]].
  - constructor; [|apply fits_small; reflexivity|apply no_digits; reflexivity|split; discriminate].
    apply sr_regex. apply (sr_cat 1 [] 2 true [] (txt "[a-c]+") _ [36] SEol); [apply sr_seq, word_means|apply sr_seq, sr_expr, sr_eol]. intros (c & t & E & <-); discriminate.
  - constructor; [|apply fits_small; reflexivity|apply no_digits; reflexivity|split; discriminate]. apply sr_regex, sr_seq, word_means. intros (c & t & E & _); discriminate.
  - constructor; [|apply fits_small; reflexivity|apply no_digits; reflexivity|split; discriminate].
    apply sr_regex, sr_seq, sr_expr, sr_atom, as_atom. apply (sa_escape 1 2 true _ [110] 10). apply ec_letter. vm_compute. auto 10.
Qed.
Lemma words_small x u v c : In x xs -> u <> [] -> slang (s_sx x) (u ++ CChar c :: v) -> 97 <= c <= 99.
Proof.
  intros I N H. destruct (xs_words x _ I H) as [(d & cs & e & E & F)|E].
  - destruct u as [|a u]; [congruence|]. cbn in E. injection E as _ E. assert (J : In (CChar c) (map CChar cs ++ dollar e)) by (rewrite <- E; apply in_or_app; right; now left).
    apply in_app_or in J as [J|J]; [|destruct e; [destruct J as [J|[]]; discriminate|destruct J]]. apply in_map_iff in J as (c' & E' & J). injection E' as ->.
    inversion F as [|? ? _ F']; subst. rewrite Forall_forall in F'. auto.
  - destruct u as [|a [|b u]]; [congruence|discriminate|discriminate].
Qed.
Lemma words_begin x u v : In x xs -> slang (s_sx x) (u ++ CEol :: v) -> u <> [].
Proof. intros I H ->. destruct (xs_words x _ I H) as [(d & cs & e & E & _)|E]; discriminate. Qed.
Lemma words_bol x v : In x xs -> ~ slang (s_sx x) (CBol :: v).
Proof. intros I H. destruct (xs_words x _ I H) as [(d & cs & e & E & _)|E]; discriminate. Qed.
Lemma xs_apart : sapart 1 xs.
Proof.
  intros x y u v1 v2 c Ix Iy Rx Ry. assert (S : 97 <= c <= 99).
  { destruct Rx as [Rx|(w & E & Rx)].
    - pose proof (words_begin x u v1 Ix Rx) as N. destruct Ry as [Ry|(w & E & Ry)]; [exact (words_small y u v2 c Iy N Ry)|].
      destruct u as [|a u]; [congruence|]. cbn in E. injection E as -> E. exfalso. exact (words_bol x _ Ix Rx).
    - destruct u as [|a u]; [discriminate|]. cbn in E. injection E as -> E. subst w. pose proof (words_begin x u v1 Ix Rx) as N.
      destruct Ry as [Ry|(w & E & Ry)]; [exfalso; exact (words_bol y _ Iy Ry)|]. cbn in E. injection E as E. subst w. exact (words_small y u v2 c Iy N Ry). }
  unfold breaking. lia.
Qed.
Definition mm : internals := match build 200 gr (grules_of (push_all kr 2 [] xs)) with Ok m => m | _ => {| i_eoi := 0; i_lookup := []; i_alphabet := []; i_features := 0; i_dfa := [] |} end.
Definition mini : internals := match minimise 16 mm with Ok m => m | _ => mm end.
(** "ab\na!\nc\n": ab and c end lines, a does not, ! is no token. *)
Definition text : list N := [97; 98; 10; 97; 33; 10; 99; 10].
Definition all : list shows := [(1, 7, 0%nat, 2%nat); (2, 65535, 3%nat, 4%nat); (65535, 65535, 4%nat, 5%nat); (1, 7, 6%nat, 7%nat)].
Definition show (r : res (list results * option err)) : option (list shows) := match r with Ok (rs, None) => Some (map seen rs) | _ => None end.
Definition brackets : format := fun id => if id =? 1 then Some (fun w => txt "[" ++ w ++ txt "]") else None.
Example C64_case : 1 < rnpos kr /\ agree kl gr /\ smacros_ok kr 2 [] /\ Forall (lrule_ok kr 2 []) xs /\ sapart 1 xs /\ N.of_nat (2 * set_count xs) < eol_tok gr /\
  build 200 gr (grules_of (push_all kr 2 [] xs)) = Ok mm /\ Forall (fits 1) text /\ minimise 16 mm = Ok mini /\
  GenBuilt.covers kl mm /\ GenCpp.has (i_features mm) fb_eol = true /\ lines_suit kl text /\
  show (visit_all 50 50 50 kl mm text 0 true 0) = Some all /\ show (visit_all 50 50 50 kl mini text 0 true 0) = Some all /\
  match gen_all 50 100 50 16 1 false mm text (new_results kl 0 true 0) with Ok rs => Some (map seen rs) | _ => None end = Some all /\
  replace 50 50 50 kl mm text brackets insert [] = Ok [91; 97; 98; 93; 10; 97; 33; 10; 91; 99; 93; 10].
Proof.
  split; [reflexivity|]. split; [split; reflexivity|]. split; [constructor|]. split; [exact xs_ok|]. split; [exact xs_apart|]. split; [vm_compute; reflexivity|].
  split; [vm_compute; reflexivity|]. split; [apply Forall_forall; intros c I; cbn in I; unfold fits; repeat (destruct I as [<-|I]; [reflexivity|]); destruct I|]. split; [vm_compute; reflexivity|].
  split; [constructor; try reflexivity; vm_compute; intros; discriminate || lia|]. split; [vm_compute; reflexivity|].
  split; [split; [reflexivity|split; [|reflexivity]]; cbn; intros H; repeat (destruct H as [H|H]; [discriminate|]); destruct H|].
  split; [vm_compute; reflexivity|]. split; [vm_compute; reflexivity|]. split; vm_compute; reflexivity.
Qed.
