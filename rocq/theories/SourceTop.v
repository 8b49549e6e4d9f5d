(** From texts to tokens: rules pushed as texts, built, and looked up. *)
From Verif Require Import Base StringToken StringTokenSpec StringTokenProofs RegexSpec StateMachine ReToken ReTokeniser ReTokeniserNext Grammar GramUnique RuleSpec
  ParserProofs Tree Parser Generator Build Lookup TableSpec LookupSpec DfaSpec BuildSpec BolWords BuildLookup BuildErrs BuildThms BuildCheck ParserKeys
  Rules TokeniseSpec TokeniseProofs StripProofs PruneProofs TokeniseAll
  RulesSpec RulesInv RulesContent RulesFeat RulesBuild RulesTop RulesPush
  SourceSpec SourceSets SourceClass SourceRep SourceLex SourceLead SourceAll SourceLexer SourceLiteral.
Local Open Scope N_scope.

(** ** Every token occurs in a word *)
Fixpoint times {A} (n : nat) (u : list A) : list A := match n with O => [] | S n => u ++ times n u end.
Lemma power_times {A} (L : list A -> Prop) u : L u -> forall n, power L n (times n u).
Proof. intros H. induction n as [|n IH]; cbn; [reflexivity|]. eauto. Qed.
Lemma in_times {A} (x : A) u n : (1 <= n)%nat -> In x u -> In x (times n u).
Proof. intros H I. destruct n; [lia|]. cbn. apply in_or_app. auto. Qed.
Definition lg (b : N) (r : rx) (w : list csym) : Prop := clang r w /\ known b w.
Definition shown (b : N) (r : rx) (c : csym) : Prop := exists u, lg b r u /\ In c u.
Lemma known_times b u : known b u -> forall n, known b (times n u).
Proof. intros K n. induction n as [|n IH]; [apply known_nil|]. cbn. now apply known_app. Qed.
Lemma dup_shown b Q t f r : dup t f -> vtok Q t -> (exists u, lg b r u) ->
  (exists u, lg b (f r) u) /\ forall c, shown b r c -> shown b (f r) c.
Proof.
  intros D V (u & U & KU). assert (KT := known_times b). pose proof (known_nil b) as KN. unfold shown, lg. destruct D as [t T|t T|t T|t mn mx T C].
  - split; [exists []; split; [now left|exact KN]|]. intros c (v & (H1 & K1) & H2). exists v. split; [split; [now right|exact K1]|exact H2].
  - split; [exists []; split; [exists O; reflexivity|exact KN]|]. intros c (v & (H1 & K1) & H2). exists (times 1 v). split; [split; [exists 1%nat; now apply power_times|auto]|now apply in_times].
  - split; [exists (times 1 u); split; [exists 1%nat; split; [lia|now apply power_times]|auto]|]. intros c (v & (H1 & K1) & H2). exists (times 1 v). split; [split; [exists 1%nat; split; [lia|now apply power_times]|auto]|now apply in_times].
  - assert (K : exists n, (1 <= n)%nat /\ mn <= N.of_nat n /\ match mx with Some m => N.of_nat n <= m | None => True end).
    { assert (E : counts_ok mn mx).
      { unfold vtok in V. destruct T as [T|T]; rewrite T in V; destruct V as (mn' & mx' & C' & O & _); destruct (counts_fun _ _ _ _ _ C C') as [-> ->]; exact O. }
      unfold counts_ok in E. exists (N.to_nat (N.max mn 1)). rewrite N2Nat.id. destruct mx; [|repeat split; lia]. destruct E as (? & ? & ? & ?). repeat split; lia. }
    destruct K as (n & K1 & K2 & K3). split; [exists (times n u); split; [exists n; split; [exact K2|split; [exact K3|now apply power_times]]|auto]|].
    intros c (v & (H1 & K4) & H2). exists (times n v). split; [split; [exists n; split; [exact K2|split; [exact K3|now apply power_times]]|auto]|now apply in_times].
Qed.
Lemma gram_shown b X r w : gram X r w -> Forall (vtok (chars b)) w ->
  (exists u, lg b r u) /\ forall t, In t w -> (tk_type t = BOL -> shown b r CBol) /\ (tk_type t = EOL -> shown b r CEol).
Proof.
  induction 1 as [r w G IH|p q u v t G1 IH1 T G2 IH2|r w G IH|p q u v G1 IH1 G2 IH2|r w G IH|r w t f G IH D|t T|t T|t T|r w o c O G IH C]; intros F; auto.
  - apply Forall_app in F as [F1 F2]. inversion F2 as [|? ? _ F3]; subst. destruct (IH1 F1) as ((x & X1 & X2) & S1). destruct (IH2 F3) as (_ & S2).
    split; [exists x; split; [now left|exact X2]|]. intros z Hz. apply in_app_or in Hz. destruct Hz as [Hz|[<-|Hz]].
    + destruct (S1 z Hz) as [A B]. split; intros E; [destruct (A E) as (y & (? & ?) & ?)|destruct (B E) as (y & (? & ?) & ?)]; exists y; (split; [split; [now left|assumption]|assumption]).
    + rewrite T. split; discriminate.
    + destruct (S2 z Hz) as [A B]. split; intros E; [destruct (A E) as (y & (? & ?) & ?)|destruct (B E) as (y & (? & ?) & ?)]; exists y; (split; [split; [now right|assumption]|assumption]).
  - apply Forall_app in F as [F1 F2]. destruct (IH1 F1) as ((x & X1 & K1) & S1). destruct (IH2 F2) as ((x2 & X2 & K2) & S2).
    split; [exists (x ++ x2); split; [exists x, x2; auto|now apply known_app]|]. intros z Hz. apply in_app_or in Hz. destruct Hz as [Hz|Hz].
    + destruct (S1 z Hz) as [A B]. split; intros E; [destruct (A E) as (y & (? & ?) & ?)|destruct (B E) as (y & (? & ?) & ?)]; exists (y ++ x2); (split; [split; [exists y, x2; auto|now apply known_app]|apply in_or_app; auto]).
    + destruct (S2 z Hz) as [A B]. split; intros E; [destruct (A E) as (y & (? & ?) & ?)|destruct (B E) as (y & (? & ?) & ?)]; exists (x ++ y); (split; [split; [exists x, y; auto|now apply known_app]|apply in_or_app; auto]).
  - apply Forall_app in F as [F1 F2]. inversion F2 as [|? ? V _]; subst. destruct (IH F1) as (E & S1). destruct (dup_shown _ _ _ _ _ D V E) as (E' & S2).
    split; [exact E'|]. intros z Hz. apply in_app_or in Hz. destruct Hz as [Hz|[<-|[]]].
    + destruct (S1 z Hz) as [A B]. split; auto.
    + clear - D. destruct D as [t T|t T|t T|t mn mx T _]; destruct T as [T|T]; rewrite T; split; discriminate.
  - inversion F as [|? ? V _]; subst. unfold vtok in V. rewrite T in V. destruct V as [W N]. apply built_wf in W. destruct (wf_mem _ (proj1 W) N) as (c & M).
    split; [exists [CChar c]; split; [exists c; split; [now left|reflexivity]|]|].
    { apply (proj2 W) in M. unfold max_char in M. unfold known. destruct (N.eqb_spec b 1); [auto|]. destruct (N.eqb_spec b 2); [auto|].
      right. right. intros d [[= <-]|[]]. exact M. } intros z [<-|[]]. rewrite T. split; discriminate.
  - assert (L : lg b XBol [CBol]) by (split; [reflexivity|right; right; intros c [H|[]]; discriminate]).
    split; [eauto|]. intros z [<-|[]]. rewrite T. split; [|discriminate]. intros _. exists [CBol]. split; [exact L|now left].
  - assert (L : lg b XEol [CEol]) by (split; [reflexivity|right; right; intros c [H|[]]; discriminate]).
    split; [eauto|]. intros z [<-|[]]. rewrite T. split; [discriminate|]. intros _. exists [CEol]. split; [exact L|now left].
  - inversion F as [|? ? _ F2]; subst. apply Forall_app in F2 as [F2 _]. destruct (IH F2) as (E & S1). split; [exact E|].
    intros z [<-|Hz]; [rewrite O; split; discriminate|]. apply in_app_or in Hz. destruct Hz as [Hz|[<-|[]]]; [auto|]. rewrite C. split; discriminate.
Qed.

(** A word with numbers that are no characters stands for one with characters. *)
Definition down (c : csym) : csym := match c with CChar n => if n <=? 0x10ffff then c else CChar 0x10ffff | _ => c end.
Lemma power_down (L : list csym -> Prop) n : forall w, (forall u, L u -> L (map down u)) -> power L n w -> power L n (map down w).
Proof.
  induction n as [|n IH]; intros w H K; cbn in *; [now subst|]. destruct K as (u & v & -> & K1 & K2).
  rewrite map_app. eauto 8.
Qed.
Lemma chars_max b c t : chars b t -> mem c t -> c <= 0x10ffff.
Proof.
  intros [W _] M. apply built_wf in W. apply (proj2 W) in M. unfold max_char in M. destruct (b =? 1); [lia|]. destruct (b =? 2); lia.
Qed.
Lemma gram_down b X r w : gram X r w -> Forall (vtok (chars b)) w -> forall u, clang r u -> clang r (map down u).
Proof.
  induction 1 as [r w G IH|p q u v t G1 IH1 T G2 IH2|r w G IH|p q u v G1 IH1 G2 IH2|r w G IH|r w t f G IH D|t T|t T|t T|r w o c O G IH C]; intros F; auto.
  - apply Forall_app in F as [F1 F2]. inversion F2 as [|? ? _ F3]; subst. intros x [H|H]; [left|right]; auto.
  - apply Forall_app in F as [F1 F2]. intros x (y & z & -> & H1 & H2). rewrite map_app. exists (map down y), (map down z). auto.
  - apply Forall_app in F as [F1 _]. specialize (IH F1). clear - IH D. destruct D as [t T|t T|t T|t mn mx T C]; intros x.
    + intros [->|H]; [now left|right; auto].
    + intros (n & H). exists n. now apply power_down.
    + intros (n & L & H). exists n. split; [exact L|]. now apply power_down.
    + intros (n & L & U & H). exists n. split; [exact L|]. split; [exact U|]. now apply power_down.
  - inversion F as [|? ? V _]; subst. unfold vtok in V. rewrite T in V. intros x (c & H & ->). cbn. destruct (N.leb_spec c 0x10ffff) as [L|L]; [exists c; auto|].
    exists 0x10ffff. split; [|reflexivity]. left. destruct H as [H|(_ & lo & I & B)]; [apply (chars_max b) in H; [lia|exact V]|]. exists lo, 0x10ffff. split; [exact I|lia].
  - now intros x ->.
  - now intros x ->.
  - inversion F as [|? ? _ F2]; subst. apply Forall_app in F2 as [F2 _]. auto.
Qed.

(** ** The object *)
Lemma known_down b u : known b (map down u).
Proof.
  right. right. intros c I. apply in_map_iff in I. destruct I as (d & E & _). destruct d as [n| |]; cbn in E; try discriminate.
  destruct (N.leb_spec n 0x10ffff); injection E as <-; lia.
Qed.
Definition put_macros (k : rcfg) (ms : list smacro) (r : rules) : rules :=
  fold_left (fun r m => fst (insert_macro k (m_name m) (m_text m) r)) ms r.
Definition push_all (k : rcfg) (fl : N) (ms : list smacro) (xs : list srule) : rules :=
  fold_left (fun r x => fst (push_rule k (s_text x) (s_id x) (s_uid x) r)) xs (put_macros k ms (make_rules k fl)).
Inductive smacros_ok (k : rcfg) (fl : N) : list smacro -> Prop :=
| sm_nil : smacros_ok k fl []
| sm_snoc ms m : smacros_ok k fl ms -> regex_means (r_bytes k) (meanings ms) fl (m_text m) (m_sx m) -> small (r_bytes k) (m_text m) -> numbers_fit (m_text m) ->
    is_name (m_name m) -> ~ In (m_name m) (map m_name ms) -> unanchored (m_sx m) -> smacros_ok k fl (ms ++ [m]).
Record srule_ok (k : rcfg) (fl : N) (ms : list smacro) (x : srule) : Prop := {
  so_means : regex_means (r_bytes k) (meanings ms) fl (s_text x) (s_sx x);
  so_small : small (r_bytes k) (s_text x);
  so_numbers : numbers_fit (s_text x);
  so_id : s_id x <> 0 /\ s_id x <> rnpos k;
  so_bol : early (s_sx x)
}.
(** The same without the condition on ^ and $. *)
Record text_says (k : rcfg) (fl : N) (ms : list smacro) (x : srule) : Prop := {
  ts_means : regex_means (r_bytes k) (meanings ms) fl (s_text x) (s_sx x);
  ts_small : small (r_bytes k) (s_text x);
  ts_numbers : numbers_fit (s_text x);
  ts_id : s_id x <> 0 /\ s_id x <> rnpos k
}.
Lemma srule_says k fl ms x : srule_ok k fl ms x -> text_says k fl ms x.
Proof. intros []. now constructor. Qed.
(** Rule [x] of the object is what [y] says. *)
Definition follows (k : rcfg) (x : grule) (y : srule) : Prop :=
  (exists w r, gr_tokens x = between w /\ gram GRegex r w /\ (csets w <= leaves (s_sx y))%nat /\ Forall (vtok (chars (r_bytes k))) w) /\ (forall w, slang (s_sx y) w <-> rule_lang x w /\ known (r_bytes k) w) /\ BuildSpec.eager x /\
  gr_id x = s_id y /\ gr_uid x = s_uid y /\ gr_next x = 0 /\ gr_push x = rnpos k /\ gr_pop x = false.

Section Object.
  Variables (k : rcfg) (fl : N).
  Hypothesis NPOS : 1 < rnpos k.
  Lemma regex_unique r r' w : gram GRegex r w -> gram GRegex r' w -> r = r'.
  Proof. intros H1 H2. eapply gram_unique; eauto. Qed.
  Lemma rule_lang_is x w r : gr_tokens x = between w -> gram GRegex r w -> forall u, rule_lang x u <-> clang r u.
  Proof.
    intros E G u. split.
    - intros (ts & o & (B & En & T & _ & _) & O & L). rewrite E in T. unfold between in T. injection T as _ T. apply app_inj_tail in T as [-> _].
      destruct o as [r'|]; cbn in O, L; [|subst; apply gram_nonempty in G; easy]. now rewrite (regex_unique _ _ _ G O).
    - intros L. exists w, (Some r). split; [exists (tok BEGIN), (tok END); auto|]. auto.
  Qed.
  Lemma mx_feature w id : exists bits, w <> [] -> feature_bits k (between w) (last [] (between w)) id false = Ok bits.
  Proof.
    destruct w as [|t w]; [exists 0; easy|]. unfold feature_bits, between. cbn [nth_error app last].
    destruct (nth_error (tok BEGIN :: t :: w ++ [tok END]) (length (tok BEGIN :: t :: w ++ [tok END]) - 2)) eqn:E; [eexists; intros _; reflexivity|].
    apply nth_error_None in E. cbn [length] in E. lia.
  Qed.
  Lemma make_flags : ru_flags (make_rules k fl) = fl.
  Proof. unfold make_rules, push_state. change (validate initial) with true. cbn [no_rules ru_map map_get]. destruct (_ <? _); reflexivity. Qed.
  Lemma make_macros : ru_macros (make_rules k fl) = [].
  Proof. unfold make_rules, push_state. change (validate initial) with true. cbn [no_rules ru_map map_get]. destruct (_ <? _); reflexivity. Qed.
  Lemma make_map : length (ru_map (make_rules k fl)) = 1%nat.
  Proof. unfold make_rules, push_state. change (validate initial) with true. cbn [no_rules ru_map map_get]. destruct (_ <? _); reflexivity. Qed.
  Lemma make_at i : rules_at (make_rules k fl) i = [].
  Proof. unfold make_rules, push_state. change (validate initial) with true. cbn [no_rules ru_map map_get]. destruct (_ <? _); unfold rules_at; destruct i as [|[|i]]; reflexivity. Qed.
  (** Macros. *)
  Lemma macro_find_app n l l' : macro_find n (l ++ l') = match macro_find n l with Some t => Some t | None => macro_find n l' end.
  Proof. induction l as [|[m t] l IH]; [reflexivity|]. cbn. destruct (text_eqb n m); auto. Qed.
  Lemma macro_find_in n l : ~ In n (map fst l) -> macro_find n l = None.
  Proof.
    induction l as [|[m t] l IH]; intros H; [reflexivity|]. cbn in *. destruct (text_eqb n m) eqn:E; [|auto]. apply text_eqb_iff in E. subst. exfalso. auto.
  Qed.
  Lemma mtable_app b E ms l : mtable b E ms -> mtable b E (ms ++ l).
  Proof. intros H name s I. destruct (H name s I) as (u & r & F & R). exists u, r. split; [|exact R]. now rewrite macro_find_app, F. Qed.
  Lemma valid_name n : is_name n -> validate n = true.
  Proof. intros H. apply is_name_chars in H. destruct H as (c & r & -> & H1 & H2). cbn. now rewrite H1, H2. Qed.
  Lemma put_macros_is ms r0 : proper_unsplit k r0 -> ru_flags r0 = fl -> ru_macros r0 = [] -> smacros_ok k fl ms -> let r := put_macros k ms r0 in
    proper_unsplit k r /\ ru_flags r = fl /\ ru_map r = ru_map r0 /\ (forall i, rules_at r i = rules_at r0 i) /\ mtable (r_bytes k) (meanings ms) (ru_macros r) /\
    map fst (ru_macros r) = map m_name ms /\ forall m ms', ms = ms' ++ [m] -> snd (insert_macro k (m_name m) (m_text m) (put_macros k ms' r0)) = Ok tt.
  Proof.
    intros P0 F0 M0. induction 1 as [|ms m MO IH M S NF NM FR UN]; cbv zeta in *.
    - split; [exact P0|]. split; [exact F0|]. split; [reflexivity|]. split; [reflexivity|]. split; [apply mtable_nil|]. unfold put_macros. cbn. rewrite M0. split; [reflexivity|].
      intros m ms' H. destruct ms'; discriminate.
    - destruct IH as (P & Efl & Em & At & MT & NS & _). unfold put_macros. rewrite fold_left_app. cbn [fold_left]. fold (put_macros k ms r0). set (r := put_macros k ms r0) in *.
      destruct (source_tokenise _ _ _ (ru_macros r ++ [(m_name m, [])]) _ _ false (mtable_app _ _ _ _ MT) M S) as (w & q & T & G & L & Z & EG & LN).
      assert (NF' : macro_find (m_name m) (ru_macros r) = None) by (apply macro_find_in; now rewrite NS).
      assert (E : insert_macro k (m_name m) (m_text m) r = (with_macros (ru_macros r ++ [(m_name m, between w)]) r, Ok tt)).
      { unfold insert_macro. rewrite (valid_name _ NM), NF', Efl. cbv zeta. rewrite T. reflexivity. }
      assert (P' : proper_unsplit k (fst (insert_macro k (m_name m) (m_text m) r))).
      { change (insert_macro k (m_name m) (m_text m) r) with (apply k (OMacro (m_name m) (m_text m)) r). constructor; [exact P| |exact Logic.I].
        split; [exact S|]. split; [exact NF|discriminate]. }
      split; [exact P'|]. rewrite E in P' |- *. cbn [fst with_macros ru_flags ru_map ru_macros] in *. split; [exact Efl|]. split; [exact Em|]. split; [exact At|].
      assert (FM : macro_find (m_name m) (ru_macros r ++ [(m_name m, between w)]) = Some (between w)).
      { rewrite macro_find_app, NF'. cbn. now rewrite (proj2 (text_eqb_iff _ _) eq_refl). }
      split; [|split].
      + intros name s I. unfold meanings in I. rewrite map_app in I. apply in_app_or in I. destruct I as [I|[[= <- <-]|[]]]; [exact (mtable_app _ _ _ _ MT name s I)|].
        exists w, q. split; [exact FM|]. split; [exact G|]. split; [exact L|]. split; [exact EG|]. split; [|exact LN].
        destruct (unsplit_feats k NPOS _ P') as (_ & C & _). destruct (co_macros _ _ C (m_name m) (between w) FM) as [H|(w' & EW & V)]; [discriminate|].
        injection EW as EW. apply app_inj_tail in EW as [<- _]. destruct (gram_shown _ _ _ _ G (ve_toks _ _ V)) as (_ & SH).
        apply Forall_forall. intros t Ht. destruct (SH t Ht) as [S1 S2].
        assert (NC : forall c, c = CBol \/ c = CEol -> shown (r_bytes k) q c -> False).
        { intros c Hc (u & U1 & U2). apply L in U1. destruct (UN u U1) as (cs & ->). apply in_map_iff in U2. destruct U2 as (d & <- & _). destruct Hc; discriminate. }
        split; intros T'; [apply (NC CBol); [now left|now apply S1]|apply (NC CEol); [now right|now apply S2]].
      + now rewrite !map_app, NS.
      + intros m' ms' H. apply app_inj_tail in H as [<- <-]. exact (f_equal snd E).
  Qed.
  Variable mds : list smacro.
  Lemma text_said y r : ru_flags r = fl -> mtable (r_bytes k) (meanings mds) (ru_macros r) -> text_says k fl mds y -> text_ok k r (ru_macros r) (s_text y) true.
  Proof.
    intros Efl MT [M S NF _]. split; [exact S|]. split; [exact NF|]. intros _ w T. rewrite Efl in T.
    destruct (source_loop _ _ _ _ _ _ MT M S) as (ts & q & T' & _ & _ & F & _). rewrite T in T'. injection T' as E. apply app_inj_tail in E as [-> _].
    eapply Forall_impl; [|exact F]. intros t H. unfold zero_plain. intros Z. unfold SourceLex.eager in H. rewrite Z in H. discriminate.
  Qed.
  Lemma proper_vtok r i x w : proper_unsplit k r -> In x (rules_at r i) -> gr_tokens x = between w -> Forall (vtok (chars (r_bytes k))) w.
  Proof.
    intros P Hx E. destruct (unsplit_feats k NPOS _ P) as (_ & C & _). pose proof (co_rules _ _ C i) as GR. rewrite Forall_forall in GR.
    destruct (GR x Hx) as ((w' & E' & V) & _). rewrite E in E'. injection E' as E'. apply app_inj_tail in E' as [<- _]. exact (ve_toks _ _ V).
  Qed.
  Lemma push_said y r : proper_unsplit k r -> ru_flags r = fl -> mtable (r_bytes k) (meanings mds) (ru_macros r) -> text_says k fl mds y ->
    snd (push_rule k (s_text y) (s_id y) (s_uid y) r) = Ok tt /\
    ru_flags (fst (push_rule k (s_text y) (s_id y) (s_uid y) r)) = fl /\
    length (ru_map (fst (push_rule k (s_text y) (s_id y) (s_uid y) r))) = length (ru_map r) /\
    ru_macros (fst (push_rule k (s_text y) (s_id y) (s_uid y) r)) = ru_macros r /\
    exists x, follows k x y /\ forall i, rules_at (fst (push_rule k (s_text y) (s_id y) (s_uid y) r)) i = rules_at r i ++ if Nat.eqb i 0 then [x] else [].
  Proof.
    intros PR Efl MT SAY. pose proof (text_said y r Efl MT SAY) as OK. destruct (unsplit_feats k NPOS r PR) as (A & _ & _). destruct SAY as [M S NF (I1 & I2)]. destruct (source_tokenise _ _ _ _ _ _ true MT M S) as (w & q & T & G & L & Z & _ & LN). rewrite <- Efl in T.
    destruct (mx_feature w (s_id y)) as (bits & F). specialize (F (gram_nonempty _ _ _ G)).
    assert (P : push_rule k (s_text y) (s_id y) (s_uid y) r = (add_rules 0 (s_text y) [between w] bits (s_id y) (s_uid y) 0 (rnpos k) false r, Ok tt)).
    { unfold push_rule. unfold bad_id. rewrite (proj2 (N.eqb_neq _ _) I1), (proj2 (N.eqb_neq _ _) I2). cbn [orb]. rewrite T. cbn [last] in F. cbn [last]. rewrite F. reflexivity. }
    assert (PR' : proper_unsplit k (fst (push_rule k (s_text y) (s_id y) (s_uid y) r))).
    { change (push_rule k (s_text y) (s_id y) (s_uid y) r) with (apply k (OPush (s_text y) (s_id y) (s_uid y)) r). constructor; [exact PR|exact OK|exact Logic.I]. }
    set (x := mk_rule (s_id y) (s_uid y) 0 (rnpos k) false (between w)).
    assert (AT : forall i, rules_at (fst (push_rule k (s_text y) (s_id y) (s_uid y) r)) i = rules_at r i ++ if Nat.eqb i 0 then [x] else []).
    { destruct (pushed k (s_text y) (s_id y) (s_uid y) r A) as (v & V1 & V2); [now rewrite P|]. rewrite T in V1. injection V1 as <-. exact V2. }
    assert (V : Forall (vtok (chars (r_bytes k))) w).
    { apply (proper_vtok _ 0 x w PR'); [|reflexivity]. rewrite AT. apply in_or_app. right. now left. }
    split; [now rewrite P|]. split; [now rewrite P|]. split; [now rewrite P|]. split; [now rewrite P|]. exists x. split; [|exact AT].
    split; [exists w, q; auto|]. split; [|split; [exact Z|repeat split]]. intros u. rewrite L. assert (RL := rule_lang_is x w q eq_refl G u). tauto.
  Qed.
  Lemma push_all_said xs : smacros_ok k fl mds -> Forall (text_says k fl mds) xs -> let r := push_all k fl mds xs in
    proper_unsplit k r /\ ru_flags r = fl /\ length (ru_map r) = 1%nat /\ mtable (r_bytes k) (meanings mds) (ru_macros r) /\ Forall2 (follows k) (rules_at r 0) xs /\ forall i, rules_at r (S i) = [].
  Proof.
    intros MO. induction xs as [|y xs IH] using rev_ind; intros F; cbv zeta in *.
    - unfold push_all. cbn [fold_left]. destruct (put_macros_is mds (make_rules k fl) (pu_new k fl) make_flags make_macros MO) as (P & Q1 & Q2 & Q3 & Q4 & _).
      split; [exact P|]. split; [exact Q1|]. split; [rewrite Q2; apply make_map|]. split; [exact Q4|]. rewrite Q3, make_at. split; [constructor|]. intros i. now rewrite Q3, make_at.
    - apply Forall_app in F as [F Fy]. inversion Fy as [|? ? Hy _]; subst. destruct (IH F) as (P & Efl & Em & MT & F2 & E).
      unfold push_all. rewrite fold_left_app. cbn [fold_left]. fold (push_all k fl mds xs). set (r := push_all k fl mds xs) in *.
      destruct (push_said y r P Efl MT Hy) as (S1 & S2 & S3 & S4 & x & X1 & X2). split.
      { change (fst (push_rule k (s_text y) (s_id y) (s_uid y) r)) with (fst (apply k (OPush (s_text y) (s_id y) (s_uid y)) r)).
        constructor; [exact P| |exact Logic.I]. now apply text_said. }
      split; [exact S2|]. split; [congruence|]. split; [now rewrite S4|]. rewrite X2. cbn [Nat.eqb]. split; [apply Forall2_app; [exact F2|constructor; [exact X1|constructor]]|].
      intros i. rewrite X2, E. reflexivity.
  Qed.
  Lemma push_one y r : proper_unsplit k r -> ru_flags r = fl -> mtable (r_bytes k) (meanings mds) (ru_macros r) -> srule_ok k fl mds y ->
    snd (push_rule k (s_text y) (s_id y) (s_uid y) r) = Ok tt /\
    ru_flags (fst (push_rule k (s_text y) (s_id y) (s_uid y) r)) = fl /\
    length (ru_map (fst (push_rule k (s_text y) (s_id y) (s_uid y) r))) = length (ru_map r) /\
    ru_macros (fst (push_rule k (s_text y) (s_id y) (s_uid y) r)) = ru_macros r /\
    exists x, follows k x y /\ forall i, rules_at (fst (push_rule k (s_text y) (s_id y) (s_uid y) r)) i = rules_at r i ++ if Nat.eqb i 0 then [x] else [].
  Proof. intros A Efl MT OK. apply push_said; auto using srule_says. Qed.
  Lemma text_is_ok y r : ru_flags r = fl -> mtable (r_bytes k) (meanings mds) (ru_macros r) -> srule_ok k fl mds y -> text_ok k r (ru_macros r) (s_text y) true.
  Proof. intros Efl MT OK. apply text_said; auto using srule_says. Qed.
  Lemma push_all_is xs : smacros_ok k fl mds -> Forall (srule_ok k fl mds) xs -> let r := push_all k fl mds xs in
    proper_unsplit k r /\ ru_flags r = fl /\ length (ru_map r) = 1%nat /\ mtable (r_bytes k) (meanings mds) (ru_macros r) /\ Forall2 (follows k) (rules_at r 0) xs /\ forall i, rules_at r (S i) = [].
  Proof. intros MO F. apply push_all_said; [exact MO|]. eapply Forall_impl; [|exact F]. apply srule_says. Qed.
  Lemma says_simple r i x w q s : proper_unsplit k r -> In x (rules_at r i) -> gr_tokens x = between w -> gram GRegex q w ->
    (forall w, slang s w <-> rule_lang x w /\ known (r_bytes k) w) -> early s ->
    ends EOL (removelast (gr_tokens x)) = false /\ (starts BOL (tl (gr_tokens x)) = true -> bol_rule true x).
  Proof.
    intros P Hx E G L B. destruct (unsplit_feats k NPOS _ P) as (_ & C & _).
    pose proof (co_rules _ _ C i) as GR. rewrite Forall_forall in GR. destruct (GR x Hx) as ((w' & E' & V) & _).
    rewrite E in E'. injection E' as E'. apply app_inj_tail in E' as [<- _].
    destruct (gram_shown _ _ _ _ G (ve_toks _ _ V)) as (_ & SH). assert (RL := rule_lang_is x w q E G).
    assert (NE : forall cs, ~ In CEol (map CChar cs)) by (intros cs H; apply in_map_iff in H as (? & ? & _); discriminate).
    assert (NB : forall cs, ~ In CBol (map CChar cs)) by (intros cs H; apply in_map_iff in H as (? & ? & _); discriminate).
    rewrite E. unfold between. split.
    - destruct (ends EOL _) eqn:EE; [exfalso|reflexivity]. change (tok BEGIN :: w ++ [tok END]) with ((tok BEGIN :: w) ++ [tok END]) in EE.
      rewrite removelast_last in EE. unfold ends, starts in EE. destruct (rev (tok BEGIN :: w)) as [|t l] eqn:ER; [discriminate|]. apply is_type_iff in EE.
      assert (I : In t (tok BEGIN :: w)) by (apply in_rev; rewrite ER; now left). destruct I as [<-|I]; [discriminate|].
      destruct (SH t I) as [_ K]. destruct (K EE) as (u & (U1 & U3) & U2). apply RL in U1. pose proof (proj2 (L u) (conj U1 U3)) as U4.
      destruct (B u U4) as (cs & [-> | ->]); [now apply NE in U2|]. destruct U2 as [U2|U2]; [discriminate|now apply NE in U2].
    - cbn [tl]. intros _ u v U. split; [|reflexivity].
      apply RL in U. apply (gram_down _ _ _ _ G (ve_toks _ _ V)) in U. apply RL in U.
      destruct (B (map down (u ++ CBol :: v)) (proj2 (L _) (conj U (known_down _ _)))) as (cs & ED). rewrite map_app in ED. cbn [map down] in ED.
      destruct ED as [ED|ED]; [exfalso; apply (NB cs); rewrite <- ED; apply in_or_app; right; now left|].
      destruct u as [|c u]; [reflexivity|exfalso]. cbn in ED. injection ED as _ ED. apply (NB cs). rewrite <- ED. apply in_or_app. right. now left.
  Qed.
  Lemma follows_simple xs x y : smacros_ok k fl mds -> Forall (srule_ok k fl mds) xs -> In x (rules_at (push_all k fl mds xs) 0) -> follows k x y -> srule_ok k fl mds y ->
    ends EOL (removelast (gr_tokens x)) = false /\ (starts BOL (tl (gr_tokens x)) = true -> bol_rule true x).
  Proof.
    intros MO F Hx ((w & q & E & G & _) & L & _) [_ _ _ _ BO]. destruct (push_all_is xs MO F) as (P & _). eapply says_simple; eauto.
  Qed.
End Object.

(** ** The lexer *)
Definition known_chars (b : N) (cs : list N) : Prop := b = 1 \/ b = 2 \/ Forall (fun c => c <= 0x10ffff) cs.
Lemma known_known b cs : known_chars b cs -> known b (map CChar cs) /\ known b (CBol :: map CChar cs).
Proof.
  unfold known. intros [H|[H|H]]; [tauto..|]. rewrite Forall_forall in H.
  split; right; right; intros c I; [|destruct I as [I|I]; [discriminate|]]; apply in_map_iff in I; destruct I as (d & [= <-] & I); auto.
Qed.
Lemma known_part b inp p q : known_chars b inp -> known_chars b (between_pos inp p q).
Proof.
  intros [H|[H|H]]; [now left|right; now left|right; right]. rewrite Forall_forall in H |- *. intros c I. apply H. unfold between_pos in I.
  assert (I2 : In c (skipn p inp)) by (rewrite <- (firstn_skipn (q - p) (skipn p inp)); apply in_or_app; now left).
  rewrite <- (firstn_skipn p inp). apply in_or_app. now right.
Qed.
Lemma said_anchor k x w q s : gr_tokens x = between w -> gram GRegex q w -> Forall (vtok (chars (r_bytes k))) w -> (forall w, slang s w <-> rule_lang x w /\ known (r_bytes k) w) ->
  (has_anchor x <-> anchors s).
Proof.
  intros E G V L. assert (RL := rule_lang_is x w q E G). split; intros (v & H).
  - exists (map down v). change (CBol :: map down v) with (map down (CBol :: v)). apply L. split; [|apply known_down]. apply RL. apply (gram_down _ _ _ _ G V). now apply RL.
  - exists v. now apply L.
Qed.
Lemma follows_anchor k x y : follows k x y -> (has_anchor x <-> anchors (s_sx y)).
Proof. intros ((w & q & E & G & _ & V) & L & _). eapply said_anchor; eauto. Qed.
Lemma follows_match k x y bol cs : known_chars (r_bytes k) cs -> follows k x y -> (rmatch x bol cs <-> smatch y bol cs).
Proof. intros K W. pose proof (follows_anchor k x y W) as HA. destruct W as (_ & L & _). apply known_known in K. unfold rmatch, smatch. destruct bol; rewrite !L, ?HA; tauto. Qed.
Lemma nth_follows k xs ys j x : Forall2 (follows k) xs ys -> nth_error xs j = Some x -> exists y, nth_error ys j = Some y /\ follows k x y.
Proof. intros F. revert j. induction F as [|a b xs ys H F IH]; intros [|j] E; try discriminate; cbn in *; [injection E as <-; eauto|auto]. Qed.
Lemma nth_follows' k xs ys j y : Forall2 (follows k) xs ys -> nth_error ys j = Some y -> exists x, nth_error xs j = Some x /\ follows k x y.
Proof. intros F. revert j. induction F as [|a b xs ys H F IH]; intros [|j] E; try discriminate; cbn in *; [injection E as <-; eauto|auto]. Qed.
Lemma in_follows k xs ys y : Forall2 (follows k) xs ys -> In y ys -> exists x, In x xs /\ follows k x y.
Proof. intros F H. apply In_nth_error in H as (j & E). destruct (nth_follows' _ _ _ _ _ F E) as (x & E' & W). eauto using nth_error_In. Qed.
Lemma follows_longest k rs xs inp bol p x q : known_chars (r_bytes k) inp -> Forall2 (follows k) rs xs -> rlongest rs inp bol p x q ->
  exists y, slongest xs inp bol p y q /\ follows k x y.
Proof.
  intros KI F (R & (j & E & M & Lo) & U). assert (KP := fun q => known_part _ inp p q KI). destruct (nth_follows _ _ _ _ _ F E) as (y & E' & W). exists y. split; [|exact W]. split; [exact R|]. split.
  - exists j. split; [exact E'|]. split; [now apply (follows_match k x y bol _ (KP _) W)|]. intros j' z Hj Ez Mz. destruct (nth_follows' _ _ _ _ _ F Ez) as (x' & Ex & W').
    apply (Lo j' x' Hj Ex). now apply (follows_match k x' z bol _ (KP _) W').
  - intros q' z Hq Hz Mz. destruct (in_follows _ _ _ _ F Hz) as (x' & Ex & W'). apply (U q' x' Hq Ex). now apply (follows_match k x' z bol _ (KP _) W').
Qed.
Lemma follows_none k rs xs inp bol p : known_chars (r_bytes k) inp -> Forall2 (follows k) rs xs -> rnone rs inp bol p -> snone xs inp bol p.
Proof. intros KI F U q' z Hq Hz Mz. destruct (in_follows _ _ _ _ F Hz) as (x' & Ex & W'). apply (U q' x' Hq Ex). now apply (follows_match k x' z bol _ (known_part _ inp p _ KI) W'). Qed.

(** For characters of one byte there are at most two sets for each character of the
    texts. *)
Lemma fold_sets l : (length (fold_right (fun x l => if in_sets x l then l else x :: l) [] l) <= length l)%nat.
Proof. induction l as [|x l IH]; cbn [fold_right length]; [lia|]. destruct (in_sets _ _); cbn [length]; lia. Qed.
Lemma tok_sets_one t : (length (tok_sets 1 t) <= 2 * cset t)%nat.
Proof. unfold tok_sets, cset. destruct (tk_type t); try (cbn; lia). unfold slices. change (1 =? 1) with true. cbv iota. change (ttype_eqb CHARSET CHARSET) with true. cbn; lia. Qed.
Lemma flat_sets w : (length (flat_map (tok_sets 1) w) <= 2 * csets w)%nat.
Proof. induction w as [|t w IH]; cbn [flat_map length]; [lia|]. rewrite app_length, csets_cons. pose proof (tok_sets_one t). lia. Qed.
Definition set_count (xs : list srule) : nat := list_sum (map (fun x => leaves (s_sx x)) xs).
Lemma rule_sets k rs xs : Forall2 (follows k) rs xs -> (length (flat_map (fun r => flat_map (tok_sets 1) (gr_tokens r)) rs) <= 2 * set_count xs)%nat.
Proof.
  unfold set_count. induction 1 as [|x y rs xs H F IH]; [cbn; lia|]. cbn [flat_map map list_sum fold_right]. rewrite app_length. fold (list_sum (map (fun x => leaves (s_sx x)) xs)).
  destruct H as ((w & q & -> & _ & L & _) & _). unfold between. cbn [flat_map]. rewrite flat_map_app. cbn [flat_map]. change (tok_sets 1 (tok BEGIN)) with (@nil stoken).
  change (tok_sets 1 (tok END)) with (@nil stoken). cbn [app]. rewrite app_nil_r. pose proof (flat_sets w). lia.
Qed.
Lemma narrow_said k g fl mds xs : 1 < rnpos k -> g_bytes g = 1 -> smacros_ok k fl mds -> Forall (text_says k fl mds) xs -> N.of_nat (2 * set_count xs) < eol_tok g ->
  forall s, In s (gr_states (grules_of (push_all k fl mds xs))) -> N.of_nat (length (all_sets (g_bytes g) s)) < eol_tok g.
Proof.
  intros NP Hb MO Hx HN s Hs. destruct (push_all_said k fl NP mds xs MO Hx) as (_ & _ & Em & _ & F & _). cbn [grules_of gr_states] in Hs. rewrite Em in Hs. destruct Hs as [<-|[]].
  rewrite Hb. unfold all_sets. cbn [gs_rules]. pose proof (fold_sets (flat_map (fun r => flat_map (tok_sets 1) (gr_tokens r)) (rules_at (push_all k fl mds xs) 0))) as A.
  pose proof (rule_sets k _ _ F) as B. unfold rules_at in A, B. lia.
Qed.
Lemma narrow_sets k g fl mds xs : 1 < rnpos k -> g_bytes g = 1 -> smacros_ok k fl mds -> Forall (srule_ok k fl mds) xs -> N.of_nat (2 * set_count xs) < eol_tok g ->
  forall s, In s (gr_states (grules_of (push_all k fl mds xs))) -> N.of_nat (length (all_sets (g_bytes g) s)) < eol_tok g.
Proof. intros NP Hb MO Hx. apply (narrow_said k g fl mds xs NP Hb MO). eapply Forall_impl; [|exact Hx]. apply srule_says. Qed.

(** ** The description leaves no choice *)
Lemma slongest_det xs inp bol p x q x' q' : slongest xs inp bol p x q -> slongest xs inp bol p x' q' -> x = x' /\ q = q'.
Proof.
  intros (R1 & (j & E1 & M1 & L1) & U1) (R2 & (j' & E2 & M2 & L2) & U2).
  assert (q = q').
  { destruct (Nat.lt_trichotomy q q') as [H|[H|H]]; [|exact H|].
    - exfalso. apply (U1 q' x'); [lia|eapply nth_error_In; eauto|exact M2].
    - exfalso. apply (U2 q x); [lia|eapply nth_error_In; eauto|exact M1]. }
  subst q'. split; [|reflexivity]. destruct (Nat.lt_trichotomy j j') as [H|[H|H]].
  - exfalso. apply (L2 j x H E1 M1).
  - subst. congruence.
  - exfalso. apply (L1 j' x' H E2 M2).
Qed.
Theorem sreads_det none skip see xs inp bol p id uid i j b : sreads none skip see xs inp bol p id uid i j b ->
  forall id' uid' i' j' b', sreads none skip see xs inp bol p id' uid' i' j' b' -> id = id' /\ uid = uid' /\ i = i' /\ j = j' /\ b = b'.
Proof.
  assert (NL : forall bol p x q, slongest xs inp bol p x q -> snone xs inp bol p -> False).
  { intros bol' p' x q (R1 & (n & E & M & _) & _) N. apply (N q x); [lia|eapply nth_error_In; eauto|exact M]. }
  assert (EN : forall p c, nth_error inp p = Some c -> p = length inp -> False).
  { intros p' c H ->. assert (length inp < length inp)%nat by (apply nth_error_Some; congruence). lia. }
  assert (EL : forall bol p x q, slongest xs inp bol p x q -> p = length inp -> False) by (intros bol' p' x q (R1 & _) ->; lia).
  induction 1 as [bol p H|bol p x q H N|bol p x q id uid i j b H N K IH|bol p c H N]; intros id' uid' i' j' b' S; inversion S; subst;
    try (exfalso; eauto; fail); try (split; auto; fail).
  - match goal with A : slongest _ _ _ _ _ _, B : slongest _ _ _ _ _ _ |- _ => destruct (slongest_det _ _ _ _ _ _ _ _ A B) as [-> ->] end. auto.
  - match goal with A : slongest _ _ _ _ _ _, B : slongest _ _ _ _ _ _ |- _ => destruct (slongest_det _ _ _ _ _ _ _ _ A B) as [-> ->] end. congruence.
  - match goal with A : slongest _ _ _ _ _ _, B : slongest _ _ _ _ _ _ |- _ => destruct (slongest_det _ _ _ _ _ _ _ _ A B) as [-> ->] end. congruence.
  - match goal with A : slongest _ _ _ _ _ _, B : slongest _ _ _ _ _ _ |- _ => destruct (slongest_det _ _ _ _ _ _ _ _ A B) as [-> ->] end. auto.
  - match goal with A : nth_error inp ?p = Some ?x, B : nth_error inp ?p = Some ?y |- _ => rewrite A in B; injection B as -> end. auto.
Qed.

Section Lexer.
  Variables (k : rcfg) (g : gcfg) (kc : cfg) (fl : N) (mds : list smacro) (xs : list srule) (f : nat) (m : internals) (inp : list N).
  Hypothesis NPOS : 1 < rnpos k.
  Hypothesis Hbits : g_bits g = r_bits k.
  Hypothesis Hbytes : g_bytes g = r_bytes k.
  Hypothesis Hb : 0 < g_bytes g.
  Hypothesis AG : agree kc g.
  Hypothesis MO : smacros_ok k fl mds.
  Hypothesis Hx : Forall (srule_ok k fl mds) xs.
  Let R := grules_of (push_all k fl mds xs).
  Hypothesis Sets : forall s, In s (gr_states R) -> N.of_nat (length (all_sets (g_bytes g) s)) < eol_tok g.
  Hypothesis Sli : forall x t, In x (rules_at (push_all k fl mds xs) 0) -> In t (gr_tokens x) -> sliceable (g_bytes g) t.
  Hypothesis HB : build f g R = Ok m.
  Hypothesis Zero : has fl rf_match_zero_len = false.
  Hypothesis Adv : f_adv kc = true.
  Hypothesis HI : Forall (fits (c_bytes kc)) inp.
  Hypothesis HK : known_chars (g_bytes g) inp.

  Lemma only_state s : In s (gr_states R) -> gs_rules s = rules_at (push_all k fl mds xs) 0.
  Proof.
    destruct (push_all_is k fl NPOS mds xs MO Hx) as (_ & _ & E & _). unfold R. cbn [grules_of gr_states]. rewrite E. intros [<-|[]]. reflexivity.
  Qed.
  Lemma lexer_simple : simple g (push_all k fl mds xs).
  Proof.
    destruct (push_all_is k fl NPOS mds xs MO Hx) as (_ & _ & _ & _ & F & E).
    assert (K : forall i x, In x (rules_at (push_all k fl mds xs) i) -> ends EOL (removelast (gr_tokens x)) = false /\ (starts BOL (tl (gr_tokens x)) = true -> bol_rule true x)).
    { intros i x Hi. destruct i as [|i]; [|rewrite E in Hi; destruct Hi]. pose proof Hi as Hi'. apply In_nth_error in Hi' as (j & Ej).
      destruct (nth_follows _ _ _ _ _ F Ej) as (y & Ey & W). apply (follows_simple k fl NPOS mds xs x y MO Hx Hi W).
      rewrite Forall_forall in Hx. apply Hx. eapply nth_error_In; eauto. }
    split; [intros i x Hi; now apply (K i x Hi)|]. split; [intros i x Hi; now apply (K i x Hi)|]. split; [exact Sets|].
    intros [|i] x t Hi; [now apply Sli|]. rewrite E in Hi. destruct Hi.
  Qed.
  Lemma lexer_plain x y : follows k x y -> gr_pop x = false /\ gr_push x = npos kc.
  Proof. intros (_ & _ & _ & _ & _ & _ & P & Q). split; [exact Q|]. rewrite P. destruct AG as (-> & _). unfold gnpos, rnpos. now rewrite Hbits. Qed.
  Definition ready (res : results) : Prop := r_state res = 0 /\ r_stack res = [] /\ (r_second res <= length inp)%nat.
  Theorem texts_to_tokens res fuel inner : covers kc m -> ready res -> (length inp < fuel)%nat -> (length inp < inner)%nat ->
    exists res', lookup fuel inner kc m inp res = Ok (res', None) /\ ready res' /\
      sreads (npos kc) (skip_id kc) (f_bol kc) xs inp (r_bol res) (r_second res) (r_id res') (r_uid res') (r_first res') (r_second res') (r_bol res').
  Proof.
    intros CV RD Hf Hi. assert (KI : known_chars (r_bytes k) inp) by (rewrite <- Hbytes; exact HK). destruct (push_all_is k fl NPOS mds xs MO Hx) as (P & Efl & Em & _ & F & E).
    assert (IR : in_range R inp res).
    { destruct RD as (R1 & R2 & R3). split; [|split; [rewrite R2; constructor|exact R3]]. unfold R. cbn [grules_of gr_states]. rewrite Em, R1. cbn. lia. }
    assert (SE := made_setting k g _ NPOS Hbits Hbytes Hb P lexer_simple f kc m inp res AG HB CV HI IR).
    assert (EA : Forall (fun gs => Forall BuildSpec.eager (gs_rules gs)) (gr_states R)).
    { apply Forall_forall. intros s Hs. rewrite (only_state s Hs). apply Forall_forall. intros x Hi'. apply In_nth_error in Hi' as (j & Ej).
      destruct (nth_follows _ _ _ _ _ F Ej) as (y & _ & W). apply W. }
    assert (ZL : zero_len_ok (gr_flags R) = false) by (unfold R; cbn; rewrite Efl; exact Zero).
    destruct (lookup_total f kc g R m inp res SE fuel inner ZL Hf Hi) as (res' & o & EL).
    pose proof (lookup_rlex f kc g R m inp res SE fuel inner EA) as Q. rewrite EL in Q. destruct Q as [Q IR'].
    assert (NZ : forall x, In x (rules_at (push_all k fl mds xs) 0) -> ~ rmatch x false []).
    { intros x Hx'. assert (HS : exists s, In s (gr_states R)) by (unfold R; cbn [grules_of gr_states]; rewrite Em; eexists; now left).
      destruct HS as (s & Hs). apply (zero_len_complete f g R m (se_wide _ _ _ _ _ _ _ SE) (se_rules _ _ _ _ _ _ _ SE) ZL HB s x Hs). now rewrite (only_state s Hs). }
    assert (RO : forall st rs, rules_of R st rs -> rs = rules_at (push_all k fl mds xs) 0).
    { intros st rs (s & Es & <-). apply only_state. eapply nth_error_In; eauto. }
    assert (HH : forall r x q, rhits kc R inp r x q -> exists y, slongest xs inp (f_bol kc && r_bol r) (r_second r) y q /\ follows k x y).
    { intros r x q (rs & Hrs & [H|(_ & _ & H)]); rewrite (RO _ _ Hrs) in H; [eapply follows_longest; eauto|].
      destruct H as (j & Ej & M & _). exfalso. apply (NZ x); [eapply nth_error_In; eauto|exact M]. }
    assert (ET : forall r x r', reats kc inp (rhits kc R inp) r x r' -> ready r ->
      exists y, slongest xs inp (f_bol kc && r_bol r) (r_second r) y (r_second r') /\ follows k x y /\ ready r' /\ r_bol r' = line (f_bol kc) inp (r_bol r) (r_second r')).
    { intros r x r' (q & H & ST & Eq & Eb) (Q1 & Q2 & Q3). destruct (HH _ _ _ H) as (y & Y1 & Y2). subst q. exists y. split; [exact Y1|]. split; [exact Y2|].
      destruct Y1 as (Y0 & _). destruct (lexer_plain x y Y2) as (L1 & L2). split.
      - unfold rstack in ST. rewrite L1, L2, N.eqb_refl in ST. destruct Y2 as (_ & _ & _ & _ & _ & Nx & _). rewrite Nx, Q1, Q2 in ST. unfold ready.
        destruct (f_rec kc); destruct ST as [-> ->]; (split; [|split; [reflexivity|lia]]); destruct (f_multi kc); try reflexivity; destruct (Nat.ltb _ _); reflexivity.
      - rewrite Eb. unfold line, bol_at. destruct (f_bol kc); [|reflexivity]. replace (Nat.eqb (r_second r) (r_second r')) with false; [reflexivity|]. symmetry. apply Nat.eqb_neq. lia. }
    exists res'. assert (G : forall first r r' o', rlooks kc R inp (rhits kc R inp) (rmisses kc R inp) first r r' o' -> ready r -> first = r_second r ->
      o' = None /\ ready r' /\ sreads (npos kc) (skip_id kc) (f_bol kc) xs inp (r_bol r) (r_second r) (r_id r') (r_uid r') (r_first r') (r_second r') (r_bol r')).
    { induction 1 as [first r r' H1 H2|first r x r' H1 H2 H3 H4 H5 H6 H7|first r x r1 r' o' H1 H2 H3 H4 IH|first r x r1 r' o' H1 H2 H3 H4 H5 IH|first r c r' H1 H2 H3|first r x q r' H1 H2 H3 H4 H5]; intros RY EF.
      - subst r' first. cbn. split; [reflexivity|]. split; [exact RY|]. now apply sd_end.
      - destruct (ET _ _ _ H2 RY) as (y & Y1 & Y2 & Y3 & Y4). split; [reflexivity|]. split; [exact Y3|]. destruct Y2 as (_ & _ & _ & I1 & I2 & _).
        rewrite H5, H6, H7, EF, Y4, I1, I2. apply sd_token; [exact Y1|congruence].
      - destruct (ET _ _ _ H2 RY) as (y & Y1 & Y2 & Y3 & Y4). destruct (IH Y3 eq_refl) as (A1 & A2 & A3). split; [exact A1|]. split; [exact A2|].
        destruct Y2 as (_ & _ & _ & I1 & _). rewrite Y4 in A3. eapply sd_skip; [exact Y1|congruence|exact A3].
      - exfalso. destruct (ET _ _ _ H2 RY) as (y & Y1 & Y2 & Y3 & Y4). destruct (lexer_plain x y Y2) as (L1 & _). destruct H4 as [H4|(_ & H4 & _)]; [|congruence].
        destruct Y1 as (_ & (j & Ej & _) & _). rewrite Forall_forall in Hx. destruct (Hx y (nth_error_In _ _ Ej)) as [_ _ _ (I & _) _]. destruct Y2 as (_ & _ & _ & I1 & _).
        apply I. rewrite <- I1. exact H4.
      - subst r'. cbn. rewrite Adv. split; [reflexivity|]. destruct RY as (Q1 & Q2 & Q3). assert (LT : (r_second r < length inp)%nat) by (apply nth_error_Some; congruence).
        split; [split; [exact Q1|split; [exact Q2|cbn; lia]]|]. destruct H2 as (rs & Hrs & NN & _). rewrite (RO _ _ Hrs) in NN. apply sd_none; [exact H1|]. eapply follows_none; eauto.
      - exfalso. destruct (HH _ _ _ H2) as (y & _ & Y2). destruct (lexer_plain x y Y2) as (L1 & _). congruence. }
    destruct (G _ _ _ _ Q RD eq_refl) as (-> & A1 & A2). auto.
  Qed.
End Lexer.

(** A text has one meaning. *)
Theorem one_meaning b E fl ms text s s' : mtable b E ms -> small b text -> regex_means b E fl text s -> regex_means b E fl text s' -> forall w, slang s w <-> slang s' w.
Proof.
  intros MT Sm H H' w. destruct (source_tokenise b E fl ms text s true MT H Sm) as (v & r & T & G & L & _).
  destruct (source_tokenise b E fl ms text s' true MT H' Sm) as (v' & r' & T' & G' & L' & _). rewrite T in T'. injection T' as EQ. apply app_inj_tail in EQ as [<- _].
  rewrite (L w), (L' w), (gram_unique _ _ _ G _ G'). reflexivity.
Qed.

(** ** Texts that stand for themselves *)
Lemma quoted_cases b fl ms s rule : s <> [] -> small b s ->
  exists w r, tokenise b fl ms (in_quotes s) rule = Ok [between w] /\ gram GRegex r w /\
    forall u, clang r u /\ known b u <-> exists cs, u = map CChar cs /\ Forall2 (fun c d => cased b (f_icase fl) (eq c) d) s cs.
Proof.
  intros N S. destruct (source_tokenise b [] fl ms _ _ rule (mtable_nil b ms) (quoted_means b [] fl s N) (small_quoted b s S)) as (w & r & T & G & L & _).
  exists w, r. split; [exact T|]. split; [exact G|]. intros u. rewrite <- L. now apply literal_lang.
Qed.
Lemma quoted_literal b fl ms s rule : f_icase fl = false -> s <> [] -> small b s ->
  exists w r, tokenise b fl ms (in_quotes s) rule = Ok [between w] /\ gram GRegex r w /\ forall u, clang r u /\ known b u <-> u = map CChar s.
Proof.
  intros I N S. destruct (quoted_cases b fl ms s rule N S) as (w & r & T & G & L). exists w, r. split; [exact T|]. split; [exact G|]. intros u. rewrite L, I. split.
  - intros (cs & -> & H). apply same_chars in H. now subst.
  - intros ->. exists s. split; [reflexivity|]. now apply same_chars.
Qed.
Lemma escaped_literal b fl ms s rule : f_skip_ws fl = false -> f_icase fl = false -> s <> [] -> small b s ->
  exists w r, tokenise b fl ms (escaped s) rule = Ok [between w] /\ gram GRegex r w /\ forall u, clang r u /\ known b u <-> u = map CChar s.
Proof.
  intros W I N S. destruct (source_tokenise b [] fl ms _ _ rule (mtable_nil b ms) (escaped_means b [] fl s W N) (small_escaped b s S)) as (w & r & T & G & L & _).
  exists w, r. split; [exact T|]. split; [exact G|]. intros u. rewrite <- L, literal_lang, I by exact N. split.
  - intros (cs & -> & H). apply same_chars in H. now subst.
  - intros ->. exists s. split; [reflexivity|]. now apply same_chars.
Qed.
