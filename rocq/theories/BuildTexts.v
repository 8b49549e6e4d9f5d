(** What build() does with rules written as texts. *)
From Verif Require Import Base StringToken Grammar StateMachine Generator Build Lookup Minimise Iterator GenCpp DfaSpec Tree Parser ParserTree RuleSpec BuildSpec BuildCheck BuildTree BuildState BuildFuel BuildMachine BuildThms BuildErrs
  ReToken ReTokeniser ReTokeniserNext Rules TokeniseSpec TokeniseAll RulesSpec RulesInv RulesContent RulesFeat RulesBuild RulesTop SourceSpec SourceLiteral SourceLexer SourceTop SourceStates StatesTop TokenList Routes StateTokens StateRoutes.
Local Open Scope N_scope.

(** The rule at [j] is the first that matches some word of characters that there are. *)
Definition wins (b : N) (xs : list srule) (j : nat) : Prop :=
  exists y bol cs, known_chars b cs /\ nth_error xs j = Some y /\ smatch y bol cs /\ forall j' y', (j' < j)%nat -> nth_error xs j' = Some y' -> ~ smatch y' bol cs.
Definition empty_word (y : srule) : Prop := slang (s_sx y) [].
(** What may come out of build(): [xss] are the rules of each start state. *)
Definition outcome (b fl : N) (xss : list (list srule)) (r : res internals) : Prop :=
  match r with
  | Ok _ => forall xs, In xs xss -> xs <> [] /\
      (has fl rf_match_zero_len = false -> forall y, In y xs -> ~ empty_word y) /\
      (has fl 32 = false -> b = 1 \/ b = 2 -> forall j, (j < length xs)%nat -> wins b xs j)
  | Throw EEmptyState => In [] xss
  | Throw EZeroLen => has fl rf_match_zero_len = false /\ exists xs y, In xs xss /\ In y xs /\ empty_word y
  | Throw ESuppressed => has fl 32 = false /\ exists xs j, In xs xss /\ (j < length xs)%nat /\ ~ wins b xs j
  | Throw EOverflow => True
  | _ => False
  end.
(** Nothing to object to. *)
Definition sound_rules (b fl : N) (xs : list srule) : Prop := xs <> [] /\
  (has fl rf_match_zero_len = true \/ forall y, In y xs -> ~ empty_word y) /\
  (has fl 32 = true \/ forall j, (j < length xs)%nat -> wins b xs j).

(** Rule [x] reads what [y] says. *)
Definition reads_as (k : rcfg) (x : grule) (y : srule) : Prop :=
  (exists w r, gr_tokens x = between w /\ gram GRegex r w /\ Forall (vtok (chars (r_bytes k))) w) /\
  (forall w, slang (s_sx y) w <-> rule_lang x w /\ known (r_bytes k) w) /\ BuildSpec.eager x.
Lemma reads_parses k x y : reads_as k x y -> parses x.
Proof. intros ((w & r & E & G & _) & _). exists w, (Some r). split; [exists (tok BEGIN), (tok END); auto|exact G]. Qed.
Lemma reads_match k x y bol cs : known_chars (r_bytes k) cs -> reads_as k x y -> (rmatch x bol cs <-> smatch y bol cs).
Proof.
  intros K ((w & r & E & G & V) & L & _). pose proof (said_anchor k x w r _ E G V L) as HA. apply known_known in K. unfold rmatch, smatch. destruct bol; rewrite !L, ?HA; tauto.
Qed.
Lemma reads_empty k x y : reads_as k x y -> (rmatch x false [] <-> empty_word y).
Proof. intros W. rewrite (reads_match k x y false [] ltac:(right; right; constructor) W). reflexivity. Qed.
Lemma nth_left {A B} (P : A -> B -> Prop) xs ys j x : Forall2 P xs ys -> nth_error xs j = Some x -> exists y, nth_error ys j = Some y /\ P x y.
Proof. intros F. revert j. induction F as [|a b xs ys H F IH]; intros [|j] E; try discriminate; cbn in *; [injection E as <-; eauto|auto]. Qed.
Lemma nth_right {A B} (P : A -> B -> Prop) xs ys j y : Forall2 P xs ys -> nth_error ys j = Some y -> exists x, nth_error xs j = Some x /\ P x y.
Proof. intros F. revert j. induction F as [|a b xs ys H F IH]; intros [|j] E; try discriminate; cbn in *; [injection E as <-; eauto|auto]. Qed.
Lemma in_left {A B} (P : A -> B -> Prop) xs ys x : Forall2 P xs ys -> In x xs -> exists y, In y ys /\ P x y.
Proof. intros F H. apply In_nth_error in H as (j & E). destruct (nth_left _ _ _ _ _ F E) as (y & E' & W). eauto using nth_error_In. Qed.
Lemma in_right {A B} (P : A -> B -> Prop) xs ys y : Forall2 P xs ys -> In y ys -> exists x, In x xs /\ P x y.
Proof. intros F H. apply In_nth_error in H as (j & E). destruct (nth_right _ _ _ _ _ F E) as (x & E' & W). eauto using nth_error_In. Qed.
Lemma same_length {A B} (P : A -> B -> Prop) l l' : Forall2 P l l' -> length l = length l'.
Proof. induction 1; cbn; congruence. Qed.
Lemma reads_won k rs xs j : Forall2 (reads_as k) rs xs -> wins (r_bytes k) xs j -> returnable rs j.
Proof.
  intros F (y & bol & cs & K & E & M & N). destruct (nth_right _ _ _ _ _ F E) as (x & Ex & W). exists x, bol, cs. split; [exact Ex|]. split; [now apply (reads_match k x y bol cs K W)|].
  intros j' x' L Ex' M'. destruct (nth_left _ _ _ _ _ F Ex') as (y' & Ey' & W'). apply (N j' y' L Ey'). now apply (reads_match k x' y' bol cs K W').
Qed.
Lemma reads_win k rs xs j : (r_bytes k = 1 \/ r_bytes k = 2) -> Forall2 (reads_as k) rs xs -> returnable rs j -> wins (r_bytes k) xs j.
Proof.
  intros B F (x & bol & cs & Ex & M & N). assert (K : known_chars (r_bytes k) cs) by (unfold known_chars; tauto).
  destruct (nth_left _ _ _ _ _ F Ex) as (y & Ey & W). exists y, bol, cs. split; [exact K|]. split; [exact Ey|]. split; [now apply (reads_match k x y bol cs K W)|].
  intros j' y' L Ey' M'. destruct (nth_right _ _ _ _ _ F Ey') as (x' & Ex' & W'). apply (N j' x' L Ex'). now apply (reads_match k x' y' bol cs K W').
Qed.
Lemma states_nonempty f k fl gs : forall u st used r, build_states f k fl gs u st used = Ok r -> Forall (fun g => gs_rules g <> []) gs.
Proof.
  induction gs as [|g gs IH]; intros u st used r E; constructor; cbn [build_states] in E; destruct (build_one f k fl g u st used) as [[[o u'] st']| | |] eqn:E1; try discriminate; cbn [bind] in E.
  - intros Z. unfold build_one in E1. rewrite Z in E1. discriminate.
  - destruct (build_states f k fl gs u' st' (o_used o)) as [q| | |] eqn:E2; try discriminate. eapply IH; eauto.
Qed.

Section Object.
  Variables (k : rcfg) (g : gcfg) (fl : N) (R : grules) (xss : list (list srule)).
  Hypothesis WO : wide_ok g.
  Hypothesis RW : rules_wf g R.
  Hypothesis FL : gr_flags R = {| zero_len_ok := has fl rf_match_zero_len; suppressed_ok := has fl 32 |}.
  Hypothesis F : Forall2 (fun s xs => Forall2 (reads_as k) (gs_rules s) xs) (gr_states R) xss.
  Hypothesis LEN : N.of_nat (length (concat xss)) < 2 ^ g_bits g.
  Lemma count_is : rule_count R = length (concat xss).
  Proof. clear - F. unfold rule_count. revert F. generalize (gr_states R) as ss. intros ss F. induction F as [|s xs ss xss' H F' IH]; cbn; [reflexivity|]. rewrite !app_length, (IH F'). now rewrite (same_length _ _ _ H). Qed.
  Theorem object_outcome : exists f0, forall f, (f0 <= f)%nat -> outcome (r_bytes k) fl xss (build f g R).
  Proof.
    destruct (build_ok g R WO RW) as (f0 & H). exists f0. intros f Hf. pose proof count_is as RC.
    assert (EA : Forall (fun s => Forall eager (gs_rules s)) (gr_states R)).
    { apply Forall_forall. intros s Hs. destruct (in_left _ _ _ _ F Hs) as (xs & _ & F'). apply Forall_forall. intros x Hr. destruct (in_left _ _ _ _ F' Hr) as (y & _ & (_ & _ & EG)). exact EG. }
    destruct (H f Hf) as [(e & E & W)|(m & os & E & MM & _)]; rewrite E.
    - destruct e; cbn [outcome]; 
        (destruct W as [(s & Hs & [(Q & Z)|[([Q|Q] & x & Hr & NP)|[(Q & Z & x & Hr & RM)|Q]]])|(Q & _)]; try discriminate);
        try (destruct (in_left _ _ _ _ F Hs) as (xs & Hxs & F')); auto.
      + destruct NP. destruct (in_left _ _ _ _ F' Hr) as (y & _ & W). eapply reads_parses; eauto.
      + destruct NP. destruct (in_left _ _ _ _ F' Hr) as (y & _ & W). eapply reads_parses; eauto.
      + apply same_length in F'. rewrite Z in F'. destruct xs; [exact Hxs|discriminate].
      + rewrite FL in Z. cbn in Z. split; [exact Z|]. destruct (in_left _ _ _ _ F' Hr) as (y & Hy & W). exists xs, y. split; [exact Hxs|]. split; [exact Hy|]. now apply (reads_empty k x y W).
      + destruct (suppressed_sound f g R WO RW ltac:(rewrite RC; exact LEN) EA E) as (Z & s & j & Hs & Lj & NR). rewrite FL in Z. split; [exact Z|].
        destruct (in_left _ _ _ _ F Hs) as (xs & Hxs & F'). exists xs, j. split; [exact Hxs|]. split; [rewrite <- (same_length _ _ _ F'); exact Lj|]. intros WN. apply NR. now apply (reads_won k _ xs j F').
    - cbn [outcome]. intros xs Hxs. destruct (in_right _ _ _ _ F Hxs) as (s & Hs & F'). split; [|split].
      + intros ->. inversion F' as [Q|]. unfold build in E. destruct (build_states f g (gr_flags R) (gr_states R) 0 [] []) as [q| | |] eqn:EB; try discriminate.
        apply states_nonempty in EB. rewrite Forall_forall in EB. apply (EB s Hs). now symmetry.
      + intros Z y Hy EW. destruct (in_right _ _ _ _ F' Hy) as (x & Hr & W). apply (zero_len_complete f g R m WO RW) with (g := s) (r := x) in E; [|now rewrite FL|exact Hs|exact Hr].
        apply E. now apply (reads_empty k x y W).
      + intros Z B j Lj. apply (reads_win k (gs_rules s) xs j B F'). apply (suppressed_complete f g R m WO RW); auto; [rewrite RC; exact LEN|now rewrite FL|rewrite (same_length _ _ _ F'); exact Lj].
  Qed.
  (** A lexer comes out, or there are too many states. *)
  Theorem object_build : Forall (sound_rules (r_bytes k) fl) xss ->
    exists f0, (forall f, (f0 <= f)%nat -> build f g R = Throw EOverflow) \/ exists m, forall f, (f0 <= f)%nat -> build f g R = Ok m.
  Proof.
    intros SR. rewrite Forall_forall in SR. destruct object_outcome as (f0 & H). exists f0. pose proof (H f0 (Nat.le_refl _)) as H0.
    assert (S : forall f, (f0 <= f)%nat -> build f0 g R <> Fuel -> build f g R = build f0 g R) by (intros f L N; apply (build_mono f0); auto).
    destruct (build f0 g R) as [m|e| |] eqn:E; [right; exists m; intros f L; rewrite S; auto; discriminate| |destruct H0|destruct H0].
    destruct e; cbn in H0; try contradiction.
    - destruct (SR _ H0) as (NE & _). congruence.
    - destruct H0 as (Z & xs & y & Hxs & Hy & EW). destruct (SR _ Hxs) as (_ & [A|A] & _); [congruence|]. now destruct (A y Hy).
    - destruct H0 as (Z & xs & j & Hxs & Lj & NW). destruct (SR _ Hxs) as (_ & _ & [A|A]); [congruence|]. destruct (NW (A j Lj)).
    - left. intros f L. rewrite S; auto. discriminate.
  Qed.
End Object.

(** ** One start state *)
Section Texts.
  Variables (k : rcfg) (g : gcfg) (fl : N) (mds : list smacro) (xs : list srule).
  Hypothesis NPOS : 1 < rnpos k.
  Hypothesis Hbits : g_bits g = r_bits k.
  Hypothesis Hbytes : g_bytes g = r_bytes k.
  Hypothesis Hb : 0 < g_bytes g.
  Hypothesis MO : smacros_ok k fl mds.
  Hypothesis Hx : Forall (srule_ok k fl mds) xs.
  Notation R := (grules_of (push_all k fl mds xs)).
  Hypothesis Sets : forall s, In s (gr_states R) -> N.of_nat (length (all_sets (g_bytes g) s)) < eol_tok g.
  Hypothesis Sli : forall x t, In x (rules_at (push_all k fl mds xs) 0) -> In t (gr_tokens x) -> sliceable (g_bytes g) t.
  Lemma texts_object : wide_ok g /\ rules_wf g R /\ gr_flags R = {| zero_len_ok := has fl rf_match_zero_len; suppressed_ok := has fl 32 |} /\
    Forall2 (fun s xs => Forall2 (reads_as k) (gs_rules s) xs) (gr_states R) [xs].
  Proof.
    destruct (push_all_is k fl NPOS mds xs MO Hx) as (P & FL & E & _ & F & _). split; [unfold wide_ok; lia|]. split; [|split].
    - apply (made_wf k g _ NPOS Hbits Hbytes Hb P). exact (lexer_simple k g fl mds xs NPOS MO Hx Sets Sli).
    - cbn [grules_of gr_flags]. now rewrite FL.
    - cbn [grules_of gr_states]. rewrite E. constructor; [|constructor]. change (Forall2 (reads_as k) (rules_at (push_all k fl mds xs) 0) xs). clear - F.
      induction F as [|x y l l' ((w & r & A & B & _ & C) & D & EG & _) F IH]; constructor; [|exact IH]. split; [eauto|]. auto.
  Qed.
  Theorem texts_outcome : N.of_nat (length xs) < 2 ^ g_bits g -> exists f0, forall f, (f0 <= f)%nat -> outcome (r_bytes k) fl [xs] (build f g R).
  Proof. intros LEN. destruct texts_object as (WO & RW & FL & F). apply object_outcome; auto. cbn. now rewrite app_nil_r. Qed.
  Theorem texts_build kc : N.of_nat (length xs) < 2 ^ g_bits g -> sound_rules (r_bytes k) fl xs -> agree kc g -> has fl rf_match_zero_len = false -> f_adv kc = true ->
    exists f0, (forall f, (f0 <= f)%nat -> build f g R = Throw EOverflow) \/
      exists m, (forall f, (f0 <= f)%nat -> build f g R = Ok m) /\
        (RulesBuild.covers kc m -> forall inp, Forall (fits (c_bytes kc)) inp -> known_chars (g_bytes g) inp ->
          exists l, tokens (sreads (npos kc) (skip_id kc) (f_bol kc) xs inp) true 0 l /\ every_route kc m inp l).
  Proof.
    intros LEN SR AG Z Adv. destruct texts_object as (WO & RW & FL & F). destruct (object_build k g fl R [xs] WO RW FL F) as (f0 & H); [cbn; now rewrite app_nil_r|now constructor|].
    exists f0. destruct H as [H|(m & H)]; [now left|right]. exists m. split; [exact H|]. intros CV inp HI HK.
    destruct (texts_all_tokens k g kc fl mds f0 m inp NPOS Hbits AG MO Z Adv HI CV xs Hbytes Hb Hx Sets Sli (H f0 (Nat.le_refl _)) HK) as (l & T & EV & _). eauto.
  Qed.
End Texts.

(** ** Start states *)
Section States.
  Variables (k : rcfg) (g : gcfg) (fl : N) (more : list (list N)) (mds : list smacro) (ds : list decl).
  Hypothesis NPOS : 1 < rnpos k.
  Hypothesis Hbits : g_bits g = r_bits k.
  Hypothesis Hbytes : g_bytes g = r_bytes k.
  Hypothesis Hb : 0 < g_bytes g.
  Notation names := (initial :: more).
  Hypothesis ND : NoDup names.
  Hypothesis FV : Forall (fun n => validate n = true) more.
  Hypothesis LN : N.of_nat (length names) < 2 ^ r_bits k.
  Hypothesis MO : smacros_ok k fl mds.
  Hypothesis Hd : Forall (decl_ok k fl mds names) ds.
  Notation ru := (make_lexer k fl more mds ds).
  Notation R := (grules_of ru).
  Hypothesis Sets : forall s, In s (gr_states R) -> N.of_nat (length (all_sets (g_bytes g) s)) < eol_tok g.
  Hypothesis Sli : forall i x t, In x (rules_at ru i) -> In t (gr_tokens x) -> sliceable (g_bytes g) t.
  (** The rules of the state [n]. *)
  Definition texts_in (n : list N) : list srule := map d_rule (rules_in ds n).
  Lemma rules_named i x : In x (rules_at ru i) -> exists n d, In d (rules_in ds n) /\ does k names (N.of_nat i) x d.
  Proof.
    intros H. destruct (lexer_object k fl more mds ds NPOS ND FV LN MO Hd) as (P & _ & E & F). destruct (Nat.lt_ge_cases i (length names)) as [L|L].
    - destruct (nth_error names i) as [n|] eqn:En; [|apply nth_error_None in En; exfalso; clear - L En; lia]. exists n. assert (Hn : named names (N.of_nat i) n) by (unfold named; now rewrite Nat2N.id).
      specialize (F _ _ Hn). rewrite Nat2N.id in F. destruct (in_left _ _ _ _ F H) as (d & Hin & D). eauto.
    - exfalso. destruct (unsplit_feats k NPOS ru P) as (A & _). destruct (al_states _ _ A) as (A1 & _).
      unfold rules_at in H. rewrite (nth_overflow (ru_regexes ru)) in H; [exact H|]. rewrite A1, <- (map_length fst), E. exact L.
  Qed.
  Lemma plain_states : simple g ru.
  Proof.
    destruct (lexer_object k fl more mds ds NPOS ND FV LN MO Hd) as (P & _).
    assert (K : forall i x, In x (rules_at ru i) -> ends EOL (removelast (gr_tokens x)) = false /\ (starts BOL (tl (gr_tokens x)) = true -> bol_rule true x)).
    { intros i x Hi. destruct (rules_named i x Hi) as (n & d & Hin & (w & q & E & G & _) & L & _).
      unfold rules_in in Hin. apply filter_In in Hin as [Hin _]. rewrite Forall_forall in Hd. destruct (Hd d Hin) as [_ _ _ _ _ B _ _].
      eapply says_simple; eauto. }
    split; [intros i x Hi; now apply (K i x Hi)|]. split; [intros i x Hi; now apply (K i x Hi)|]. split; [exact Sets|exact Sli].
  Qed.
  Lemma states_object : wide_ok g /\ rules_wf g R /\ gr_flags R = {| zero_len_ok := has fl rf_match_zero_len; suppressed_ok := has fl 32 |} /\
    Forall2 (fun s xs => Forall2 (reads_as k) (gs_rules s) xs) (gr_states R) (map texts_in names).
  Proof.
    destruct (lexer_object k fl more mds ds NPOS ND FV LN MO Hd) as (P & FL & E & F). split; [unfold wide_ok; lia|]. split; [|split].
    - apply (made_wf k g _ NPOS Hbits Hbytes Hb P). exact plain_states.
    - cbn [grules_of gr_flags]. now rewrite FL.
    - cbn [grules_of gr_states]. assert (L : length (ru_map ru) = length names) by now rewrite <- (map_length fst), E. rewrite L.
      assert (G : forall l i, (forall j n, nth_error l j = Some n -> named names (N.of_nat (i + j)) n) ->
        Forall2 (fun s xs => Forall2 (reads_as k) (gs_rules s) xs)
          (map (fun i => {| gs_rules := zip_rules (nth i (ru_regexes ru) []) (nth i (ru_ids ru) []) (nth i (ru_uids ru) []) (nth i (ru_nexts ru) []) (nth i (ru_pushes ru) []) (nth i (ru_pops ru) []);
                            gs_features := nth i (ru_features ru) 0 |}) (seq i (length l))) (map texts_in l)).
      { clear - F. induction l as [|n l IH]; intros i H; [constructor|]. cbn [length seq map]. constructor.
        - specialize (H 0%nat n eq_refl). rewrite Nat.add_0_r in H. specialize (F _ _ H). rewrite Nat2N.id in F. cbn [gs_rules]. change (Forall2 (reads_as k) (rules_at ru i) (texts_in n)). unfold texts_in.
          clear - F. induction F as [|x d l l' ((w & r & A & B & _ & C) & D & EG & _) F IH]; constructor; [|exact IH]. split; [eauto|]. auto.
        - apply IH. intros j m' Hj. replace (S i + j)%nat with (i + S j)%nat by lia. now apply H. }
      apply (G names 0%nat). intros j n Hj. unfold named. rewrite Nat2N.id. exact Hj.
  Qed.
  Theorem states_outcome : N.of_nat (length (concat (map texts_in names))) < 2 ^ g_bits g -> exists f0, forall f, (f0 <= f)%nat -> outcome (r_bytes k) fl (map texts_in names) (build f g R).
  Proof. intros LEN. destruct states_object as (WO & RW & FL & F). apply object_outcome; auto. Qed.
  Theorem states_build kc : N.of_nat (length (concat (map texts_in names))) < 2 ^ g_bits g -> Forall (sound_rules (r_bytes k) fl) (map texts_in names) ->
    agree kc g -> has fl rf_match_zero_len = false -> f_adv kc = true -> f_multi kc = true ->
    exists f0, (forall f, (f0 <= f)%nat -> build f g R = Throw EOverflow) \/
      exists m, (forall f, (f0 <= f)%nat -> build f g R = Ok m) /\
        (RulesBuild.covers kc m -> forall inp, Forall (fits (c_bytes kc)) inp -> known_chars (g_bytes g) inp ->
          exists l e, mtokens (npos kc) (skip_id kc) (f_bol kc) ds inp initial [] true 0 l e /\ all_roads kc m inp l e).
  Proof.
    intros LEN SR AG Z Adv MU. destruct states_object as (WO & RW & FL & F). destruct (object_build k g fl R _ WO RW FL F LEN SR) as (f0 & H).
    exists f0. destruct H as [H|(m & H)]; [now left|right]. exists m. split; [exact H|]. intros CV inp HI HK.
    destruct (states_all_tokens k g kc fl more mds ds f0 m inp NPOS Hbits Hbytes Hb AG ND FV LN MO Hd Sets Sli (H f0 (Nat.le_refl _)) Z Adv MU HI HK CV) as (l & e & T & EV & _). eauto.
  Qed.
End States.
