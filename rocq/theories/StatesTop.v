(** From texts to tokens with several start states. *)
From Verif Require Import Base StringToken StringTokenSpec StringTokenProofs RegexSpec StateMachine ReToken ReTokeniser ReTokeniserNext Grammar GramUnique RuleSpec
  ParserProofs Tree Parser Generator Build Lookup TableSpec LookupSpec DfaSpec BuildSpec BolWords BuildLookup BuildErrs BuildThms BuildCheck ParserKeys
  Rules TokeniseSpec TokeniseProofs StripProofs PruneProofs TokeniseAll
  RulesSpec RulesInv RulesContent RulesFeat RulesBuild RulesTop RulesPush
  SourceSpec SourceSets SourceClass SourceRep SourceLex SourceLead SourceAll SourceLexer SourceLiteral SourceTop SourceStates.
Local Open Scope N_scope.

(** ** The object: the states are named, then the rules are pushed *)
Definition make_states (k : rcfg) (fl : N) (more : list (list N)) : rules :=
  fold_left (fun r n => fst (push_state k n r)) more (make_rules k fl).
(** A rule with the id 0 is pushed without an id (rules.hpp:347-351). *)
Definition declare_op (d : decl) : op :=
  let x := d_rule d in
  if s_id x =? 0 then OPushNoId (d_cur d) (s_text x) (leave_text (d_leave d))
  else OPushIn (d_cur d) (s_text x) (s_id x) (leave_text (d_leave d)) (s_uid x).
Definition make_lexer (k : rcfg) (fl : N) (more : list (list N)) (mds : list smacro) (ds : list decl) : rules :=
  fold_left (fun r d => fst (apply k (declare_op d) r)) ds (put_macros k mds (make_states k fl more)).

Definition leaves_to (e : leave) : list (list N) :=
  match e with Go n | Push n => [n] | PushTo n m => [n; m] | _ => [] end.
Record decl_ok (k : rcfg) (fl : N) (mds : list smacro) (names : list (list N)) (d : decl) : Prop := {
  dc_means : regex_means (r_bytes k) (meanings mds) fl (s_text (d_rule d)) (s_sx (d_rule d));
  dc_small : small (r_bytes k) (s_text (d_rule d));
  dc_numbers : numbers_fit (s_text (d_rule d));
  dc_id : s_id (d_rule d) <> rnpos k;
  dc_uid : s_id (d_rule d) = 0 -> s_uid (d_rule d) = rnpos k;
  dc_bol : early (s_sx (d_rule d));
  dc_in : (d_cur d = [42] /\ d_in d = names) \/
          (d_cur d = commas (d_in d) /\ d_in d <> [] /\ NoDup (d_in d) /\ incl (d_in d) names);
  dc_leave : incl (leaves_to (d_leave d)) names
}.
(** The name of a state. *)
Definition named (names : list (list N)) (i : N) (n : list N) : Prop := nth_error names (N.to_nat i) = Some n.
(** Rule [x] of the start state [cur] is what [d] says. *)
Definition leads (k : rcfg) (names : list (list N)) (cur : N) (x : grule) (e : leave) : Prop :=
  match e with
  | Stay => gr_next x = cur /\ gr_push x = rnpos k /\ gr_pop x = false
  | Go n => named names (gr_next x) n /\ gr_push x = rnpos k /\ gr_pop x = false
  | Push n => named names (gr_next x) n /\ gr_push x = cur /\ gr_pop x = false
  | PushTo n m => named names (gr_next x) n /\ named names (gr_push x) m /\ gr_pop x = false
  | Pop => gr_pop x = true
  end.
Definition does (k : rcfg) (names : list (list N)) (cur : N) (x : grule) (d : decl) : Prop :=
  (exists w r, gr_tokens x = between w /\ gram GRegex r w /\ (csets w <= leaves (s_sx (d_rule d)))%nat /\ Forall (vtok (chars (r_bytes k))) w) /\
  (forall w, slang (s_sx (d_rule d)) w <-> rule_lang x w /\ known (r_bytes k) w) /\ BuildSpec.eager x /\
  gr_id x = s_id (d_rule d) /\ gr_uid x = s_uid (d_rule d) /\ leads k names cur x (d_leave d).

(** ** Names and numbers *)
Lemma nth_fst r i n : nth_error (map fst (ru_map r)) i = Some n -> exists j, nth_error (ru_map r) i = Some (n, j).
Proof.
  rewrite nth_error_map. destruct (nth_error (ru_map r) i) as [[n' j]|]; [|discriminate]. cbn. intros [= ->]. eauto.
Qed.
Lemma map_get_some m n i : NoDup (map fst m) -> In (n, i) m -> map_get n m = Some i.
Proof.
  induction m as [|[n' j] m IH]; intros ND H; [destruct H|]. cbn in ND. inversion ND as [|? ? N1 N2]; subst. cbn. destruct H as [[= -> ->]|H].
  - now rewrite text_eqb_refl.
  - destruct (text_eqb n n') eqn:E; [|auto]. apply text_eqb_iff in E. subst. exfalso. apply N1. apply in_map_iff. exists (n', i). auto.
Qed.
Lemma named_get k r i n : aligned k r -> N.of_nat (length (ru_map r)) < 2 ^ r_bits k ->
  (named (map fst (ru_map r)) i n <-> map_get n (ru_map r) = Some i).
Proof.
  intros A L. assert (IX : forall j n' i', nth_error (ru_map r) j = Some (n', i') -> i' = N.of_nat j).
  { intros j n' i' E. rewrite (al_index _ _ A _ _ _ E). apply N.mod_small. assert (j < length (ru_map r))%nat by (apply nth_error_Some; congruence). lia. }
  split.
  - intros H. apply nth_fst in H as (j & E). pose proof (IX _ _ _ E) as Ej. rewrite N2Nat.id in Ej. subst j.
    apply map_get_some; [apply A|]. eapply nth_error_In; eauto.
  - intros H. apply map_get_in in H. apply In_nth_error in H as (j & E). pose proof (IX _ _ _ E) as ->. unfold named. rewrite Nat2N.id, nth_error_map, E. reflexivity.
Qed.
Lemma named_once names i j n : NoDup names -> named names i n -> named names j n -> i = j.
Proof. intros ND H1 H2. apply N2Nat.inj. eapply NoDup_nth_error; eauto; [apply nth_error_Some; unfold named in H1; congruence|]. unfold named in *. congruence. Qed.

(** ** One rule *)
Section Object.
  Variables (k : rcfg) (fl : N).
  Hypothesis NPOS : 1 < rnpos k.
  Lemma rec_feature w id rec : exists bits, w <> [] -> feature_bits k (between w) (between w) id rec = Ok bits.
  Proof.
    destruct w as [|t w]; [exists 0; easy|]. unfold feature_bits, between. cbn [nth_error app].
    destruct (nth_error (tok BEGIN :: t :: w ++ [tok END]) (length (tok BEGIN :: t :: w ++ [tok END]) - 2)) eqn:E; [eexists; intros _; reflexivity|].
    apply nth_error_None in E. cbn [length] in E. lia.
  Qed.
  Lemma each_same x id uid e is : forall r, ru_map (fst (push_each k x id uid e is r)) = ru_map r /\ ru_flags (fst (push_each k x id uid e is r)) = ru_flags r /\
    ru_macros (fst (push_each k x id uid e is r)) = ru_macros r.
  Proof.
    induction is as [|i is IH]; intros r; [auto|]. cbn [push_each]. destruct (tokenise _ _ _ _ _) as [[|t ts]| | |]; auto.
    destruct (feature_bits _ _ _ _ _); auto. destruct (Nat.ltb _ _); auto. match goal with |- context [push_each k x id uid e is ?q] => destruct (IH q) as (E1 & E2 & E3) end. auto.
  Qed.
  Lemma each_ok x id uid e w is : forall r, aligned k r -> tokenise (r_bytes k) (ru_flags r) (ru_macros r) x true = Ok [between w] -> w <> [] ->
    Forall (fun i => (N.to_nat i < length (ru_map r))%nat) is -> snd (push_each k x id uid e is r) = Ok tt.
  Proof.
    induction is as [|i is IH]; intros r A T W F; [reflexivity|]. inversion F as [|? ? F1 F2]; subst. cbn [push_each]. rewrite T. cbn [last].
    destruct (rec_feature w id (exit_rec e)) as (bits & B). rewrite (B W). destruct (al_states _ _ A) as (A1 & _). rewrite (proj2 (Nat.ltb_lt _ _)) by (rewrite A1; exact F1).
    apply IH; auto. now apply aligned_add_rules.
  Qed.
  Lemma added_once id uid f w is i : NoDup is ->
    added id uid f [between w] is i = if in_dec N.eq_dec (N.of_nat i) is then let '(nx, pu, po) := f (N.of_nat i) in [mk_rule id uid nx pu po (between w)] else [].
  Proof.
    unfold added. induction is as [|j is IH]; intros ND; [reflexivity|]. inversion ND as [|? ? N1 N2]; subst. cbn [flat_map]. rewrite (IH N2). clear IH.
    destruct (Nat.eqb_spec (N.to_nat j) i) as [<-|NE].
    - rewrite N2Nat.id. destruct (in_dec N.eq_dec j is) as [H|_]; [easy|]. destruct (in_dec N.eq_dec j (j :: is)) as [_|H]; [|exfalso; apply H; now left].
      destruct (f j) as [[nx pu] po]. reflexivity.
    - cbn [app]. destruct (in_dec N.eq_dec (N.of_nat i) is) as [H|H]; destruct (in_dec N.eq_dec (N.of_nat i) (j :: is)) as [H'|H']; try reflexivity.
      + exfalso. apply H'. now right.
      + exfalso. destruct H' as [->|H']; [rewrite Nat2N.id in NE; easy|easy].
  Qed.

  Lemma leave_exits r e : aligned k r -> N.of_nat (length (ru_map r)) < 2 ^ r_bits k -> incl (leaves_to e) (map fst (ru_map r)) ->
    exists f, exits k r (leave_text e) f /\ forall cur x, (gr_next x, gr_push x, gr_pop x) = f cur -> leads k (map fst (ru_map r)) cur x e.
  Proof.
    intros A L I. assert (GET : forall n, In n (leaves_to e) -> exists i, map_get n (ru_map r) = Some i /\ named (map fst (ru_map r)) i n).
    { intros n Hn. apply I in Hn. apply In_nth_error in Hn as (j & E). exists (N.of_nat j).
      assert (H : named (map fst (ru_map r)) (N.of_nat j) n) by (unfold named; now rewrite Nat2N.id). split; [|exact H]. now apply (named_get k r _ _ A L). }
    destruct e as [|n|n|n m|]; cbn [leave_text leaves_to leads] in *.
    - eexists. split; [apply ex_stay|]. intros cur x [= -> -> ->]. auto.
    - destruct (GET n) as (i & G & H); [now left|]. eexists. split; [now apply (ex_go k r n i)|]. intros cur x [= -> -> ->]. auto.
    - destruct (GET n) as (i & G & H); [now left|]. eexists. split; [now apply (ex_push k r n i)|]. intros cur x [= -> -> ->]. auto.
    - destruct (GET n) as (i & G & H); [now left|]. destruct (GET m) as (j & G' & H'); [right; now left|]. eexists. split; [now apply (ex_push_to k r n i m j)|]. intros cur x [= -> -> ->]. auto.
    - eexists. split; [apply ex_pop|]. intros cur x [= _ _ ->]. auto.
  Qed.
  Lemma in_currents r d : aligned k r -> N.of_nat (length (ru_map r)) < 2 ^ r_bits k ->
    (d_cur d = [42] /\ d_in d = map fst (ru_map r)) \/ (d_cur d = commas (d_in d) /\ d_in d <> [] /\ NoDup (d_in d) /\ incl (d_in d) (map fst (ru_map r))) ->
    exists is, currents k r (d_cur d) is /\ NoDup is /\ Forall (fun i => (N.to_nat i < length (ru_map r))%nat) is /\
      forall i n, named (map fst (ru_map r)) i n -> (In i is <-> In n (d_in d)).
  Proof.
    intros A L [(E1 & E2)|(E1 & E2 & E3 & E4)].
    - rewrite E1, E2. eexists. split; [apply cu_all|]. split; [apply FinFun.Injective_map_NoDup; [exact Nat2N.inj|apply seq_NoDup]|]. split.
      + apply Forall_forall. intros i H. apply in_map_iff in H as (j & <- & H). apply in_seq in H. rewrite Nat2N.id. lia.
      + intros i n H. split; intros _; [eapply nth_error_In; eauto|]. apply in_map_iff. exists (N.to_nat i). split; [apply N2Nat.id|]. apply in_seq.
        assert (N.to_nat i < length (map fst (ru_map r)))%nat by (apply nth_error_Some; unfold named in H; congruence). rewrite map_length in *. lia.
    - rewrite E1. assert (F : exists is, Forall2 (fun n i => map_get n (ru_map r) = Some i) (d_in d) is).
      { clear - E4 A L. induction (d_in d) as [|n ns IH]; [exists []; constructor|]. destruct IH as (is & F); [intros x H; apply E4; now right|].
        destruct (In_nth_error _ _ (E4 n (or_introl eq_refl))) as (j & E). exists (N.of_nat j :: is). constructor; [|exact F].
        apply (named_get k r _ _ A L). unfold named. now rewrite Nat2N.id. }
      destruct F as (is & F). exists is. split; [now apply cu_named|]. assert (G : forall n i, map_get n (ru_map r) = Some i <-> named (map fst (ru_map r)) i n) by (intros; symmetry; now apply (named_get k)).
      assert (IN : forall i n, named (map fst (ru_map r)) i n -> (In i is <-> In n (d_in d))).
      { intros i n H. clear E1 E2 E3 E4. induction F as [|m j ns js Hm F IH]; [tauto|]. cbn. rewrite IH. apply G in Hm. split; (intros [->|K]; [left|now right]).
        - unfold named in *. congruence.
        - eapply named_once; eauto. apply A. }
      split; [|split; [|exact IN]].
      + clear - F E3 G. induction F as [|m j ns js Hm F IH]; [constructor|]. inversion E3 as [|? ? N1 N2]; subst. constructor; [|auto].
        intros H. apply N1. clear - H F Hm G. induction F as [|m' j' ns js Hm' F IH]; [destruct H|]. destruct H as [->|H]; [left|right; auto].
        apply G in Hm, Hm'. unfold named in *. congruence.
      + apply Forall_forall. intros i H. clear - H F G. induction F as [|m' j' ns js Hm' F IH]; [destruct H|]. destruct H as [->|H]; [|auto].
        apply G in Hm'. rewrite <- (map_length fst). apply nth_error_Some. unfold named in Hm'. congruence.
  Qed.
  Variable mds : list smacro.
  Lemma declare_one d r : proper_unsplit k r -> ru_flags r = fl -> mtable (r_bytes k) (meanings mds) (ru_macros r) -> N.of_nat (length (ru_map r)) < 2 ^ r_bits k -> decl_ok k fl mds (map fst (ru_map r)) d ->
    let r' := fst (apply k (declare_op d) r) in
    snd (apply k (declare_op d) r) = Ok tt /\ ru_flags r' = fl /\ ru_map r' = ru_map r /\ ru_macros r' = ru_macros r /\ op_ok k r (declare_op d) /\ op_unsplit k r (declare_op d) /\
    forall i n, named (map fst (ru_map r)) i n -> exists xs, rules_at r' (N.to_nat i) = rules_at r (N.to_nat i) ++ xs /\
      Forall2 (does k (map fst (ru_map r)) i) xs (rules_in [d] n).
  Proof.
    intros PR Efl MT LM [M S NF I1 IU B CU LV]. destruct (unsplit_feats k NPOS r PR) as (A & _ & _). destruct (source_tokenise _ _ _ _ _ _ true MT M S) as (w & q & T & G & L & Z & _ & LN). rewrite <- Efl in T.
    pose proof (gram_nonempty _ _ _ G) as WN. destruct (leave_exits r (d_leave d) A LM LV) as (f & EX & EL). destruct (in_currents r d A LM CU) as (is & CR & ND & FI & IN).
    destruct (exits_parse k r _ f A EX) as (e & Ee & He). pose proof (currents_parse k r _ is A LM CR) as Ec.
    assert (TO : text_ok k r (ru_macros r) (s_text (d_rule d)) true).
    { split; [exact S|]. split; [exact NF|]. intros _ w' T'. rewrite Efl in T'. destruct (source_loop _ _ _ _ _ _ MT M S) as (ts & q' & T2 & _ & _ & F & _). rewrite T' in T2. injection T2 as E. apply app_inj_tail in E as [-> _].
      eapply Forall_impl; [|exact F]. intros t H. unfold zero_plain. intros Z'. unfold SourceLex.eager in H. rewrite Z' in H. discriminate. }
    assert (PU : exists check, apply k (declare_op d) r = push_states k (d_cur d) (s_text (d_rule d)) (s_id (d_rule d)) (leave_text (d_leave d)) check (s_uid (d_rule d)) r /\
      check && bad_id k (s_id (d_rule d)) = false).
    { unfold declare_op. destruct (N.eqb_spec (s_id (d_rule d)) 0) as [E|E]; cbn [apply].
      - exists false. rewrite E, (IU E). auto.
      - exists true. split; [reflexivity|]. unfold bad_id. rewrite (proj2 (N.eqb_neq _ _) E), (proj2 (N.eqb_neq _ _) I1). reflexivity. }
    destruct PU as (check & PU & BI). cbv zeta. rewrite PU.
    assert (OK : snd (push_states k (d_cur d) (s_text (d_rule d)) (s_id (d_rule d)) (leave_text (d_leave d)) check (s_uid (d_rule d)) r) = Ok tt).
    { unfold push_states. rewrite BI, Ee, Ec. now apply (each_ok _ _ _ _ w). }
    split; [exact OK|]. assert (SM : ru_flags (fst (push_states k (d_cur d) (s_text (d_rule d)) (s_id (d_rule d)) (leave_text (d_leave d)) check (s_uid (d_rule d)) r)) = fl /\
      ru_map (fst (push_states k (d_cur d) (s_text (d_rule d)) (s_id (d_rule d)) (leave_text (d_leave d)) check (s_uid (d_rule d)) r)) = ru_map r /\
      ru_macros (fst (push_states k (d_cur d) (s_text (d_rule d)) (s_id (d_rule d)) (leave_text (d_leave d)) check (s_uid (d_rule d)) r)) = ru_macros r).
    { unfold push_states. rewrite BI, Ee, Ec. rewrite (proj1 (each_same _ _ _ _ _ _)), (proj1 (proj2 (each_same _ _ _ _ _ _))), (proj2 (proj2 (each_same _ _ _ _ _ _))). auto. }
    assert (OO : op_ok k r (declare_op d)) by (unfold declare_op; destruct (_ =? 0); exact TO).
    assert (OU : op_unsplit k r (declare_op d)).
    { unfold declare_op. destruct (_ =? 0); cbn [op_unsplit]; intros v T'; rewrite T in T'; injection T' as <-; reflexivity. }
    assert (PR' := pu_call k (declare_op d) r PR OO OU). rewrite PU in PR'.
    split; [apply SM|]. split; [apply SM|]. split; [apply SM|]. split; [exact OO|]. split; [exact OU|].
    intros i n Hn. destruct (pushed_in k _ _ _ _ _ _ r f is A LM EX CR OK) as (v & V1 & V2). specialize (V2 (N.to_nat i)). rewrite V2.
    assert (V : v = [between w] \/ is = []). { destruct is; [now right|left]. rewrite T in V1. assert (E : Ok [between w] = Ok v) by (apply V1; discriminate). now injection E. }
    assert (AD : added (s_id (d_rule d)) (s_uid (d_rule d)) f v is (N.to_nat i) = added (s_id (d_rule d)) (s_uid (d_rule d)) f [between w] is (N.to_nat i)) by (destruct V as [-> | ->]; reflexivity).
    rewrite AD in V2 |- *. rewrite added_once in V2 |- * by exact ND. rewrite N2Nat.id in V2 |- *. eexists. split; [reflexivity|]. unfold rules_in. cbn [filter].
    specialize (IN i n Hn). destruct (in_dec N.eq_dec i is) as [H|H]; cbn [app] in V2; destruct (in_dec (list_eq_dec N.eq_dec) n (d_in d)) as [H'|H']; try tauto; [|constructor].
    specialize (EL i). destruct (f i) as [[nx pu] po] eqn:Ef in V2 |- *. rewrite ?Ef in EL. constructor; [|constructor].
    assert (VT : Forall (vtok (chars (r_bytes k))) w).
    { apply (proper_vtok k NPOS _ (N.to_nat i) (mk_rule (s_id (d_rule d)) (s_uid (d_rule d)) nx pu po (between w)) w PR'); [|reflexivity]. rewrite V2. apply in_or_app. right. now left. }
    split; [exists w, q; auto|]. split; [|split; [exact Z|split; [reflexivity|split; [reflexivity|]]]].
    - intros u. rewrite L. assert (RL := rule_lang_is (mk_rule (s_id (d_rule d)) (s_uid (d_rule d)) nx pu po (between w)) w q eq_refl G u). tauto.
    - now apply EL.
  Qed.
  Lemma make_states_is more : NoDup (initial :: more) -> Forall (fun n => validate n = true) more ->
    let r := make_states k fl more in proper_unsplit k r /\ ru_flags r = fl /\ ru_macros r = [] /\ map fst (ru_map r) = initial :: more /\ forall i, rules_at r i = [].
  Proof.
    induction more as [|n more IH] using rev_ind; intros ND F; cbv zeta in *.
    - split; [constructor|]. unfold make_states, make_rules, push_state. cbn [fold_left]. change (validate initial) with true. cbn [no_rules ru_map map_get].
      destruct (_ <? _); cbn [fst]; (split; [reflexivity|split; [reflexivity|split; [reflexivity|intros i; unfold rules_at; destruct i as [|[|i]]; reflexivity]]]).
    - apply Forall_app in F as [F Fn]. inversion Fn as [|? ? V _]; subst.
      assert (ND' : NoDup (initial :: more)) by (change (NoDup ((initial :: more) ++ [n])) in ND; apply NoDup_remove_1 in ND; now rewrite app_nil_r in ND).
      assert (NI : ~ In n (initial :: more)) by (change (NoDup ((initial :: more) ++ [n])) in ND; apply NoDup_remove_2 in ND; now rewrite app_nil_r in ND).
      destruct (IH ND' F) as (P & Efl & Emc & Em & E). unfold make_states. rewrite fold_left_app. cbn [fold_left]. fold (make_states k fl more). set (r := make_states k fl more) in *.
      assert (MG : map_get n (ru_map r) = None).
      { destruct (map_get n (ru_map r)) as [i|] eqn:G; [|reflexivity]. exfalso. apply NI. rewrite <- Em. apply map_get_in in G. apply in_map_iff. exists (n, i). auto. }
      split; [change (fst (push_state k n r)) with (fst (apply k (OState n) r)); constructor; [exact P|exact Logic.I|exact Logic.I]|].
      unfold push_state. rewrite V, MG. cbv zeta. destruct (_ <? _); cbn [fst ru_flags ru_map ru_macros]; (split; [exact Efl|]); (split; [exact Emc|]); (split; [rewrite map_app, Em; reflexivity|]);
        intros i; unfold rules_at; cbn [ru_regexes ru_ids ru_uids ru_nexts ru_pushes ru_pops]; rewrite !nth_snoc; exact (E i).
  Qed.
  Lemma make_lexer_is more ds : let names := initial :: more in NoDup names -> Forall (fun n => validate n = true) more ->
    N.of_nat (length names) < 2 ^ r_bits k -> smacros_ok k fl mds -> Forall (decl_ok k fl mds names) ds ->
    let r := make_lexer k fl more mds ds in proper_unsplit k r /\ ru_flags r = fl /\ mtable (r_bytes k) (meanings mds) (ru_macros r) /\ map fst (ru_map r) = names /\
      forall i n, named names i n -> Forall2 (does k names i) (rules_at r (N.to_nat i)) (rules_in ds n).
  Proof.
    intros names ND FV LN MO. induction ds as [|d ds IH] using rev_ind; intros F; cbv zeta in *.
    - destruct (make_states_is more ND FV) as (P & Efl & Emc & Em & E). unfold make_lexer. cbn [fold_left].
      destruct (put_macros_is k fl NPOS mds _ P Efl Emc MO) as (P' & Q1 & Q2 & Q3 & Q4 & _).
      split; [exact P'|]. split; [exact Q1|]. split; [exact Q4|]. split; [now rewrite Q2|].
      intros i n _. rewrite Q3, E. constructor.
    - apply Forall_app in F as [F Fd]. inversion Fd as [|? ? D _]; subst. destruct (IH F) as (P & Efl & MT & Em & E).
      unfold make_lexer. rewrite fold_left_app. cbn [fold_left]. fold (make_lexer k fl more mds ds). set (r := make_lexer k fl more mds ds) in *.
      destruct (unsplit_feats k NPOS r P) as (A & _ & _). assert (LM : N.of_nat (length (ru_map r)) < 2 ^ r_bits k) by (rewrite <- (map_length fst), Em; exact LN).
      rewrite <- Em in D. destruct (declare_one d r P Efl MT LM D) as (S1 & S2 & S3 & S7 & S4 & S5 & S6).
      split; [now constructor|]. split; [exact S2|]. split; [now rewrite S7|]. split; [now rewrite S3|]. intros i n Hn. rewrite Em in S6. destruct (S6 i n Hn) as (xs & X1 & X2).
      rewrite X1. unfold rules_in in *. rewrite filter_app. apply Forall2_app; auto.
  Qed.
End Object.

(** ** The description leaves no choice *)
Lemma mlongest_det ds inp bol p x q x' q' : mlongest ds inp bol p x q -> mlongest ds inp bol p x' q' -> x = x' /\ q = q'.
Proof.
  intros (R1 & (j & E1 & M1 & L1) & U1) (R2 & (j' & E2 & M2 & L2) & U2).
  assert (q = q').
  { destruct (Nat.lt_trichotomy q q') as [H|[H|H]]; [|exact H|].
    - exfalso. apply (U1 q' x'); [lia|eapply nth_error_In; eauto|exact M2].
    - exfalso. apply (U2 q x); [lia|eapply nth_error_In; eauto|exact M1]. }
  subst q'. split; [|reflexivity]. destruct (Nat.lt_trichotomy j j') as [H|[H|H]].
  - exfalso. apply (L2 j x H E1 M1).
  - subst. congruence.
  - exfalso. apply (L1 j' x' H E2 M2).
Qed.
Lemma moves_det d n st m st' m' st'' : moves d n st m st' -> moves d n st m' st'' -> m = m' /\ st' = st''.
Proof. intros H1 H2. inversion H1; subst; inversion H2; subst; try congruence; split; congruence. Qed.
Theorem mreads_det none skip see ds inp first n st bol p a : mreads none skip see ds inp first n st bol p a ->
  forall a', mreads none skip see ds inp first n st bol p a' -> a = a'.
Proof.
  assert (NL : forall ds bol p x q, mlongest ds inp bol p x q -> mnone ds inp bol p -> False).
  { intros ds' bol' p' x q (R1 & (j & E & M & _) & _) N. apply (N q x); [lia|eapply nth_error_In; eauto|exact M]. }
  assert (EN : forall p c, nth_error inp p = Some c -> p = length inp -> False).
  { intros p' c H ->. assert (length inp < length inp)%nat by (apply nth_error_Some; congruence). lia. }
  assert (EL : forall ds bol p x q, mlongest ds inp bol p x q -> p = length inp -> False) by (intros ds' bol' p' x q (R1 & _) ->; lia).
  assert (UN : forall d n m st, d_leave d = Pop -> moves d n [] m st -> False) by (intros d n' m st' H K; inversion K; congruence).
  induction 1 as [first n st bol p H|first n st bol p d q m st' H MV N G|first n st bol p d q m st' a H MV N K IH|first n st bol p d q m st' a H MV N G K IH|first n st bol p c H N|first n bol p d q H P];
    intros a' S; inversion S; subst; try (exfalso; eauto; fail); try reflexivity;
    repeat match goal with A : mlongest _ _ _ _ _ _, B : mlongest _ _ _ _ _ _ |- _ => destruct (mlongest_det _ _ _ _ _ _ _ _ A B) as [? ?]; subst; clear B end;
    repeat match goal with A : moves ?d ?n ?s _ _, B : moves ?d ?n ?s _ _ |- _ => destruct (moves_det _ _ _ _ _ _ _ A B) as [? ?]; subst; clear B end;
    try (exfalso; eauto; congruence); try reflexivity; auto.
  rewrite H in *. match goal with A : Some _ = Some _ |- _ => injection A as -> end. reflexivity.
Qed.

(** ** The lexer *)
Section Follow.
  Variables (k : rcfg) (names : list (list N)) (cur : N) (inp : list N).
  Hypothesis KI : known_chars (r_bytes k) inp.
  Lemma does_match x d bol p q : does k names cur x d -> (rmatch x bol (between_pos inp p q) <-> smatch (d_rule d) bol (between_pos inp p q)).
  Proof.
    intros ((w & r & E & G & _ & V) & L & _). pose proof (said_anchor k x w r _ E G V L) as HA. assert (K := known_part _ inp p q KI). apply known_known in K.
    unfold rmatch, smatch. destruct bol; rewrite !L, ?HA; tauto.
  Qed.
  Lemma nth_does xs ds j x : Forall2 (does k names cur) xs ds -> nth_error xs j = Some x -> exists d, nth_error ds j = Some d /\ does k names cur x d.
  Proof. intros F. revert j. induction F as [|a b xs ds H F IH]; intros [|j] E; try discriminate; cbn in *; [injection E as <-; eauto|auto]. Qed.
  Lemma nth_done xs ds j d : Forall2 (does k names cur) xs ds -> nth_error ds j = Some d -> exists x, nth_error xs j = Some x /\ does k names cur x d.
  Proof. intros F. revert j. induction F as [|a b xs ds H F IH]; intros [|j] E; try discriminate; cbn in *; [injection E as <-; eauto|auto]. Qed.
  Lemma in_done xs ds d : Forall2 (does k names cur) xs ds -> In d ds -> exists x, In x xs /\ does k names cur x d.
  Proof. intros F H. apply In_nth_error in H as (j & E). destruct (nth_done _ _ _ _ F E) as (x & E' & W). eauto using nth_error_In. Qed.
  Lemma does_longest rs ds bol p x q : Forall2 (does k names cur) rs ds -> rlongest rs inp bol p x q ->
    exists d, mlongest ds inp bol p d q /\ does k names cur x d.
  Proof.
    intros F (R & (j & E & M & Lo) & U). destruct (nth_does _ _ _ _ F E) as (y & E' & W). exists y. split; [|exact W]. split; [exact R|]. split.
    - exists j. split; [exact E'|]. split; [now apply (does_match x y bol _ _ W)|]. intros j' z Hj Ez Mz. destruct (nth_done _ _ _ _ F Ez) as (x' & Ex & W').
      apply (Lo j' x' Hj Ex). now apply (does_match x' z bol _ _ W').
    - intros q' z Hq Hz Mz. destruct (in_done _ _ _ F Hz) as (x' & Ex & W'). apply (U q' x' Hq Ex). now apply (does_match x' z bol _ _ W').
  Qed.
  Lemma does_none rs ds bol p : Forall2 (does k names cur) rs ds -> rnone rs inp bol p -> mnone ds inp bol p.
  Proof. intros F U q' z Hq Hz Mz. destruct (in_done _ _ _ F Hz) as (x' & Ex & W'). apply (U q' x' Hq Ex). now apply (does_match x' z bol _ _ W'). Qed.
End Follow.

(** The results stand in a state with a name, and so do the states of the stack. *)
Definition placed (names : list (list N)) (inp : list N) (res : results) (n : list N) (st : stack) : Prop :=
  named names (r_state res) n /\ Forall2 (fun p e => named names (fst p) (fst e) /\ snd p = snd e) (r_stack res) st /\ (r_second res <= length inp)%nat.
Definition answers (names : list (list N)) (inp : list N) (res : results) (o : option err) (a : answer) : Prop :=
  match a with
  | Token id uid i j b n st => o = None /\ placed names inp res n st /\ r_id res = id /\ r_uid res = uid /\ r_first res = i /\ r_second res = j /\ r_bol res = b
  | Underflow i j b n => o = Some EUnderflow /\ placed names inp res n [] /\ r_first res = i /\ r_second res = j /\ r_bol res = b
  end.

Lemma stack_top names s i l st : Forall2 (fun (p : N * N) (e : list N * N) => named names (fst p) (fst e) /\ snd p = snd e) ((s, i) :: l) st ->
  exists b st', st = (b, i) :: st' /\ named names s b /\ Forall2 (fun (p : N * N) (e : list N * N) => named names (fst p) (fst e) /\ snd p = snd e) l st'.
Proof. intros F. inversion F as [|a [b c] ? l' [H1 H2] H3]; subst. cbn in H1, H2. subst c. eauto. Qed.
Lemma stack_top' names b i l st : Forall2 (fun (p : N * N) (e : list N * N) => named names (fst p) (fst e) /\ snd p = snd e) st ((b, i) :: l) -> exists s st', st = (s, i) :: st'.
Proof. intros F. inversion F as [|[s j] ? ? l' [H1 H2] H3]; subst. cbn in H2. subst j. eauto. Qed.

Lemma declare_succeeds k fl more mds ds d : 1 < rnpos k -> NoDup (initial :: more) -> Forall (fun n => validate n = true) more ->
  N.of_nat (length (initial :: more)) < 2 ^ r_bits k -> smacros_ok k fl mds -> Forall (decl_ok k fl mds (initial :: more)) (ds ++ [d]) ->
  snd (apply k (declare_op d) (make_lexer k fl more mds ds)) = Ok tt.
Proof.
  intros NP ND FV LN MO F. apply Forall_app in F as [F Fd]. inversion Fd as [|? ? D _]; subst.
  destruct (make_lexer_is k fl NP mds more ds ND FV LN MO F) as (P & Efl & MT & Em & _). destruct (unsplit_feats k NP _ P) as (A & _ & _).
  rewrite <- Em in D. refine (proj1 (declare_one k fl NP mds d _ P Efl MT _ D)). rewrite <- (map_length fst), Em. exact LN.
Qed.
Lemma macros_succeed k fl more mds m : 1 < rnpos k -> NoDup (initial :: more) -> Forall (fun n => validate n = true) more ->
  smacros_ok k fl (mds ++ [m]) -> snd (insert_macro k (m_name m) (m_text m) (put_macros k mds (make_states k fl more))) = Ok tt.
Proof.
  intros NP ND FV MO. destruct (make_states_is k fl more ND FV) as (P & Efl & Emc & _).
  destruct (put_macros_is k fl NP _ _ P Efl Emc MO) as (_ & _ & _ & _ & _ & _ & H). now apply H.
Qed.
Section Lexer.
  Variables (k : rcfg) (g : gcfg) (kc : cfg) (fl : N) (more : list (list N)) (mds : list smacro) (ds : list decl) (f : nat) (m : internals) (inp : list N).
  Hypothesis NPOS : 1 < rnpos k.
  Hypothesis Hbits : g_bits g = r_bits k.
  Hypothesis Hbytes : g_bytes g = r_bytes k.
  Hypothesis Hb : 0 < g_bytes g.
  Hypothesis AG : agree kc g.
  Let names := initial :: more.
  Hypothesis ND : NoDup names.
  Hypothesis FV : Forall (fun n => validate n = true) more.
  Hypothesis LN : N.of_nat (length names) < 2 ^ r_bits k.
  Hypothesis MO : smacros_ok k fl mds.
  Hypothesis Hd : Forall (decl_ok k fl mds names) ds.
  Let ru := make_lexer k fl more mds ds.
  Let R := grules_of ru.
  Hypothesis Sets : forall s, In s (gr_states R) -> N.of_nat (length (all_sets (g_bytes g) s)) < eol_tok g.
  Hypothesis Sli : forall i x t, In x (rules_at ru i) -> In t (gr_tokens x) -> sliceable (g_bytes g) t.
  Hypothesis HB : build f g R = Ok m.
  Hypothesis Zero : has fl rf_match_zero_len = false.
  Hypothesis Adv : f_adv kc = true.
  Hypothesis Multi : f_multi kc = true.
  Hypothesis HI : Forall (fits (c_bytes kc)) inp.
  Hypothesis HK : known_chars (g_bytes g) inp.

  Lemma lexer_object : proper_unsplit k ru /\ ru_flags ru = fl /\ map fst (ru_map ru) = names /\
    forall i n, named names i n -> Forall2 (does k names i) (rules_at ru (N.to_nat i)) (rules_in ds n).
  Proof. destruct (make_lexer_is k fl NPOS mds more ds ND FV LN MO Hd) as (P1 & P2 & _ & P3 & P4). auto. Qed.
  Lemma state_count : length (gr_states R) = length names.
  Proof. destruct lexer_object as (_ & _ & E & _). unfold R. cbn [grules_of gr_states]. rewrite map_length, seq_length, <- (map_length fst), E. reflexivity. Qed.
  Lemma some_name i : (i < length names)%nat -> exists n, named names (N.of_nat i) n.
  Proof. intros H. unfold named. rewrite Nat2N.id. destruct (nth_error names i) as [n|] eqn:E; [eauto|]. apply nth_error_None in E. lia. Qed.
  Lemma state_rules i x : In x (rules_at ru i) -> exists n d, named names (N.of_nat i) n /\ In d (rules_in ds n) /\ does k names (N.of_nat i) x d.
  Proof.
    intros H. destruct lexer_object as (P & _ & E & F). destruct (Nat.lt_ge_cases i (length names)) as [L|L].
    - destruct (some_name i L) as (n & Hn). exists n. specialize (F _ _ Hn). rewrite Nat2N.id in F. apply In_nth_error in H as (j & Ej).
      destruct (nth_does _ _ _ _ _ _ _ F Ej) as (d & Ed & D). exists d. split; [exact Hn|]. split; [eapply nth_error_In; eauto|exact D].
    - exfalso. destruct (unsplit_feats k NPOS ru P) as (A & _). destruct (al_states _ _ A) as (A1 & _).
      unfold rules_at in H. rewrite (nth_overflow (ru_regexes ru)) in H; [exact H|]. rewrite A1, <- (map_length fst), E. exact L.
  Qed.
  Lemma states_simple : simple g ru.
  Proof.
    destruct lexer_object as (P & _).
    assert (K : forall i x, In x (rules_at ru i) -> ends EOL (removelast (gr_tokens x)) = false /\ (starts BOL (tl (gr_tokens x)) = true -> bol_rule true x)).
    { intros i x Hi. destruct (state_rules i x Hi) as (n & d & _ & Hin & (w & q & E & G & _) & L & _).
      unfold rules_in in Hin. apply filter_In in Hin as [Hin _]. rewrite Forall_forall in Hd. destruct (Hd d Hin) as [_ _ _ _ _ B _ _].
      eapply says_simple; eauto. }
    split; [intros i x Hi; now apply (K i x Hi)|]. split; [intros i x Hi; now apply (K i x Hi)|]. split; [exact Sets|exact Sli].
  Qed.
  Theorem texts_to_states res fuel inner n st : covers kc m -> placed names inp res n st -> (length inp < fuel)%nat -> (length inp < inner)%nat ->
    exists res' o a, lookup fuel inner kc m inp res = Ok (res', o) /\ answers names inp res' o a /\
      mreads (npos kc) (skip_id kc) (f_bol kc) ds inp (r_second res) n st (r_bol res) (r_second res) a.
  Proof.
    intros CV PL Hf Hi. assert (KI : known_chars (r_bytes k) inp) by (rewrite <- Hbytes; exact HK). destruct lexer_object as (P & Efl & Em & F).
    assert (NB : forall i n', named names i n' -> i < N.of_nat (length (gr_states R))).
    { intros i n' H. rewrite state_count. assert (N.to_nat i < length names)%nat by (apply nth_error_Some; unfold named in H; congruence). lia. }
    assert (IR : in_range R inp res).
    { destruct PL as (R1 & R2 & R3). split; [eapply NB; eauto|]. split; [|exact R3]. clear - R2 NB. induction R2 as [|a b l l' [H _] F IH]; constructor; eauto. }
    assert (SE := made_setting k g _ NPOS Hbits Hbytes Hb P states_simple f kc m inp res AG HB CV HI IR).
    assert (GS : forall s, In s (gr_states R) -> exists i, gs_rules s = rules_at ru i).
    { intros s Hs. unfold R in Hs. cbn [grules_of gr_states] in Hs. apply in_map_iff in Hs as (i & <- & _). exists i. reflexivity. }
    assert (EA : Forall (fun gs => Forall BuildSpec.eager (gs_rules gs)) (gr_states R)).
    { apply Forall_forall. intros s Hs. destruct (GS s Hs) as (i & ->). apply Forall_forall. intros x Hx. destruct (state_rules i x Hx) as (n' & d & _ & _ & D). apply D. }
    assert (ZL : zero_len_ok (gr_flags R) = false) by (unfold R; cbn; rewrite Efl; exact Zero).
    destruct (lookup_total f kc g R m inp res SE fuel inner ZL Hf Hi) as (res' & o & EL).
    pose proof (lookup_rlex f kc g R m inp res SE fuel inner EA) as Q. rewrite EL in Q. destruct Q as [Q IR'].
    assert (RO : forall i rs, rules_of R i rs -> rs = rules_at ru (N.to_nat i) /\ exists s, In s (gr_states R) /\ gs_rules s = rs).
    { intros i rs (s & Es & <-). split; [|exists s; split; [eapply nth_error_In; eauto|reflexivity]]. unfold R in Es. cbn [grules_of gr_states] in Es. rewrite nth_error_map in Es.
      destruct (nth_error (seq 0 (length (ru_map ru))) (N.to_nat i)) as [j|] eqn:Ej; [|discriminate]. injection Es as <-.
      apply nth_error_nth with (d := O) in Ej as Ej'. rewrite seq_nth in Ej' by (rewrite <- (seq_length (length (ru_map ru)) 0); apply nth_error_Some; congruence). cbn in Ej'. subst j. reflexivity. }
    assert (NZ : forall i rs x, rules_of R i rs -> In x rs -> ~ rmatch x false []).
    { intros i rs x Hrs Hx. destruct (RO _ _ Hrs) as (_ & s & Hs & E). apply (zero_len_complete f g R m (se_wide _ _ _ _ _ _ _ SE) (se_rules _ _ _ _ _ _ _ SE) ZL HB s x Hs). now rewrite E. }
    assert (HH : forall r x q n', rhits kc R inp r x q -> named names (r_state r) n' ->
      exists d, mlongest (rules_in ds n') inp (f_bol kc && r_bol r) (r_second r) d q /\ does k names (r_state r) x d /\ In x (rules_at ru (N.to_nat (r_state r)))).
    { intros r x q n' (rs & Hrs & [H|(_ & _ & H)]) Hn.
      - destruct (RO _ _ Hrs) as (E & _). subst rs. destruct (does_longest k names _ inp KI _ _ _ _ _ _ (F _ _ Hn) H) as (d & D1 & D2). exists d. split; [exact D1|]. split; [exact D2|].
        destruct H as (_ & (j & Ej & _) & _). eapply nth_error_In; eauto.
      - destruct H as (j & Ej & M & _). exfalso. apply (NZ _ _ x Hrs); [eapply nth_error_In; eauto|exact M]. }
    assert (NP : npos kc = rnpos k) by (destruct AG as (-> & _); unfold gnpos, rnpos; now rewrite Hbits).
    assert (NN : forall i n', named names i n' -> i <> rnpos k).
    { intros i n' H. apply NB in H. rewrite state_count in H. unfold rnpos, npos_of. lia. }
    destruct (made_features k g ru NPOS P f m HB) as (AN & _).
    assert (RC : forall i x, In x (rules_at ru i) -> gr_pop x = true \/ gr_push x <> rnpos k -> f_rec kc = true).
    { intros i x Hx H. destruct (AN i x Hx) as (_ & _ & _ & _ & A5). apply CV. now apply A5. }
    assert (ET : forall r x r' n' st', reats kc inp (rhits kc R inp) r x r' -> placed names inp r n' st' ->
      exists d n'' st'', mlongest (rules_in ds n') inp (f_bol kc && r_bol r) (r_second r) d (r_second r') /\ moves d n' st' n'' st'' /\ placed names inp r' n'' st'' /\
        r_bol r' = line (f_bol kc) inp (r_bol r) (r_second r') /\ gr_id x = s_id (d_rule d) /\ gr_uid x = s_uid (d_rule d) /\ (rjoins kc R x (r_stack r') <-> goes_on d st'')).
    { intros r x r' n' st' (q & H & ST & Eq & Eb) (Q1 & Q2 & Q3). destruct (HH _ _ _ _ H Q1) as (d & D1 & D2 & D3). subst q. exists d.
      destruct D1 as (D0 & D1). assert (LT : Nat.ltb (r_second r) (r_second r') = true) by (apply Nat.ltb_lt; lia). rewrite LT in ST.
      assert (EB : r_bol r' = line (f_bol kc) inp (r_bol r) (r_second r')).
      { rewrite Eb. unfold line, bol_at. destruct (f_bol kc); [|reflexivity]. replace (Nat.eqb (r_second r) (r_second r')) with false; [reflexivity|]. symmetry. apply Nat.eqb_neq. lia. }
      assert (RJ : (gr_pop x = true <-> d_leave d = Pop) -> forall st'', Forall2 (fun p e => named names (fst p) (fst e) /\ snd p = snd e) (r_stack r') st'' -> (rjoins kc R x (r_stack r') <-> goes_on d st'')).
      { intros PP st'' FS. unfold rjoins, goes_on. destruct D2 as (_ & _ & _ & -> & _). change (gr_eoi R) with 0. split.
        - intros [E|(_ & E & s & rest & ES)]; [now left|right]. split; [now apply PP|]. rewrite ES in FS. apply stack_top in FS as (b & st0 & -> & _). eauto.
        - intros [E|(E & s & rest & ES)]; [now left|right]. apply PP in E. split; [now apply (RC _ x D3); left|]. split; [exact E|]. rewrite ES in FS. exact (stack_top' _ _ _ _ _ FS). }
      assert (LD : leads k names (r_state r) x (d_leave d)) by apply D2. assert (IDS : gr_id x = s_id (d_rule d) /\ gr_uid x = s_uid (d_rule d)) by (split; apply D2). destruct IDS as (ID1 & ID2).
      assert (STP : exists n'' st'', moves d n' st' n'' st'' /\ named names (r_state r') n'' /\ Forall2 (fun p e => named names (fst p) (fst e) /\ snd p = snd e) (r_stack r') st'' /\ (gr_pop x = true <-> d_leave d = Pop)).
      { unfold rstack in ST. rewrite Multi in ST. rewrite NP in ST. destruct (d_leave d) as [|n1|n1|n1 m1|] eqn:EL2; cbn [leads] in LD.
        - destruct LD as (L1 & L2 & L3). rewrite L1, L2, L3, N.eqb_refl in ST. exists n', st'. split; [now apply mv_stay|]. destruct (f_rec kc); destruct ST as [-> ->]; (split; [exact Q1|split; [exact Q2|split; congruence]]).
        - destruct LD as (L1 & L2 & L3). rewrite L2, L3, N.eqb_refl in ST. exists n1, st'. split; [now apply mv_go|]. destruct (f_rec kc); destruct ST as [-> ->]; (split; [exact L1|split; [exact Q2|split; congruence]]).
        - destruct LD as (L1 & L2 & L3). pose proof (NN _ _ Q1) as N0. rewrite <- L2 in N0. rewrite (RC _ x D3 (or_intror N0)), L3, (proj2 (N.eqb_neq _ _) N0) in ST. destruct ST as [-> ->].
          exists n1, ((n', s_id (d_rule d)) :: st'). split; [now apply mv_push|]. split; [exact L1|]. split; [|split; congruence]. constructor; [|exact Q2]. cbn. rewrite L2. auto.
        - destruct LD as (L1 & L2 & L3). pose proof (NN _ _ L2) as N0. rewrite (RC _ x D3 (or_intror N0)), L3, (proj2 (N.eqb_neq _ _) N0) in ST. destruct ST as [-> ->].
          exists n1, ((m1, s_id (d_rule d)) :: st'). split; [now apply mv_push_to|]. split; [exact L1|]. split; [|split; congruence]. constructor; [|exact Q2]. cbn. auto.
        - rewrite (RC _ x D3 (or_introl LD)), LD in ST. destruct ST as (s & i & ES & ->). rewrite ES in Q2. apply stack_top in Q2 as (b & l' & -> & H1 & H3).
          exists b, l'. split; [now apply mv_pop|]. split; [exact H1|]. split; [exact H3|]. split; auto. }
      destruct STP as (n'' & st'' & S1 & S2 & S3 & S4). exists n'', st''. split; [split; [exact D0|exact D1]|]. split; [exact S1|]. split; [split; [exact S2|split; [exact S3|lia]]|].
      split; [exact EB|]. split; [exact ID1|]. split; [exact ID2|]. now apply RJ. }
    exists res', o. assert (G : forall first r r' o', rlooks kc R inp (rhits kc R inp) (rmisses kc R inp) first r r' o' -> forall n' st', placed names inp r n' st' ->
      exists a, answers names inp r' o' a /\ mreads (npos kc) (skip_id kc) (f_bol kc) ds inp first n' st' (r_bol r) (r_second r) a).
    { induction 1 as [first r r' H1 H2|first r x r' H1 H2 H3 H4 H5 H6 H7|first r x r1 r' o' H1 H2 H3 H4 IH|first r x r1 r' o' H1 H2 H3 H4 H5 IH|first r c r' H1 H2 H3|first r x q r' H1 H2 H3 H4 H5 H6 H7 H8 H9 H10]; intros n' st' PR.
      - subst r'. eexists. split; [|now apply mr_end]. cbn. repeat split; apply PR.
      - destruct (ET _ _ _ _ _ H2 PR) as (d & n2 & st2 & Y1 & Y2 & Y3 & Y4 & Y5 & Y6 & Y7). eexists. split; [|eapply mr_token; [exact Y1|exact Y2|congruence|rewrite <- Y7; exact H4]].
        cbn. split; [reflexivity|]. split; [exact Y3|]. rewrite H5, H6, H7, Y4, Y5, Y6. auto.
      - destruct (ET _ _ _ _ _ H2 PR) as (d & n2 & st2 & Y1 & Y2 & Y3 & Y4 & Y5 & Y6 & Y7). destruct (IH n2 st2 Y3) as (a & A1 & A2). exists a. split; [exact A1|].
        rewrite Y4 in A2. eapply mr_skip; [exact Y1|exact Y2|congruence|exact A2].
      - destruct (ET _ _ _ _ _ H2 PR) as (d & n2 & st2 & Y1 & Y2 & Y3 & Y4 & Y5 & Y6 & Y7). destruct (IH n2 st2 Y3) as (a & A1 & A2). exists a. split; [exact A1|].
        rewrite Y4 in A2. eapply mr_on; [exact Y1|exact Y2|congruence|apply Y7; exact H4|exact A2].
      - subst r'. destruct PR as (Q1 & Q2 & Q3). assert (LT : (r_second r < length inp)%nat) by (apply nth_error_Some; congruence).
        destruct H2 as (rs & Hrs & N0 & _). destruct (RO _ _ Hrs) as (E & _). subst rs. eexists. split; [|eapply mr_none; [exact H1|exact (does_none k names _ inp KI _ _ _ _ (F _ _ Q1) N0)]].
        cbn. rewrite Adv. repeat split; auto.
      - exists (Underflow first (r_second r) (r_bol r) n'). destruct PR as (Q1 & Q2 & Q3). split.
        { cbn. split; [reflexivity|]. split; [split; [rewrite H9; exact Q1|split; [rewrite H10, H5; constructor|lia]]|auto]. }
        destruct (HH _ _ _ _ H2 Q1) as (d & D1 & D2 & D3). rewrite H5 in Q2. assert (E0 : st' = []) by (inversion Q2; reflexivity). rewrite E0.
        eapply mr_underflow; [exact D1|]. destruct D2 as (_ & _ & _ & _ & _ & LD). destruct (d_leave d); cbn in LD; try reflexivity; exfalso; destruct LD as (_ & _ & E); congruence. }
    destruct (G _ _ _ _ Q n st PL) as (a & A1 & A2). exists a. auto.
  Qed.
End Lexer.
