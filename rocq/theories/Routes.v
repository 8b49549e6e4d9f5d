(** From the texts of the rules to all the tokens of an input, by every route. *)
From Verif Require Import Base StringToken StateMachine ReToken DfaSpec Grammar Tree Parser
  Generator Build Lookup TableSpec LookupSpec RuleSpec BuildSpec BuildLookup BuildErrs BuildThms BuildClean Minimise TableSim MinimiseProofs Iterator GenCpp GenCppSpec GenBuilt GenMade FlagsSpec
  BuildCheck   ReTokeniser ReTokeniserNext Rules TokeniseSpec RulesSpec RulesBuild
  SourceSpec SourceLexer SourceTop CommentSpec CommentTop TokenList.
Local Open Scope N_scope.

(** The tokens [l] come out: from iterators and from replace(), for the machine and
    for the minimised one, and from generated code if the flags fit it. *)
Definition iterates (kc : cfg) (m : internals) (inp : list N) (l : list shows) : Prop :=
  forall n fuel inner, (length inp < n)%nat -> (length inp < fuel)%nat -> (length inp < inner)%nat ->
    exists rs, visit_all n fuel inner kc m inp 0 true 0 = Ok (rs, None) /\ map seen rs = l.
Definition replaces (kc : cfg) (m : internals) (inp : list N) (l : list shows) : Prop :=
  forall n fuel inner f out, (length inp < n)%nat -> (length inp < fuel)%nat -> (length inp < inner)%nat ->
    replace n fuel inner kc m inp f insert out = Ok (out ++ rewritten inp f 0 l).
Definition generates (kc : cfg) (m : internals) (inp : list N) (l : list shows) : Prop :=
  forall n fuel inner, (length inp < n)%nat -> (2 * S (length inp) <= fuel)%nat -> (length inp < inner)%nat ->
    exists rs, gen_all n fuel inner (c_bits kc) (c_bytes kc) false m inp (new_results kc 0 true 0) = Ok rs /\ map seen rs = l.
Definition every_route (kc : cfg) (m : internals) (inp : list N) (l : list shows) : Prop :=
  iterates kc m inp l /\ replaces kc m inp l /\
  (exists m', minimise (c_bits kc) m = Ok m' /\ iterates kc m' inp l /\ replaces kc m' inp l) /\
  (GenBuilt.covers kc m -> f_eol kc = false -> generates kc m inp l).

Section Routes.
  Variables (k : rcfg) (g : gcfg) (r : rules) (f : nat) (kc : cfg) (m : internals) (inp : list N).
  Hypothesis NPOS : 1 < rnpos k.
  Hypothesis P : proper_unsplit k r.
  Hypothesis Hbits : g_bits g = r_bits k.
  Hypothesis Hbytes : g_bytes g = r_bytes k.
  Hypothesis Hb : 0 < g_bytes g.
  Hypothesis SI : simple g r.
  Hypothesis One : ru_map r <> [].
  Hypothesis AG : agree kc g.
  Hypothesis HB : build f g (grules_of r) = Ok m.
  Hypothesis CV : RulesBuild.covers kc m.
  Hypothesis HI : Forall (fits (c_bytes kc)) inp.
  Variable rd : bool -> nat -> N -> N -> nat -> nat -> bool -> Prop.
  Hypothesis DET : determined rd.
  Hypothesis PROG : forall bol p id uid i j b, (p <= length inp)%nat -> rd bol p id uid i j b ->
    (id = 0 /\ i = length inp) \/ (id <> 0 /\ (p <= i < j)%nat /\ (j <= length inp)%nat).
  Hypothesis STEP : forall fuel inner res, (length inp < fuel)%nat -> (length inp < inner)%nat -> ready inp res ->
    exists res', lookup fuel inner kc m inp res = Ok (res', None) /\ ready inp res' /\
      rd (r_bol res) (r_second res) (r_id res') (r_uid res') (r_first res') (r_second res') (r_bol res').

  Lemma route_range res : ready inp res -> in_range (grules_of r) inp res.
  Proof.
    intros (R1 & R2 & R3). split; [|split; [rewrite R2; constructor|exact R3]]. cbn [grules_of gr_states]. rewrite map_length, seq_length, R1.
    destruct (ru_map r); [congruence|]. cbn [length]. lia.
  Qed.
  Lemma route_tokens : exists l, tokens rd true 0 l.
  Proof.
    destruct (visit_all_list kc m inp (S (length inp)) (S (length inp)) rd (fun res => STEP _ _ res (Nat.lt_succ_diag_r _) (Nat.lt_succ_diag_r _)) PROG 0%nat true (S (length inp)) ltac:(lia) ltac:(lia)) as (rs & _ & T). eauto.
  Qed.
  Lemma same_iterates m' l : tokens rd true 0 l -> (forall fuel inner res, lookup fuel inner kc m' inp res = lookup fuel inner kc m inp res) -> iterates kc m' inp l /\ replaces kc m' inp l.
  Proof.
    intros T EQ. split.
    - intros n fuel inner L1 L2 L3. destruct (visit_all_list kc m' inp fuel inner rd) with (start := 0%nat) (bol := true) (n := n) as (rs & V & T'); auto with arith.
      + intros res RY. rewrite EQ. now apply STEP.
      + exists rs. split; [exact V|]. now apply (tokens_det rd DET _ _ _ T').
    - intros n fuel inner fm out L1 L2 L3. destruct (replace_all kc m' inp fuel inner rd) with (f := fm) (n := n) (out := out) as (l' & V & T'); auto.
      + intros res RY. rewrite EQ. now apply STEP.
      + now rewrite <- (tokens_det rd DET _ _ _ T' _ T).
  Qed.
  Theorem all_routes : exists l, tokens rd true 0 l /\ every_route kc m inp l.
  Proof.
    destruct route_tokens as (l & T). exists l. split; [exact T|]. destruct (same_iterates m l T (fun _ _ _ => eq_refl)) as (I1 & I2). split; [exact I1|]. split; [exact I2|]. split.
    - assert (SE := made_setting k g r NPOS Hbits Hbytes Hb P SI f kc m inp _ AG HB CV HI (route_range _ (ready_new kc inp 0 true ltac:(lia)))).
      assert (MC : mclean kc m) by (pose proof (se_machine _ _ _ _ _ _ _ SE) as MO; destruct SE; eapply built_mclean; eauto).
      destruct (minimise_correct kc m (se_mwf _ _ _ _ _ _ _ SE) MC) as (m' & E & L & _). exists m'. split; [exact E|]. apply (same_iterates m' l T). intros. apply L. exact (se_chars _ _ _ _ _ _ _ SE).
    - intros GC NE n fuel inner L1 L2 L3.
      destruct (gen_all_list kc m inp (S (length inp)) inner rd (fun res => STEP _ _ res (Nat.lt_succ_diag_r _) L3) PROG false fuel (fun a b => FlagsSpec.alike kc (machine_flags kc m) a b)) with (n := n) (r := new_results kc 0 true 0) (r0 := new_results kc 0 true 0)
        as (rs & V & T').
      + intros a b (A1 & A2 & A3 & A4 & _). unfold seen. congruence.
      + intros a b a' RY AL EL.
        pose proof (generated_made k g r NPOS P Hbits Hbytes Hb SI f kc m inp a AG HB GC HI (route_range a RY) false inner (S (length inp)) b a' None) as GM.
        destruct GM with (n := fuel) as (r0' & G & A & _); eauto; try discriminate.
        * left. destruct (GenCpp.has (i_features m) fb_eol) eqn:F; [|reflexivity]. apply (cv_eol _ _ GC) in F. congruence.
        * intros _. destruct RY as (_ & -> & _). constructor.
      + apply ready_new. lia.
      + unfold FlagsSpec.alike. repeat split; auto.
      + cbn [new_results r_second]. lia.
      + exists rs. split; [exact V|]. now apply (tokens_det rd DET _ _ _ T').
  Qed.
End Routes.

(** Each call that returns a token moves on. *)
Lemma sreads_prog none skip see xs inp bol p id uid i j b : none <> 0 -> Forall (fun x => s_id x <> 0) xs -> (p <= length inp)%nat -> sreads none skip see xs inp bol p id uid i j b ->
  (id = 0 /\ i = length inp) \/ (id <> 0 /\ (p <= i < j)%nat /\ (j <= length inp)%nat).
Proof.
  intros NN F Lp H. revert Lp. induction H as [bol p E|bol p x q LO NS|bol p x q id uid i j b LO NS _ IH|bol p c E NO]; intros Lp.
  - left. auto.
  - right. destruct LO as (L1 & (n & E & _) & _). rewrite Forall_forall in F. split; [apply F; eapply nth_error_In; eauto|lia].
  - destruct LO as (L1 & _). destruct IH as [IH|IH]; [lia|now left|right]. destruct IH as (I1 & I2 & I3). split; [exact I1|lia].
  - right. assert (p < length inp)%nat by (apply nth_error_Some; congruence). split; [exact NN|lia].
Qed.
Lemma ireads_prog b fl none skip see ys inp bol p id uid i j l : none <> 0 -> Forall (fun y => i_id y <> 0) ys -> (p <= length inp)%nat -> ireads b fl none skip see ys inp bol p id uid i j l ->
  (id = 0 /\ i = length inp) \/ (id <> 0 /\ (p <= i < j)%nat /\ (j <= length inp)%nat).
Proof.
  intros NN F Lp H. revert Lp. induction H as [bol p E|bol p x q LO NS|bol p x q id uid i j l LO NS _ IH|bol p c E NO]; intros Lp.
  - left. auto.
  - right. destruct LO as (L1 & (n & E & _) & _). rewrite Forall_forall in F. split; [apply F; eapply nth_error_In; eauto|lia].
  - destruct LO as (L1 & _). destruct IH as [IH|IH]; [lia|now left|right]. destruct IH as (I1 & I2 & I3). split; [exact I1|lia].
  - right. assert (p < length inp)%nat by (apply nth_error_Some; congruence). split; [exact NN|lia].
Qed.
(** The texts between the tokens and those of the tokens make the input. *)
Fixpoint ordered (len p : nat) (l : list shows) : Prop :=
  match l with [] => (p <= len)%nat | (_, _, i, j) :: l' => (p <= i < j)%nat /\ ordered len j l' end.
Lemma tokens_ordered (rd : bool -> nat -> N -> N -> nat -> nat -> bool -> Prop) len :
  (forall bol p id uid i j b, (p <= len)%nat -> rd bol p id uid i j b -> (id = 0 /\ i = len) \/ (id <> 0 /\ (p <= i < j)%nat /\ (j <= len)%nat)) ->
  forall bol p l, tokens rd bol p l -> (p <= len)%nat -> ordered len p l.
Proof.
  intros PROG. induction 1 as [bol p uid i j b R|bol p id uid i j b l R N T IH]; intros L; cbn [ordered]; [exact L|].
  destruct (PROG _ _ _ _ _ _ _ L R) as [(E & _)|(_ & B1 & B2)]; [congruence|]. split; [exact B1|now apply IH].
Qed.
Lemma skip_twice (n m : nat) (l : list N) : skipn n (skipn m l) = skipn (m + n) l.
Proof. revert l. induction m as [|m IH]; intros [|x l]; try reflexivity; [now rewrite !skipn_nil|]. apply IH. Qed.
Lemma between_rest (l : list N) a b : (a <= b)%nat -> between_pos l a b ++ skipn b l = skipn a l.
Proof.
  intros H. unfold between_pos. replace (skipn b l) with (skipn (b - a) (skipn a l)); [apply firstn_skipn|]. rewrite skip_twice. f_equal. lia.
Qed.
Theorem rewritten_same inp l : forall p, ordered (length inp) p l -> rewritten inp (fun _ => None) p l = skipn p inp.
Proof.
  induction l as [|[[[id uid] i] j] l IH]; intros p; cbn [rewritten ordered]; [reflexivity|]. intros (H1 & H2). rewrite (IH j H2), between_rest by lia. apply between_rest. lia.
Qed.

Section Texts.
  Variables (k : rcfg) (g : gcfg) (kc : cfg) (fl : N) (mds : list smacro) (f : nat) (m : internals) (inp : list N).
  Hypothesis NPOS : 1 < rnpos k.
  Hypothesis Hbits : g_bits g = r_bits k.
  Hypothesis AG : agree kc g.
  Hypothesis MO : smacros_ok k fl mds.
  Hypothesis Zero : has fl rf_match_zero_len = false.
  Hypothesis Adv : f_adv kc = true.
  Hypothesis HI : Forall (fits (c_bytes kc)) inp.
  Hypothesis CV : RulesBuild.covers kc m.
  Lemma npos_pos : npos kc <> 0.
  Proof. destruct AG as (-> & _). unfold gnpos. rewrite Hbits. change (rnpos k <> 0). lia. Qed.
  Theorem texts_all_tokens xs : g_bytes g = r_bytes k -> 0 < g_bytes g -> Forall (srule_ok k fl mds) xs ->
    (forall s, In s (gr_states (grules_of (push_all k fl mds xs))) -> N.of_nat (length (all_sets (g_bytes g) s)) < eol_tok g) ->
    (forall x t, In x (rules_at (push_all k fl mds xs) 0) -> In t (gr_tokens x) -> sliceable (g_bytes g) t) ->
    build f g (grules_of (push_all k fl mds xs)) = Ok m -> known_chars (g_bytes g) inp ->
    exists l, tokens (sreads (npos kc) (skip_id kc) (f_bol kc) xs inp) true 0 l /\ every_route kc m inp l /\ ordered (length inp) 0 l.
  Proof.
    intros Hbytes Hb Hx Sets Sli HB HK. destruct (push_all_is k fl NPOS mds xs MO Hx) as (P & _ & Em & _).
    assert (PR : forall bol p id uid i j b, (p <= length inp)%nat -> sreads (npos kc) (skip_id kc) (f_bol kc) xs inp bol p id uid i j b ->
      (id = 0 /\ i = length inp) \/ (id <> 0 /\ (p <= i < j)%nat /\ (j <= length inp)%nat)).
    { intros bol p id uid i j b Lp H. refine (sreads_prog _ _ _ _ _ _ _ _ _ _ _ _ npos_pos _ Lp H). eapply Forall_impl; [|exact Hx]. intros x [_ _ _ (I & _) _]. exact I. }
    destruct (all_routes k g (push_all k fl mds xs) f kc m inp NPOS P Hbits Hbytes Hb) with (rd := sreads (npos kc) (skip_id kc) (f_bol kc) xs inp) as (l & T & EV); auto.
    - eapply lexer_simple; eauto.
    - intros E. rewrite E in Em. discriminate.
    - intros bol p id uid i j b id' uid' i' j' b' H1 H2. exact (sreads_det _ _ _ _ _ _ _ _ _ _ _ _ H1 _ _ _ _ _ H2).
    - intros fuel inner res L1 L2 RY. exact (texts_to_tokens k g kc fl mds xs f m inp NPOS Hbits Hbytes Hb AG MO Hx Sets Sli HB Zero Adv HI HK res fuel inner CV RY L1 L2).
    - exists l. split; [exact T|]. split; [exact EV|]. eapply tokens_ordered; eauto with arith.
  Qed.
  Theorem items_all_tokens ys : r_bytes k = 1 -> g_bytes g = 1 -> Forall (item_ok k fl mds) ys -> apart 1 fl ys -> N.of_nat (2 * items_sets ys) < eol_tok g ->
    build f g (grules_of (push_items k fl mds ys)) = Ok m ->
    exists l, tokens (ireads 1 fl (npos kc) (skip_id kc) (f_bol kc) ys inp) true 0 l /\ every_route kc m inp l /\ ordered (length inp) 0 l.
  Proof.
    intros Hbytes Hb Hy AP Few HB. destruct (push_items_is k fl NPOS mds ys MO Hy) as (P & _ & Em & _).
    assert (PR : forall bol p id uid i j b, (p <= length inp)%nat -> ireads 1 fl (npos kc) (skip_id kc) (f_bol kc) ys inp bol p id uid i j b ->
      (id = 0 /\ i = length inp) \/ (id <> 0 /\ (p <= i < j)%nat /\ (j <= length inp)%nat)).
    { intros bol p id uid i j b Lp H. refine (ireads_prog _ _ _ _ _ _ _ _ _ _ _ _ _ _ npos_pos _ Lp H). eapply Forall_impl; [|exact Hy]. intros [x|c]; [intros [_ _ _ (I & _) _]; exact I|intros C; apply C]. }
    destruct (all_routes k g (push_items k fl mds ys) f kc m inp NPOS P Hbits) with (rd := ireads 1 fl (npos kc) (skip_id kc) (f_bol kc) ys inp) as (l & T & EV); auto; try congruence.
    - rewrite Hb. lia.
    - eapply items_simple; eauto.
    - intros E. rewrite E in Em. discriminate.
    - intros bol p id uid i j b id' uid' i' j' b' H1 H2. exact (ireads_det _ _ _ _ _ _ _ _ _ _ _ _ _ _ H1 _ _ _ _ _ H2).
    - intros fuel inner res L1 L2 RY. exact (items_to_tokens k g kc fl mds ys f m inp NPOS Hbits Hbytes Hb AG MO Hy AP Few HB Zero Adv HI res fuel inner CV RY L1 L2).
    - exists l. split; [exact T|]. split; [exact EV|]. eapply tokens_ordered; eauto with arith.
  Qed.
End Texts.
