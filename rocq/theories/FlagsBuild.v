(** Flags that the rules of a built machine do not need. *)
From Verif Require Import Base StateMachine Lookup TableSpec LookupSpec LookupProofs Build Generator ReToken RuleSpec DfaSpec BuildSpec BuildMachine BuildLookup
  EolSpec EolTable EolBuild EolLookup FlagsSpec FlagsProofs.
From Coq Require Import Bool.
Local Open Scope N_scope.

Lemma mwf_idle k k' m : idle_flags k k' m -> mwf k m -> mwf k' m.
Proof.
  intros IF MW st L. assert (NP : npos k' = npos k) by (unfold npos; now rewrite (id_bits _ _ _ IF)).
  destruct (MW st L) as (t & n & G & T & RO). exists t, n. split; [exact G|]. split.
  { unfold twf in *. now rewrite NP. }
  intros row Hr Ha. destruct (RO row Hr Ha) as ((v & V & B) & P). rewrite NP. split; [|exact P].
  exists v. split; [exact V|]. destruct B as [B|(R0 & F & e & E & NZ)]; [auto|]. right. split; [auto|].
  destruct (id_rec _ _ _ IF) as [Q|Q]; [rewrite <- Q; eauto|]. exfalso.
  destruct (Q st t row G R0 Ha) as ((e' & E' & Z) & _). congruence.
Qed.

Section Built.
  Variables (f : nat) (k : cfg) (g : gcfg) (R : grules) (m : internals) (inp : list N) (r : results).
  Hypothesis SE : fair_setting f k g R m inp r.

  Lemma fair_no_rec : each_rule R (fun x => gr_pop x = false /\ gr_push x = gnpos g) -> stack_free k m.
  Proof.
    intros H st t row G R0 Ha. destruct (line_state k g R m (proj1 (fs_agree _ _ _ _ _ _ _ SE)) (fs_machine _ _ _ _ _ _ _ SE) st t G) as (gs & n & Hg & LT).
    destruct (line_row k g (proj1 (fs_agree _ _ _ _ _ _ _ SE)) _ _ _ _ LT R0 Ha) as (x & Hx & e & E & NZ & EP & _ & _ & P & _).
    destruct (H gs x Hg Hx) as (H1 & H2). split.
    - exists e. split; [exact E|]. destruct (N.eq_dec (N.land e sb_pop) 0) as [Z|Z]; [exact Z|]. apply EP in Z. congruence.
    - rewrite P, H2. f_equal. symmetry. apply (fs_agree _ _ _ _ _ _ _ SE).
  Qed.
  Lemma fair_no_eol : each_rule R (eol_bounded 0) -> eol_free m.
  Proof.
    intros H st t row v G E. destruct (line_state k g R m (proj1 (fs_agree _ _ _ _ _ _ _ SE)) (fs_machine _ _ _ _ _ _ _ SE) st t G) as (gs & n & Hg & LT).
    destruct (N.eq_dec v 0) as [Z|Z]; [exact Z|]. exfalso.
    assert (Hr : row < n) by (eapply table_lt; [exact LT| |exact E]; pose proof (lt_width _ _ _ _ LT); unfold ix_trans, ix_eol in *; lia).
    assert (FB : Forall (eol_bounded 0) (gs_rules gs)) by (apply Forall_forall; intros x Hx; eapply H; eauto).
    pose proof (lt_run _ _ _ _ LT 0 FB 1 row v Hr (runS t 0 row v v E Z (run0 t v))). lia.
  Qed.
  Lemma fair_no_multi : length (gr_states R) = 1%nat -> one_state m.
  Proof. intros H. destruct (fs_machine _ _ _ _ _ _ _ SE) as (_ & L & _). unfold one_state. congruence. Qed.
  Lemma fair_ids id : each_rule R (fun x => gr_id x <> id) -> no_row_id m id.
  Proof.
    intros H st t row G R0 Ha E. destruct (line_state k g R m (proj1 (fs_agree _ _ _ _ _ _ _ SE)) (fs_machine _ _ _ _ _ _ _ SE) st t G) as (gs & n & Hg & LT).
    destruct (line_row k g (proj1 (fs_agree _ _ _ _ _ _ _ SE)) _ _ _ _ LT R0 Ha) as (x & Hx & e & _ & _ & _ & I & _). apply (H gs x Hg Hx). congruence.
  Qed.
  Lemma fair_dead st t row v : get_table m st = Some t -> cell t row ix_dead = Some v -> v = 0.
  Proof.
    intros G E. destruct (line_state k g R m (proj1 (fs_agree _ _ _ _ _ _ _ SE)) (fs_machine _ _ _ _ _ _ _ SE) st t G) as (gs & n & Hg & LT).
    assert (Hr : row < n) by (eapply table_lt; [exact LT| |exact E]; pose proof (lt_width _ _ _ _ LT); unfold ix_trans, ix_dead in *; lia).
    rewrite (lt_dead _ _ _ _ LT row Hr) in E. congruence.
  Qed.

  Theorem fair_idle k' : c_bytes k = c_bytes k' -> c_bits k = c_bits k' -> f_adv k = f_adv k' ->
    (f_bol k = f_bol k' \/ bol_free m) -> (f_eol k = f_eol k' \/ each_rule R (eol_bounded 0)) ->
    (f_rec k = f_rec k' \/ each_rule R (fun x => gr_pop x = false /\ gr_push x = gnpos g)) ->
    (f_multi k = f_multi k' \/ length (gr_states R) = 1%nat) -> idle_flags k k' m.
  Proof.
    intros H1 H2 H3 H4 H5 H6 H7. constructor; auto.
    - destruct H5; [auto|right; now apply fair_no_eol].
    - destruct H6; [auto|right; now apply fair_no_rec].
    - destruct H7; [auto|right; now apply fair_no_multi].
  Qed.
End Built.

(** Rules without $. *)
Lemma plain_no_bol f k g R m inp r : setting f k g R m inp r -> (forall gs, In gs (gr_states R) -> has_bol (gs_features gs) = false) -> bol_free m.
Proof.
  intros SE H st t G. destruct (table_state g R m (se_rules _ _ _ _ _ _ _ SE) (se_machine _ _ _ _ _ _ _ SE) st t G) as (gs & _ & Hg & _ & (s & ds & n & RC & _ & _ & _ & HB)).
  destruct (rc_cell0 _ _ _ _ _ _ RC) as (v & V & _). destruct (N.eq_dec v 0) as [->|Z]; [exact V|].
  specialize (HB v V Z). rewrite (H gs Hg) in HB. discriminate.
Qed.
Lemma plain_eol_free f k g R m inp r : setting f k g R m inp r -> eol_free m.
Proof.
  intros SE st t row v G E. destruct (table_state g R m (se_rules _ _ _ _ _ _ _ SE) (se_machine _ _ _ _ _ _ _ SE) st t G) as (gs & _ & Hg & _ & (s & ds & n & RC & _)).
  destruct (N.lt_ge_cases row n) as [Hr|Hr].
  - rewrite (rc_eol _ _ _ _ _ _ RC) in E by auto. now injection E.
  - unfold cell in E. assert (X : nth_error (t_dfa t) (N.to_nat (row * t_width t + ix_eol)) = None).
    { apply nth_error_None. pose proof (rc_len _ _ _ _ _ _ RC). nia. }
    congruence.
Qed.
Lemma setting_fair f k g R m inp r : setting f k g R m inp r -> fair_setting f k g R m inp r.
Proof.
  intros [H1 H2 H3 H4 H5 H6 H7 H8]. constructor; auto. unfold rules_wf, rules_fair in *. eapply Forall_impl; [|exact H3].
  intros gs (F & A). split; [|exact A]. eapply Forall_impl; [|exact F]. intros x [(ts & T & TO & B & _) _]. exists ts. auto.
Qed.
Theorem setting_idle f k g R m inp r k' : setting f k g R m inp r -> c_bytes k = c_bytes k' -> c_bits k = c_bits k' -> f_adv k = f_adv k' ->
  (f_bol k = f_bol k' \/ forall gs, In gs (gr_states R) -> has_bol (gs_features gs) = false) ->
  (f_rec k = f_rec k' \/ each_rule R (fun x => gr_pop x = false /\ gr_push x = gnpos g)) ->
  (f_multi k = f_multi k' \/ length (gr_states R) = 1%nat) -> idle_flags k k' m.
Proof.
  intros SE H1 H2 H3 H4 H5 H6. pose proof (setting_fair _ _ _ _ _ _ _ SE) as FS. constructor; auto.
  - destruct H4; [auto|right; eapply plain_no_bol; eauto].
  - right. eapply plain_eol_free; eauto.
  - destruct H5; [auto|right; eapply fair_no_rec; eauto].
  - destruct H6; [auto|right; eapply fair_no_multi; eauto].
Qed.
