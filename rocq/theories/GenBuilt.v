(** Generated code for machines built from rules, whatever flags lookup() has. *)
From Verif Require Import Base StateMachine Lookup TableSpec LookupSpec Build Generator ReToken RuleSpec DfaSpec BuildSpec BuildMachine BuildLookup
  EolSpec EolTable EolBuild EolLookup FlagsSpec FlagsProofs FlagsBuild GenCpp GenCppSpec GenCppProofs.
From Coq Require Import Bool.
Local Open Scope N_scope.

(** The flags that the generated code is written for. *)
Definition machine_flags (k : cfg) (m : internals) : cfg :=
  {| f_bol := has (i_features m) fb_bol; f_eol := has (i_features m) fb_eol; f_multi := Nat.ltb 1 (length (i_dfa m));
     f_rec := has (i_features m) fb_rec; f_adv := true; c_bytes := c_bytes k; c_bits := c_bits k |}.

(** The bits of the machine tell what its rules need (C47). *)
Record announces (k : cfg) (R : grules) (m : internals) : Prop := {
  an_bol : has (i_features m) fb_bol = false -> bol_free m;
  an_eol : has (i_features m) fb_eol = false -> eol_free m;
  an_skip : has (i_features m) fb_skip = false -> each_rule R (fun x => gr_id x <> skip_id k);
  an_again : has (i_features m) fb_again = false -> each_rule R (fun x => gr_id x <> gr_eoi R);
  an_rec : has (i_features m) fb_rec = false -> each_rule R (fun x => gr_pop x = false /\ gr_push x = npos k)
}.
(** The flags cover the features, as lookup.hpp:485 asserts. *)
Record covers (k : cfg) (m : internals) : Prop := {
  cv_bol : has (i_features m) fb_bol = true -> f_bol k = true;
  cv_eol : has (i_features m) fb_eol = true -> f_eol k = true;
  cv_rec : has (i_features m) fb_rec = true -> f_rec k = true;
  cv_multi : (1 < length (i_dfa m))%nat -> f_multi k = true;
  cv_adv : f_adv k = true
}.

Lemma cover_case (a b : bool) (P : Prop) : (b = true -> a = true) -> (b = false -> P) -> a = b \/ P.
Proof. intros H1 H2. destruct b; [left; auto|right; auto]. Qed.

Theorem generated_any_flags k m inp ptrs inner r r0 fuel r' o :
  idle_flags k (machine_flags k m) m -> suits (machine_flags k m) m -> mwf k m -> rwf m inp r ->
  (ptrs = true -> pointers_suit (machine_flags k m) m) ->
  (has (i_features m) fb_eol = false \/ (ptrs = false /\ lines_suit k inp)) ->
  stack_suits m r -> alike k (machine_flags k m) r r0 -> lookup fuel inner k m inp r = Ok (r', o) -> forall n, (2 * fuel <= n)%nat ->
  match o with
  | None => exists r0', gen_lookup n inner (c_bits k) (c_bytes k) ptrs m inp r0 = Ok r0' /\ alike k (machine_flags k m) r' r0' /\ stack_suits m r'
  | Some _ => gen_lookup n inner (c_bits k) (c_bytes k) ptrs m inp r0 = UB
  end.
Proof.
  intros IF SU MW RW PS EC SS AL E n L. destruct (flags_ok k _ m inp IF MW fuel inner r r0 r' o AL RW E) as (s' & E' & AL').
  assert (SS0 : stack_suits m r0). { intros H. destruct AL as (_ & _ & _ & _ & _ & <- & _). now apply SS. }
  pose proof (gen_ok (machine_flags k m) ptrs m inp inner SU PS (mwf_idle _ _ _ IF MW) EC fuel r0 r0 s' o) as G.
  assert (SM : same (machine_flags k m) r0 r0) by (unfold same; repeat split; auto).
  specialize (G SM SS0 E' n L). destruct o; [exact G|]. destruct G as (r0' & G1 & G2 & G3). exists r0'. split; [exact G1|].
  destruct G2 as (H1 & H2 & H3 & H4 & H5 & H6 & H7). destruct AL' as (A1 & A2 & A3 & A4 & A5 & A6 & A7). split.
  - unfold alike. repeat split; try congruence. intros F F'. rewrite A7; auto.
  - intros H. rewrite A6. now apply G3.
Qed.

Section Built.
  Variables (f : nat) (k : cfg) (g : gcfg) (R : grules) (m : internals) (inp : list N) (r : results).
  Hypothesis SE : fair_setting f k g R m inp r.
  Hypothesis AN : announces k R m.
  Hypothesis CV : covers k m.
  Hypothesis BY : 1 <= c_bytes k.

  Lemma built_idle : idle_flags k (machine_flags k m) m.
  Proof.
    destruct AN, CV. assert (NP : npos k = gnpos g) by apply (fs_agree _ _ _ _ _ _ _ SE). constructor; cbn [machine_flags f_bol f_eol f_rec f_multi f_adv c_bytes c_bits]; auto.
    - now apply cover_case.
    - now apply cover_case.
    - apply cover_case; [auto|]. intros H. eapply fair_no_rec; [exact SE|]. rewrite <- NP. auto.
    - apply cover_case; [intros H; apply cv_multi0; now apply Nat.ltb_lt|]. intros H. apply Nat.ltb_ge in H.
      destruct (fs_machine _ _ _ _ _ _ _ SE) as (_ & LN & _). pose proof (proj1 (fs_results _ _ _ _ _ _ _ SE)). unfold one_state. lia.
  Qed.
  Lemma built_suits : suits (machine_flags k m) m.
  Proof.
    destruct AN. constructor; cbn; auto.
    - intros H. change (skip_id (machine_flags k m)) with (skip_id k). eapply fair_ids; eauto. 
    - intros H. destruct (fs_machine _ _ _ _ _ _ _ SE) as (-> & _). eapply fair_ids; eauto. 
  Qed.
  Lemma built_pointers : (has (i_features m) fb_bol = true -> forall st t, get_table m st = Some t -> cell t 0 0 <> Some 0) ->
    pointers_suit (machine_flags k m) m.
  Proof. intros H st t G. split; [intros F; eapply H; eauto|]. intros row v. eapply fair_dead; eauto. Qed.

  Theorem generated_built ptrs inner fuel r0 r' o :
    (ptrs = true -> has (i_features m) fb_bol = true -> forall st t, get_table m st = Some t -> cell t 0 0 <> Some 0) ->
    (has (i_features m) fb_eol = false \/ (ptrs = false /\ lines_suit k inp)) ->
    stack_suits m r -> alike k (machine_flags k m) r r0 -> lookup fuel inner k m inp r = Ok (r', o) -> forall n, (2 * fuel <= n)%nat ->
    match o with
    | None => exists r0', gen_lookup n inner (c_bits k) (c_bytes k) ptrs m inp r0 = Ok r0' /\ alike k (machine_flags k m) r' r0' /\ stack_suits m r'
    | Some _ => gen_lookup n inner (c_bits k) (c_bytes k) ptrs m inp r0 = UB
    end.
  Proof.
    intros HB EC SS AL E.
    exact (generated_any_flags k m inp ptrs inner r r0 fuel r' o built_idle built_suits (fs_mwf _ _ _ _ _ _ _ SE) (fs_rwf _ _ _ _ _ _ _ SE)
      (fun P => built_pointers (HB P)) EC SS AL E).
  Qed.
End Built.

(** All configurations of features. *)
Theorem compiles_iff g : compiles (gen_code g) = true <-> (gc_rec g = true -> gc_multi g = true).
Proof.
  destruct g as [b e s a r mu p w eo].
  destruct b, e, s, a, r, mu, p, w; vm_compute; split; auto; intros H; try discriminate; specialize (H eq_refl); discriminate.
Qed.
