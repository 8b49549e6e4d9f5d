(** Property C53: feature flags that a machine has no use for. *)
From Verif Require Import Base StringToken StateMachine ReToken DfaSpec Generator Build Lookup TableSpec LookupSpec RuleSpec BuildSpec BuildMachine
  BuildLookup EolSpec EolLookup FlagsSpec FlagsProofs FlagsBuild P_Build P_Eol.
Local Open Scope N_scope.

(** Any well-formed machine: flags that differ only in features its tables do not
    use give the same tokens, and the same exceptions. *)
Theorem C53_unused_flags k k' m inp fuel inner r s r' o : idle_flags k k' m -> mwf k m -> alike k k' r s -> rwf m inp r ->
  lookup fuel inner k m inp r = Ok (r', o) ->
  exists s', lookup fuel inner k' m inp s = Ok (s', o) /\ alike k k' r' s'.
Proof. intros H1 H2. exact (flags_ok k k' m inp H1 H2 fuel inner r s r' o). Qed.
(** Machines built from rules: which flags matter is seen from the rules. *)
Theorem C53_built f k k' g R m inp fuel inner r s r' o : setting f k g R m inp r ->
  c_bytes k = c_bytes k' -> c_bits k = c_bits k' -> f_adv k = f_adv k' ->
  (f_bol k = f_bol k' \/ forall gs, In gs (gr_states R) -> has_bol (gs_features gs) = false) ->
  (f_rec k = f_rec k' \/ each_rule R (fun x => gr_pop x = false /\ gr_push x = gnpos g)) ->
  (f_multi k = f_multi k' \/ length (gr_states R) = 1%nat) ->
  alike k k' r s -> lookup fuel inner k m inp r = Ok (r', o) ->
  exists s', lookup fuel inner k' m inp s = Ok (s', o) /\ alike k k' r' s'.
Proof.
  intros SE H1 H2 H3 H4 H5 H6 AL. exact (flags_ok k k' m inp (setting_idle f k g R m inp r k' SE H1 H2 H3 H4 H5 H6)
    (fs_mwf _ _ _ _ _ _ _ (setting_fair _ _ _ _ _ _ _ SE)) fuel inner r s r' o AL (fs_rwf _ _ _ _ _ _ _ (setting_fair _ _ _ _ _ _ _ SE))).
Qed.
(** The same for rules with $. *)
Theorem C53_built_lines f k k' g R m inp fuel inner r s r' o : fair_setting f k g R m inp r ->
  c_bytes k = c_bytes k' -> c_bits k = c_bits k' -> f_adv k = f_adv k' ->
  (f_bol k = f_bol k' \/ bol_free m) -> (f_eol k = f_eol k' \/ each_rule R (eol_bounded 0)) ->
  (f_rec k = f_rec k' \/ each_rule R (fun x => gr_pop x = false /\ gr_push x = gnpos g)) ->
  (f_multi k = f_multi k' \/ length (gr_states R) = 1%nat) ->
  alike k k' r s -> lookup fuel inner k m inp r = Ok (r', o) ->
  exists s', lookup fuel inner k' m inp s = Ok (s', o) /\ alike k k' r' s'.
Proof.
  intros SE H1 H2 H3 H4 H5 H6 H7 AL. exact (flags_ok k k' m inp (fair_idle f k g R m inp r SE k' H1 H2 H3 H4 H5 H6 H7)
    (fs_mwf _ _ _ _ _ _ _ SE) fuel inner r s r' o AL (fs_rwf _ _ _ _ _ _ _ SE)).
Qed.
Print Assumptions C53_unused_flags.
Print Assumptions C53_built.
Print Assumptions C53_built_lines.

(** The two start states of C01: recursion and $ may be switched on. *)
Definition kall : cfg := {| f_bol := true; f_eol := true; f_multi := true; f_rec := true; f_adv := true; c_bytes := 1; c_bits := 16 |}.
Lemma Rx_no_stack : each_rule Rx (fun x => gr_pop x = false /\ gr_push x = gnpos gx).
Proof.
  intros gs x Hg Hx. cbn in Hg. destruct Hg as [<-|[<-|[]]]; cbn in Hx; repeat (destruct Hx as [<-|Hx]; [split; reflexivity|]); destruct Hx.
Qed.
Lemma mx_idle : idle_flags kx kall mx.
Proof.
  apply (setting_idle 100 kx gx Rx mx inp (pos true 0 0) kall); [apply Rx_setting; lia|reflexivity|reflexivity|reflexivity|left; reflexivity|right; exact Rx_no_stack|left; reflexivity].
Qed.
Example C53_case : idle_flags kx kall mx /\ mwf kx mx /\ alike kx kall (pos true 0 4) (pos true 0 4) /\ rwf mx inp (pos true 0 4) /\
  exists r', lookup 100 100 kx mx inp (pos true 0 4) = Ok (r', None) /\ r_id r' = 2 /\ r_second r' = 7%nat.
Proof.
  assert (SE : setting 100 kx gx Rx mx inp (pos true 0 4)) by (apply Rx_setting; lia).
  split; [exact mx_idle|]. split; [exact (fs_mwf _ _ _ _ _ _ _ (setting_fair _ _ _ _ _ _ _ SE))|].
  split; [unfold alike; repeat split; auto|]. split; [exact (fs_rwf _ _ _ _ _ _ _ (setting_fair _ _ _ _ _ _ _ SE))|].
  eexists. split; [vm_compute; reflexivity|]. split; reflexivity.
Qed.
(** A flag that a rule needs does count: without bol the rule ^#[a-z]* never matches. *)
Definition kno : cfg := {| f_bol := false; f_eol := false; f_multi := true; f_rec := false; f_adv := true; c_bytes := 1; c_bits := 16 |}.
Example C53_needed_flag : exists r' s', lookup 100 100 kx mx inp (pos true 0 0) = Ok (r', None) /\ r_id r' = 3 /\
  lookup 100 100 kno mx inp (pos true 0 0) = Ok (s', None) /\ r_id s' = 65535 /\ ~ idle_flags kx kno mx.
Proof.
  eexists. eexists. split; [vm_compute; reflexivity|]. split; [reflexivity|]. split; [vm_compute; reflexivity|]. split; [reflexivity|].
  intros IF. destruct (id_bol _ _ _ IF) as [H|H]; [discriminate|].
  destruct (get_table mx 0) as [t|] eqn:E; [|vm_compute in E; discriminate]. specialize (H 0 t E).
  vm_compute in E. injection E as <-. vm_compute in H. discriminate.
Qed.
