(** Built machines can be minimised and converted: their dead columns are 0. *)
From Verif Require Import Base StringToken StateMachine Tree DfaSpec Generator Build Lookup TableSpec LookupSpec BuildSpec
  RuleSpec BuildState BuildMachine BuildThms BuildLookup MinimiseProofs.
Local Open Scope N_scope.

Theorem built_mclean k g R m : agree k g -> rules_wf g R -> machine_ok g R m -> mclean k m.
Proof.
  intros AG RW MO st t n Et Hwf.
  destruct (table_state g R m RW MO st t Et) as (gs & _ & _ & _ & (s & ds & n' & RC & _)).
  assert (n = n').
  { destruct Hwf as (_ & _ & W & H & _). pose proof (rc_len _ _ _ _ _ _ RC) as H'. rewrite H in H'.
    apply N.mul_cancel_r in H'; auto. unfold ix_trans in W. lia. }
  subst n'. split.
  - intros row Hr. apply (rc_dead _ _ _ _ _ _ RC). lia.
  - intros col Hc. apply (rc_row0 _ _ _ _ _ _ RC). unfold ix_eol in Hc. lia.
Qed.
