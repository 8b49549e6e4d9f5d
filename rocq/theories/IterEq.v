(** operator == of iterators. *)
From Verif Require Import Base StateMachine Lookup TableSpec LookupSpec LookupThms LookupTile LookupDet Iterator IterProofs.
Local Open Scope N_scope.

(** What two live iterators must have in common. *)
Record same_token (a b : results) : Prop := {
  st_id : r_id a = r_id b; st_uid : r_uid a = r_uid b; st_first : r_first a = r_first b;
  st_second : r_second a = r_second b; st_bol : r_bol a = r_bol b; st_state : r_state a = r_state b
}.
Lemma results_eqb_iff a b : results_eqb a b = true <-> same_token a b.
Proof.
  unfold results_eqb. rewrite !andb_true_iff, !N.eqb_eq, !Nat.eqb_eq, Bool.eqb_true_iff. split.
  - intros (((((H1 & H2) & H3) & H4) & H5) & H6). now constructor.
  - intros []. tauto.
Qed.
Theorem iter_eqb_iff a b : iter_eqb a b = true <->
  it_live a = false /\ it_live b = false \/ it_live a = true /\ it_live b = true /\ same_token (it_res a) (it_res b).
Proof.
  unfold iter_eqb. rewrite andb_true_iff, orb_true_iff, Bool.eqb_true_iff, results_eqb_iff.
  destruct (it_live a), (it_live b); cbn; intuition discriminate.
Qed.
(** Equal iterators go on with the same tokens. *)
Theorem equal_visits k m inp n fuel inner a b : iter_eqb a b = true -> r_stack (it_res a) = r_stack (it_res b) ->
  visit n fuel inner k m inp a = visit n fuel inner k m inp b.
Proof.
  intros E S. destruct a as [a la], b as [b lb]. apply iter_eqb_iff in E. cbn in *. destruct E as [(-> & ->)|(-> & -> & [])].
  - now rewrite !visit_dead.
  - f_equal. f_equal. destruct a, b. cbn in *. congruence.
Qed.
(** The positions of one range are different. *)
Lemma lexes_after k m inp : mwf k m -> chars_ok k inp -> no_empty_match k m -> f_adv k = true ->
  forall r l, lexes k m inp r l -> rwf m inp r -> forall t, In t l -> (r_second r < r_second t)%nat.
Proof.
  intros H1 H2 H3 H4 r l H. induction H as [fuel inner r r' HL HI|fuel inner r r' l HL HI H IH]; intros HR t I; [easy|].
  pose proof (lookup_progress k m inp r fuel inner r' H1 H2 H3 H4 HR HL HI) as P.
  pose proof (lookup_looks fuel inner k m inp r H1 H2 HR) as Q. rewrite HL in Q. destruct Q as (_ & Q).
  destruct I as [<-|I]; [lia|]. specialize (IH Q t I). lia.
Qed.
Theorem positions_differ k m inp : mwf k m -> chars_ok k inp -> no_empty_match k m -> f_adv k = true ->
  forall r l, lexes k m inp r l -> rwf m inp r -> forall l1 a l2 b l3, l = l1 ++ a :: l2 ++ b :: l3 ->
  iter_eqb {| it_res := a; it_live := true |} {| it_res := b; it_live := true |} = false.
Proof.
  intros H1 H2 H3 H4 r l H. induction H as [fuel inner r r' HL HI|fuel inner r r' l HL HI H IH]; intros HR l1 a l2 b l3 E; [now destruct l1|].
  pose proof (lookup_looks fuel inner k m inp r H1 H2 HR) as Q. rewrite HL in Q. destruct Q as (_ & Q).
  destruct l1 as [|x l1]; cbn in E; injection E as -> E.
  - subst l. pose proof (lexes_after k m inp H1 H2 H3 H4 _ _ H Q b ltac:(apply in_or_app; right; now left)) as L.
    destruct (iter_eqb _ _) eqn:X; [|reflexivity]. apply iter_eqb_iff in X as [(X & _)|(_ & _ & [])]; [discriminate X|]. cbn in *. lia.
  - exact (IH Q l1 a l2 b l3 E).
Qed.
