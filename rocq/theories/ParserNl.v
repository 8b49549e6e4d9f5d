(** The ids of the newline sets stay in the map. *)
From Verif Require Import Base StringToken StringTokenSpec StringTokenProofs Slice StateMachine Tree Partition
  Generator ReToken Parser ParserTree ParserKeys.
Local Open Scope N_scope.

Section Nl.
Variable k : gcfg.
Definition nl_known (s : pstate) : Prop :=
  (ps_cr s = gnpos k \/ In ([(13, 13)], ps_cr s) (ps_map s)) /\
  (ps_nl s = gnpos k \/ In ([(10, 10)], ps_nl s) (ps_map s)).

Lemma cm_insert_has t i m : ~ In t (keys m) -> In (t, i) (cm_insert t i m).
Proof.
  induction m as [|[u j] m IH]; cbn; [auto|]. intros N.
  destruct (st_cmp t u) eqn:E; cbn; [|now left|].
  - apply st_cmp_eq in E. subst. tauto.
  - right. apply IH. tauto.
Qed.
Lemma cm_insert_incl t i m : incl m (cm_insert t i m).
Proof.
  induction m as [|[u j] m IH]; cbn; [intros ? []|].
  destruct (st_cmp t u); cbn.
  - apply incl_refl.
  - intros x Hx. now right.
  - intros x [<-|Hx]; [now left|right; auto].
Qed.
Lemma p_lookup_in t m : let x := p_lookup k t m in In (t, fst x) (snd x) /\ incl m (snd x).
Proof.
  cbn zeta. unfold p_lookup. destruct (map_find t m) eqn:E; cbn [fst snd].
  - split; [now apply map_find_some|apply incl_refl].
  - split; [apply cm_insert_has; now apply map_find_none|apply cm_insert_incl].
Qed.

Lemma nk_on op s s' : nl_known s -> on_tree op s = Ok s' -> nl_known s'.
Proof. unfold on_tree. intros H E. destruct (op (ps_tree s)); try discriminate. injection E as <-. auto. Qed.
Lemma nk_range t s : nl_known s -> nl_known (push_range k t s).
Proof.
  intros [H1 H2]. destruct (p_lookup_in t (ps_map s)) as [_ I]. split; cbn.
  - destruct H1; auto.
  - destruct H2; auto.
Qed.
Lemma nk_more {D} (pd : D -> pstate -> res pstate) : (forall d s s', nl_known s -> pd d s = Ok s' -> nl_known s') ->
  forall ds s s', nl_known s -> push_more pd ds s = Ok s' -> nl_known s'.
Proof.
  intros P. induction ds as [|d ds IH]; intros s s' H E; cbn [push_more] in E; [injection E as <-; auto|].
  destruct (pd d s) as [s1| | |] eqn:E1; try discriminate. cbn [bind] in E.
  destruct (on_tree t_or s1) as [s2| | |] eqn:E2; try discriminate. cbn [bind] in E.
  eapply IH; [|exact E]. eapply nk_on; [|exact E2]. eauto.
Qed.
Lemma nk_ranges {D} (pd : D -> pstate -> res pstate) ds s s' :
  (forall d s s', nl_known s -> pd d s = Ok s' -> nl_known s') ->
  nl_known s -> push_ranges pd ds s = Ok s' -> nl_known s'.
Proof.
  destruct ds as [|d ds]; intros P H E; cbn [push_ranges] in E; [discriminate|].
  destruct (pd d s) as [s1| | |] eqn:E1; try discriminate. cbn [bind] in E.
  eapply nk_more; [exact P| |exact E]. eauto.
Qed.
Lemma nk_charset t s s' : nl_known s -> p_charset k t s = Ok s' -> nl_known s'.
Proof.
  unfold p_charset. intros H. destruct (compressed k).
  - unfold create_sequence.
    match goal with |- (do _ <- ?x ; _) = _ -> _ => destruct x as [s1| | |] eqn:E end;
      cbn [bind]; try discriminate. intros [= <-]. change (nl_known s1).
    destruct (g_bytes k =? 2).
    + eapply nk_ranges; [|exact H|exact E]. intros d a b Ha Eb. eapply nk_on; [|exact Eb]. now do 2 apply nk_range.
    + eapply nk_ranges; [|exact H|exact E]. intros [[d1 d2] d3] a b Ha Eb. unfold push_data3 in Eb.
      destruct (on_tree t_sequence _) as [s2| | |] eqn:E2 in Eb; cbn [bind] in Eb; try discriminate.
      eapply nk_on; [|exact Eb]. apply nk_range. eapply nk_on; [|exact E2]. now do 2 apply nk_range.
  - intros [= <-]. apply nk_range. exact H.
Qed.
Lemma nk_eol s : nl_known s -> nl_known (p_eol k s).
Proof.
  intros [H1 H2]. unfold p_eol. set (c := p_lookup k [(13, 13)] (ps_map s)).
  set (n := p_lookup k [(10, 10)] (snd c)).
  destruct (p_lookup_in [(13, 13)] (ps_map s)) as [C1 C2]. fold c in C1, C2.
  destruct (p_lookup_in [(10, 10)] (snd c)) as [N1 N2]. fold n in N1, N2.
  split; cbn [ps_cr ps_nl ps_map push push_leaf with_tree with_stack].
  - destruct (fst c =? gnpos k); [destruct H1; auto|auto].
  - destruct (fst n =? gnpos k); [destruct H2; auto|auto].
Qed.
Lemma nk_reduce s s' : nl_known s -> reduce k s = Ok s' -> nl_known s'.
Proof.
  intros H E. unfold reduce in E.
  destruct (pop_handle (ps_stack s) []) as [[h st]| | |]; try discriminate. cbn [bind fst snd] in E.
  destruct h as [|r more]; [discriminate|].
  assert (H0 : nl_known (with_stack st s)) by exact H.
  set (s0 := with_stack st s) in *. clearbody s0.
  assert (DU : forall op ty, (do x <- on_tree op s0; Ok (push ty x)) = Ok s' -> nl_known s').
  { intros op ty Ed. destruct (on_tree op s0) as [s1| | |] eqn:E1; try discriminate.
    cbn [bind] in Ed. injection Ed as <-. change (nl_known s1). eapply nk_on; eauto. }
  destruct (tk_type r); try discriminate; try (eapply DU; exact E);
    try (injection E as <-; exact H0); try (destruct more; [injection E as <-; exact H0|]);
    try (eapply DU; exact E); try (injection E as <-; exact H0).
  - eapply nk_charset; eauto.
  - injection E as <-. now apply nk_eol.
Qed.
Lemma nk_loop fuel : forall c s', nl_known (fst c) -> ploop fuel k c = Ok s' -> nl_known s'.
Proof.
  induction fuel as [|fuel IH]; intros [s [la it]] s' H E; cbn [ploop] in E; [discriminate|].
  destruct (pstep k (s, (la, it))) as [[s1 x]| | |] eqn:Es; try discriminate. cbn [bind fst] in E.
  assert (Q : nl_known s1).
  { unfold pstep in Es. cbn [fst snd] in *. destruct (ps_stack s) as [|top st]; try discriminate.
    destruct (precedence (tk_type top) (tk_type la)) as [[]|]; try discriminate.
    1,2: destruct (fetch it); try discriminate; cbn [bind] in Es; injection Es as <- <-; exact H.
    destruct (reduce k s) as [s2| | |] eqn:Er; try discriminate. cbn [bind] in Es. injection Es as <- <-.
    eapply nk_reduce; eauto. }
  destruct (ps_stack s1); [injection E as <-; auto|]. eapply IH; [|exact E]. exact Q.
Qed.
Theorem nk_parse ts e seen s root s' : nl_known s -> parse k ts e seen s = Ok (root, s') -> nl_known s'.
Proof.
  intros H E. unfold parse in E. destruct ts as [|b it]; [discriminate|].
  destruct (fetch it) as [[l it1]| | |] eqn:Ef; try discriminate. cbn [bind] in E.
  destruct (ploop _ k _) as [s1| | |] eqn:El; try discriminate. cbn [bind] in E.
  apply nk_loop in El; [|exact H].
  destruct (match fst (ps_tree s1) with [] => _ | _ => _ end) as [r| | |]; try discriminate. cbn [bind] in E.
  destruct (if seen then _ else _) as [f| | |]; try discriminate. cbn [bind] in E. injection E as <- <-.
  exact El.
Qed.
End Nl.
