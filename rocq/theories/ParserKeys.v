(** The charsets in the map come from the tokens of the rules, each once. *)
From Verif Require Import Base StringToken StringTokenSpec StringTokenProofs Slice StateMachine Tree Partition
  Generator ReToken Parser Grammar ParserTree.
Local Open Scope N_scope.

(** The byte sets made for a character class. *)
Definition slices (b : N) (t : stoken) : list stoken :=
  if b =? 1 then [t]
  else if b =? 2 then flat_map (fun d => [fst d; snd d]) (slice16 t)
  else flat_map (fun d => [fst (fst d); snd (fst d); snd d]) (slice24 t).
Definition tok_sets (b : N) (t : token) : list stoken :=
  match tk_type t with
  | CHARSET => slices b (tk_str t)
  | EOL => [[(13, 13)]; [(10, 10)]]
  | _ => []
  end.
Definition keys (m : charset_map) : list stoken := map fst m.
Definition kok (A : list stoken) (m : charset_map) : Prop := NoDup (keys m) /\ incl (keys m) A.

Section Keys.
Variable k : gcfg.
Variable A : list stoken.
Let bsz := g_bytes k.
Definition kst (s : pstate) : Prop :=
  kok A (ps_map s) /\ forall t, In t (ps_stack s) -> incl (tok_sets bsz t) A.

Lemma cm_insert_in t i m x : In x (keys (cm_insert t i m)) -> x = t \/ In x (keys m).
Proof.
  induction m as [|[u j] m IH]; cbn; [intuition|].
  destruct (st_cmp t u); cbn; [intuition|intuition|]. intros [H|H]; [auto|]. apply IH in H as [H|H]; auto.
Qed.
Lemma cm_insert_nodup t i m : NoDup (keys m) -> ~ In t (keys m) -> NoDup (keys (cm_insert t i m)).
Proof.
  induction m as [|[u j] m IH]; cbn; intros ND NI; [repeat constructor; auto|].
  inversion ND as [|? ? N1 N2]; subst.
  destruct (st_cmp t u); cbn; [auto|constructor; auto|]. constructor; [|apply IH; auto].
  intros H. apply cm_insert_in in H as [->|H]; auto.
Qed.
Lemma map_find_none t m : map_find t m = None -> ~ In t (keys m).
Proof.
  induction m as [|[u j] m IH]; cbn; [auto|]. destruct (st_eqb u t) eqn:E; [discriminate|].
  intros H [->|Hi]; [|now apply IH]. rewrite (proj2 (st_eqb_eq t t) eq_refl) in E. discriminate.
Qed.
Lemma kok_lookup t m : kok A m -> In t A -> kok A (snd (p_lookup k t m)).
Proof.
  intros [ND I] Ht. unfold p_lookup. destruct (map_find t m) eqn:E; [split; auto|]. cbn [snd]. split.
  - apply cm_insert_nodup; auto. now apply map_find_none.
  - intros x Hx. apply cm_insert_in in Hx as [->|Hx]; auto.
Qed.
Lemma kst_tree t s : kst s -> kst (with_tree t s).
Proof. auto. Qed.
Lemma kst_on op s s' : kst s -> on_tree op s = Ok s' -> kst s'.
Proof. unfold on_tree. intros H E. destruct (op (ps_tree s)); try discriminate. injection E as <-. auto. Qed.
Lemma kst_push ty s : kst s -> ty <> CHARSET -> ty <> EOL -> kst (push ty s).
Proof.
  intros [H1 H2] N1 N2. split; [auto|]. cbn. intros t [<-|Ht]; [|auto].
  unfold tok_sets, tok. cbn. destruct ty; try congruence; intros x [].
Qed.
Lemma kst_range t s : kst s -> In t A -> kst (push_range k t s).
Proof. intros [H1 H2] Ht. split; [|auto]. cbn. now apply kok_lookup. Qed.
Lemma kst_data2 d s s' : kst s -> In (fst d) A -> In (snd d) A -> push_data2 k d s = Ok s' -> kst s'.
Proof. intros H H1 H2 E. eapply kst_on; [|exact E]. apply kst_range; auto. apply kst_range; auto. Qed.
Lemma kst_data3 d s s' : kst s -> In (fst (fst d)) A -> In (snd (fst d)) A -> In (snd d) A ->
  push_data3 k d s = Ok s' -> kst s'.
Proof.
  destruct d as ((t1, t2), t3). cbn [fst snd]. intros H H1 H2 H3 E. unfold push_data3 in E.
  destruct (on_tree _ _) as [s1| | |] eqn:E1; try discriminate. cbn [bind] in E.
  eapply kst_on; [|exact E]. apply kst_range; [|auto]. eapply kst_on; [|exact E1].
  apply kst_range; auto. apply kst_range; auto.
Qed.
Lemma kst_more {D} (pd : D -> pstate -> res pstate) : forall ds,
  (forall d s s', In d ds -> kst s -> pd d s = Ok s' -> kst s') -> forall s s',
  kst s -> push_more pd ds s = Ok s' -> kst s'.
Proof.
  induction ds as [|d ds IH]; intros P s s' H E; cbn [push_more] in E; [injection E as <-; auto|].
  destruct (pd d s) as [s1| | |] eqn:E1; try discriminate. cbn [bind] in E.
  destruct (on_tree t_or s1) as [s2| | |] eqn:E2; try discriminate. cbn [bind] in E.
  apply (IH (fun d s s' Hd => P d s s' (or_intror Hd)) s2 s'); [|exact E].
  eapply kst_on; [|exact E2]. eapply P; [now left|exact H|exact E1].
Qed.
Lemma kst_ranges {D} (pd : D -> pstate -> res pstate) ds s s' :
  (forall d s s', In d ds -> kst s -> pd d s = Ok s' -> kst s') ->
  kst s -> push_ranges pd ds s = Ok s' -> kst s'.
Proof.
  destruct ds as [|d ds]; intros P H E; cbn [push_ranges] in E; [discriminate|].
  destruct (pd d s) as [s1| | |] eqn:E1; try discriminate. cbn [bind] in E.
  apply (kst_more pd ds (fun d s s' Hd => P d s s' (or_intror Hd)) s1 s'); [|exact E].
  eapply P; [now left|exact H|exact E1].
Qed.

Lemma pop_handle_in stack : forall h h' st, pop_handle stack h = Ok (h', st) ->
  (forall t, In t h' -> In t stack \/ In t h) /\ (forall t, In t st -> In t stack).
Proof.
  induction stack as [|r stack IH]; intros h h' st E; cbn [pop_handle] in E; [discriminate|].
  destruct stack as [|l stack].
  - injection E as <- <-. split; [|intros ? []]. intros t [<-|H]; [left; now left|auto].
  - destruct (precedence (tk_type l) (tk_type r)) as [[]|]; try discriminate.
    all: try solve [injection E as <- <-; split; [intros t [<-|H]; [left; now left|auto]|intros t H; now right]].
    apply IH in E as [E1 E2]. split; [|intros t Ht; right; auto].
    intros t Ht. apply E1 in Ht as [Ht|[<-|Ht]]; [left; now right|left; now left|auto].
Qed.

Hypothesis WO : wide_ok k.
Lemma kst_reduce s s' : kst s -> reduce k s = Ok s' -> kst s'.
Proof.
  intros H E. unfold reduce in E.
  destruct (pop_handle (ps_stack s) []) as [[h st]| | |] eqn:Ep; try discriminate. cbn [bind fst snd] in E.
  apply pop_handle_in in Ep as [Hh Hst].
  assert (H0 : kst (with_stack st s)) by (split; [apply H|intros t Ht; apply H; auto]).
  destruct h as [|r more]; [discriminate|].
  assert (Hr : incl (tok_sets bsz r) A).
  { apply H. destruct (Hh r (or_introl eq_refl)) as [Q|[]]. auto. }
  set (s0 := with_stack st s) in *. clearbody s0.
  assert (DU : forall op, dup_op op s0 = Ok s' -> kst s').
  { intros op Ed. unfold dup_op in Ed. destruct (on_tree op s0) as [s1| | |] eqn:E1; try discriminate.
    cbn [bind] in Ed. injection Ed as <-. apply kst_push; [|discriminate|discriminate]. eapply kst_on; eauto. }
  unfold tok_sets in Hr. destruct (tk_type r) eqn:Et; try discriminate; eauto;
    try (injection E as <-; auto; apply kst_push; auto; discriminate).
  - destruct more as [|x more]; [injection E as <-; apply kst_push; auto; discriminate|].
    destruct (on_tree t_or s0) as [s1| | |] eqn:E1; try discriminate. cbn [bind] in E.
    injection E as <-. apply kst_push; [|discriminate|discriminate]. eapply kst_on; eauto.
  - destruct more as [|x more]; [injection E as <-; apply kst_push; auto; discriminate|].
    destruct (on_tree t_sequence s0) as [s1| | |] eqn:E1; try discriminate. cbn [bind] in E.
    injection E as <-. apply kst_push; [|discriminate|discriminate]. eapply kst_on; eauto.
  - destruct more; injection E as <-; apply kst_push; auto; discriminate.
  - (* charset *)
    unfold p_charset, compressed in E. unfold slices, bsz in *.
    destruct WO as [W|[W|W]]; [rewrite W in *; cbn in E, Hr..|].
    + injection E as <-. apply kst_push; [|discriminate|discriminate]. apply kst_range; auto.
      apply Hr. now left.
    + unfold create_sequence in E. rewrite W in E. cbn in E.
      destruct (push_ranges (push_data2 k) _ s0) as [s1| | |] eqn:E1; try discriminate. cbn [bind] in E.
      injection E as <-. do 3 (apply kst_push; [|discriminate|discriminate]).
      eapply kst_ranges; [|exact H0|exact E1]. intros d a b Hd Ha Eb.
      eapply kst_data2; [exact Ha| | |exact Eb]; apply Hr, in_flat_map; exists d; (split; [auto|cbn; auto]).
    + assert (B1 : (g_bytes k =? 1) = false) by (apply N.eqb_neq; lia). assert (B2 : (g_bytes k =? 2) = false) by (apply N.eqb_neq; lia).
      assert (B3 : (1 <? g_bytes k) = true) by (apply N.ltb_lt; lia).
      rewrite B1, B2 in Hr. rewrite B3 in E. unfold create_sequence in E. rewrite B2 in E.
      destruct (push_ranges (push_data3 k) _ s0) as [s1| | |] eqn:E1; try discriminate. cbn [bind] in E.
      injection E as <-. do 3 (apply kst_push; [|discriminate|discriminate]).
      eapply kst_ranges; [|exact H0|exact E1]. intros d a b Hd Ha Eb.
      eapply kst_data3; [exact Ha| | | |exact Eb]; apply Hr, in_flat_map; exists d; (split; [auto|cbn; auto]).
  - (* eol *)
    injection E as <-. unfold p_eol. apply kst_push; [|discriminate|discriminate].
    destruct H0 as [K1 K2]. split; [|exact K2]. cbn [ps_map push_leaf with_tree].
    apply kok_lookup; [apply kok_lookup; auto; apply Hr; cbn; auto|apply Hr; cbn; auto].
Qed.

Lemma kst_loop fuel : forall s l it s', kst s -> (forall t, In t (l :: it) -> incl (tok_sets bsz t) A) ->
  ploop fuel k (s, (l, it)) = Ok s' -> kst s'.
Proof.
  induction fuel as [|fuel IH]; intros s l it s' H Ht E; cbn [ploop] in E; [discriminate|].
  destruct (pstep k (s, (l, it))) as [[s1 [l1 it1]]| | |] eqn:Es; try discriminate. cbn [bind fst] in E.
  assert (Q : kst s1 /\ forall t, In t (l1 :: it1) -> incl (tok_sets bsz t) A).
  { unfold pstep in Es. cbn [fst snd] in Es. destruct (ps_stack s) as [|top st] eqn:Est; try discriminate.
    destruct (precedence (tk_type top) (tk_type l)) as [[]|]; try discriminate.
    1,2: unfold fetch in Es; destruct it as [|t it]; try discriminate; cbn [bind] in Es;
      injection Es as <- <- <-; (split;
      [split; [apply H|]; cbn [ps_stack with_stack]; rewrite <- Est; intros x [<-|Hx];
         [apply Ht; now left|apply H; auto]
      |intros x [<-|Hx]; [apply Ht; cbn; auto|]; apply Ht; destruct it; cbn in *; intuition]).
    destruct (reduce k s) as [s2| | |] eqn:Er; try discriminate. cbn [bind] in Es. injection Es as <- <- <-.
    split; [|auto]. eapply kst_reduce; eauto. }
  destruct Q as [Q1 Q2]. destruct (ps_stack s1); [injection E as <-; auto|]. eapply IH; eauto.
Qed.

Theorem kok_parse ts e seen s root s' : kst s -> (forall t, In t ts -> incl (tok_sets bsz t) A) ->
  parse k ts e seen s = Ok (root, s') -> kok A (ps_map s').
Proof.
  intros H Ht E. unfold parse in E. destruct ts as [|b it]; [discriminate|].
  destruct (fetch it) as [[l it1]| | |] eqn:Ef; try discriminate. cbn [bind] in E.
  destruct (ploop _ k _) as [s1| | |] eqn:El; try discriminate. cbn [bind] in E.
  apply kst_loop in El.
  - destruct (match fst (ps_tree s1) with [] => _ | _ => _ end) as [r| | |]; try discriminate. cbn [bind] in E.
    destruct (if seen then _ else _) as [f| | |]; try discriminate. cbn [bind] in E. injection E as <- <-.
    apply El.
  - split; [apply H|]. cbn [ps_stack with_stack]. intros t [<-|Hi]; [apply Ht; now left|now apply H].
  - unfold fetch in Ef. destruct it as [|x it]; try discriminate. injection Ef as <- <-.
    intros y [<-|Hy]; [apply Ht; cbn; auto|]. apply Ht. destruct it; cbn in *; intuition.
Qed.
End Keys.
