(** The generated table recognises the languages of the rules. *)
From Verif Require Import Base StringToken StringTokenSpec StringTokenProofs StateMachine Tree TreeSpec
  RegexSpec Glushkov Partition PartitionProofs Generator GenMap GenDfa GenBuild Lookup TableSpec
  DfaSpec GenWalk.
From Coq Require Import Sorted.
Local Open Scope N_scope.

Fixpoint rule_idx (rules : list drule) (p : nat) : nat :=
  match rules with
  | [] => O
  | r :: rs => if existsb (Nat.eqb p) (dr_poss r) then O else S (rule_idx rs p)
  end.
Lemma existsb_eqb p l : existsb (Nat.eqb p) l = true <-> In p l.
Proof.
  rewrite existsb_exists. split.
  - intros (x & H & E). apply Nat.eqb_eq in E. now subst.
  - intros H. exists p. split; [auto|apply Nat.eqb_refl].
Qed.
Lemma rule_idx_le rules p : forall i r, nth_error rules i = Some r -> In p (dr_poss r) ->
  (rule_idx rules p <= i)%nat /\
  exists r', nth_error rules (rule_idx rules p) = Some r' /\ In p (dr_poss r').
Proof.
  induction rules as [|r0 rules IH]; intros i r E H; [destruct i; discriminate|].
  cbn [rule_idx]. destruct (existsb (Nat.eqb p) (dr_poss r0)) eqn:X.
  - apply existsb_eqb in X. split; [lia|]. exists r0. auto.
  - destruct i as [|i].
    + cbn in E. injection E as ->. apply existsb_eqb in H. congruence.
    + destruct (IH i r E H) as (H1 & H2). split; [lia|exact H2].
Qed.

Section Rules.
  Variables (k : gcfg) (fl : gflags) (s : store) (root : node) (m : charset_map) (used : list N).
  Variable rules : list drule.
  Hypothesis HM : map_wf m.
  Hypothesis HL : N.of_nat (length m) < eol_tok k.
  Hypothesis RO : rules_ok k m s rules.
  Hypothesis RT : root_ok rules root.

  Definition rV (p : nat) : Prop := exists r, In r rules /\ In p (dr_poss r).
  Definition rW : nat -> Prop := nobol k s rV.
  Definition rrk : nat -> nat := rule_idx rules.

  Lemma rule_idx_eq i r p : nth_error rules i = Some r -> In p (dr_poss r) -> rrk p = i.
  Proof.
    intros E H. destruct (rule_idx_le rules p i r E H) as (_ & r' & E' & H').
    symmetry. eapply RO; eauto.
  Qed.
  Lemma rok r : In r rules -> rule_ok k m s r.
  Proof. intros H. destruct RO as [F _]. rewrite Forall_forall in F. auto. Qed.

  Lemma poss_leaf r p : In p (poss (dr_tree r)) -> exists t, In (p, t) (leaves (dr_tree r)).
  Proof. intros H. apply in_map_iff in H as ((q, t) & <- & H). eauto. Qed.
  Lemma leaf_poss r p t : In (p, t) (leaves (dr_tree r)) -> In p (poss (dr_tree r)).
  Proof. intros H. apply (in_map fst) in H. exact H. Qed.
  Lemma end_not_poss r : In r rules -> ~ In (dr_end r) (poss (dr_tree r)).
  Proof.
    intros Hr H. apply poss_leaf in H as (t & H). apply (ro_leaf _ _ _ _ (rok r Hr)) in H as (g & f & E & _).
    rewrite (ro_end _ _ _ _ (rok r Hr)) in E. discriminate.
  Qed.

  Lemma h_WV p : rW p -> rV p.
  Proof. intros [H _]. auto. Qed.
  Lemma h_lt p : rV p -> (p < length s)%nat.
  Proof.
    intros (r & Hr & [<-|Hp]).
    - apply nth_error_Some. rewrite (ro_end _ _ _ _ (rok r Hr)). discriminate.
    - apply poss_leaf in Hp as (t & Hp). apply (ro_leaf _ _ _ _ (rok r Hr)) in Hp as (g & f & E & _).
      apply nth_error_Some. congruence.
  Qed.
  Lemma h_leaf p t g f : rV p -> nth_error s p = Some (PLeaf t g f) ->
    exists r, In r rules /\ In (p, t) (leaves (dr_tree r)) /\
      forall q, In q f <-> fol (dr_tree r) p q \/ (In p (lastpos (dr_tree r)) /\ q = dr_end r).
  Proof.
    intros (r & Hr & [<-|Hp]) E.
    - rewrite (ro_end _ _ _ _ (rok r Hr)) in E. discriminate.
    - apply poss_leaf in Hp as (t' & Hp). destruct (ro_leaf _ _ _ _ (rok r Hr) _ _ Hp) as (g' & f' & E' & H).
      rewrite E in E'. injection E' as <- <- <-. exists r. auto.
  Qed.
  Lemma h_tok p t g f : rV p -> nth_error s p = Some (PLeaf t g f) ->
    t = bol_tok k \/ t = eol_tok k \/ exists tk, In (tk, t) m.
  Proof. intros Hp E. apply h_leaf in E as (r & Hr & H & _); auto. eapply ro_tok; eauto using rok. Qed.
  Lemma h_Wtok p t g f : rW p -> nth_error s p = Some (PLeaf t g f) -> t <> bol_tok k.
  Proof. intros [_ H] E. eauto. Qed.
  Lemma h_follow p t g f : rV p -> nth_error s p = Some (PLeaf t g f) ->
    Forall rV f /\ Forall (fun q => rrk q = rrk p) f.
  Proof.
    intros Hp E. destruct (h_leaf p t g f Hp E) as (r & Hr & Hl & HF).
    apply In_nth_error in Hr as Hr'. destruct Hr' as (i & Ei).
    assert (Ip : rrk p = i) by (eapply rule_idx_eq; [eauto|right; eapply leaf_poss; eauto]).
    assert (Q : forall q, In q f -> In q (dr_poss r)).
    { intros q Hq. apply HF in Hq as [Hq|[_ ->]]; [|left; auto].
      right. apply (fol_poss _ _ _ (ro_pure _ _ _ _ (rok r Hr)) Hq). }
    split; apply Forall_forall; intros q Hq; apply Q in Hq.
    - exists r; auto.
    - rewrite Ip. eapply rule_idx_eq; eauto.
  Qed.
  Lemma h_followW p t g f : bol_first k rules -> rV p -> nth_error s p = Some (PLeaf t g f) -> Forall rW f.
  Proof.
    intros BF Hp E. destruct (h_follow p t g f Hp E) as [HV _].
    destruct (h_leaf p t g f Hp E) as (r & Hr & Hl & HF).
    apply Forall_forall. intros q Hq. split; [rewrite Forall_forall in HV; auto|].
    intros t' g' f' E'. apply HF in Hq as [Hq|[_ ->]].
    - assert (Pq := proj2 (fol_poss _ _ _ (ro_pure _ _ _ _ (rok r Hr)) Hq)).
      apply poss_leaf in Pq as (t'' & Hq'). destruct (ro_leaf _ _ _ _ (rok r Hr) _ _ Hq') as (g2 & f2 & E2 & _).
      rewrite E' in E2. injection E2 as <- <- <-. eapply BF; eauto.
    - rewrite (ro_end _ _ _ _ (rok r Hr)) in E'. discriminate.
  Qed.
  Lemma h_end p e : rV p -> nth_error s p = Some (PEnd e) ->
    exists i r, nth_error rules i = Some r /\ p = dr_end r /\ e = dr_info r /\ rrk p = i.
  Proof.
    intros (r & Hr & [<-|Hp]) E.
    - apply In_nth_error in Hr as Hr'. destruct Hr' as (i & Ei). exists i, r. split; [auto|].
      split; [auto|]. rewrite (ro_end _ _ _ _ (rok r Hr)) in E. injection E as <-. split; [auto|].
      eapply rule_idx_eq; [eauto|left; auto].
    - apply poss_leaf in Hp as (t' & Hp). destruct (ro_leaf _ _ _ _ (rok r Hr) _ _ Hp) as (g' & f' & E' & H).
      rewrite E in E'. discriminate.
  Qed.
  Lemma h_inj p q e e' : rV p -> rV q ->
    nth_error s p = Some (PEnd e) -> nth_error s q = Some (PEnd e') -> rrk p = rrk q -> p = q.
  Proof.
    intros Hp Hq Ep Eq H. apply h_end in Ep as (i & r & E1 & -> & _ & R1); auto.
    apply h_end in Eq as (j & r' & E2 & -> & _ & R2); auto.
    assert (i = j) by lia. subst j. congruence.
  Qed.

  Definition first_in (r : drule) (x : nat) : Prop :=
    In x (firstpos (dr_tree r)) \/ (nullable (dr_tree r) = true /\ x = dr_end r).
  Lemma first_in_poss r x : In r rules -> first_in r x -> In x (dr_poss r).
  Proof.
    intros Hr [H|[_ ->]]; [|left; auto]. right.
    apply firstpos_poss; auto. apply ro_pure with (1 := rok r Hr).
  Qed.
  Lemma root_In x : In x (firstpos root) <-> exists r, In r rules /\ first_in r x.
  Proof.
    destruct RT as (_ & vs & E & F). rewrite E. clear E RO RT. induction F as [|r v rs vs [_ H] HF IH]; cbn.
    - split; [intros []|intros (r & [] & _)].
    - rewrite in_app_iff, H, IH. split.
      + intros [Hx|(r' & Hr' & Hx)]; [exists r; auto|exists r'; auto].
      + intros (r' & [<-|Hr'] & Hx); [left; auto|right; exists r'; auto].
  Qed.
  Lemma h_root_V : Forall rV (firstpos root).
  Proof.
    apply Forall_forall. intros x Hx. apply root_In in Hx as (r & Hr & Hx). exists r.
    split; [auto|]. now apply first_in_poss.
  Qed.
  Lemma h_root_ne : firstpos root <> [].
  Proof.
    destruct RT as (Hn & vs & E & F). rewrite E. destruct F as [|r v rs vs [Hv _] HF]; [congruence|].
    cbn. destruct v; [congruence|discriminate].
  Qed.
  Lemma h_root_sorted : rksorted rrk (firstpos root).
  Proof.
    assert (G : forall v, (forall i j p q, (i < j)%nat -> nth_error v i = Some p ->
      nth_error v j = Some q -> (rrk p <= rrk q)%nat) -> rksorted rrk v).
    { induction v as [|p v IH]; intros H; constructor.
      - apply IH. intros i j a b Hij. apply (H (S i) (S j)). lia.
      - apply Forall_forall. intros q Hq. apply In_nth_error in Hq as (j & Ej).
        apply (H O (S j)); auto. lia. }
    destruct RT as (_ & vs & E & F). rewrite E.
    assert (X : forall i v, nth_error vs i = Some v -> forall x, In x v -> rrk x = i).
    { intros i v Ev x Hx.
      assert (Y : forall rs vs', Forall2 (fun r v => v <> [] /\ forall x, In x v <-> In x (firstpos (dr_tree r)) \/
               (nullable (dr_tree r) = true /\ x = dr_end r)) rs vs' -> forall i v,
               nth_error vs' i = Some v -> exists r, nth_error rs i = Some r /\
               forall x, In x v <-> first_in r x).
      { induction 1 as [|r0 v1 rs vs' [_ H] HF IH]; intros j w Ew; [destruct j; discriminate|].
        destruct j as [|j]; cbn in Ew.
        - injection Ew as <-. exists r0. split; [auto|]. exact H.
        - apply IH; auto. }
      destruct (Y _ _ F i v Ev) as (r & Er & Hr). apply Hr in Hx.
      eapply rule_idx_eq; [eauto|]. apply first_in_poss; [eapply nth_error_In; eauto|auto]. }
    clear E F. revert X.
    assert (Z : forall base vs, (forall i v, nth_error vs i = Some v -> forall x, In x v -> rrk x = (base + i)%nat) ->
      rksorted rrk (concat vs) /\ forall x, In x (concat vs) -> (base <= rrk x)%nat).
    { clear vs. intros base vs; revert base. induction vs as [|v vs IH]; intros base X; cbn.
      - split; [constructor|intros ? []].
      - destruct (IH (S base)) as [I1 I2].
        { intros i w Ew x Hx. rewrite (X (S i) w Ew x Hx). lia. }
        assert (Xv : forall x, In x v -> rrk x = base).
        { intros x Hx. rewrite (X O v eq_refl x Hx). lia. }
        split.
        + clear X IH. induction v as [|y v IHv]; cbn; [auto|]. constructor.
          * apply IHv. intros x Hx. apply Xv. right; auto.
          * apply Forall_forall. intros x Hx. rewrite (Xv y) by (left; auto).
            apply in_app_or in Hx as [Hx|Hx]; [rewrite (Xv x) by (right; auto); lia|].
            apply I2 in Hx. lia.
        + intros x Hx. apply in_app_or in Hx as [Hx|Hx]; [rewrite (Xv x Hx); lia|].
          apply I2 in Hx. lia. }
    intros X. apply (Z O vs). exact X.
  Qed.

  (** ** Paths to the end of a rule *)
  Lemma path_suf r : In r rules -> forall w p, In p (dr_poss r) ->
    (path k m s p w (dr_end r) <->
     (p = dr_end r /\ w = []) \/ suf (token_sem k m) (dr_tree r) w p).
  Proof.
    intros Hr. assert (OK := rok r Hr). assert (PU := ro_pure _ _ _ _ OK).
    assert (SP : forall w p, suf (token_sem k m) (dr_tree r) w p -> In p (poss (dr_tree r))).
    { intros w p H. destruct w as [|a w]; [destruct H|]. destruct H as ((t & H & _) & _).
      eapply leaf_poss; eauto. }
    induction w as [|a w IH]; intros p Hp.
    - cbn. split; [auto|]. intros [[H _]|[]]; auto.
    - cbn [path suf]. split.
      + intros ((t & g & f & E & Hs) & p' & (t' & g' & f' & E' & Hf) & P).
        rewrite E in E'. injection E' as <- <- <-. right.
        destruct Hp as [<-|Hp]; [rewrite (ro_end _ _ _ _ OK) in E; discriminate|].
        apply poss_leaf in Hp as (t' & Hl). destruct (ro_leaf _ _ _ _ OK _ _ Hl) as (g' & f' & E' & HF).
        rewrite E in E'. injection E' as <- <- <-. split; [exists t; auto|].
        apply HF in Hf as [Hf|[Hf ->]].
        * right. exists p'. split; [auto|].
          assert (Pq := proj2 (fol_poss _ _ _ PU Hf)).
          apply IH in P as [[-> ->]|P]; [|auto|right; auto].
          exfalso. eapply end_not_poss; eauto.
        * left. split; [|auto]. apply IH in P as [[_ ->]|P]; [auto| |left; auto].
          exfalso. apply SP in P. eapply end_not_poss; eauto.
      + intros [[_ H]|((t & Hl & Hs) & H)]; [discriminate|].
        destruct (ro_leaf _ _ _ _ OK _ _ Hl) as (g & f & E & HF).
        split; [exists t, g, f; auto|]. destruct H as [[-> Hla]|(q & Hq & P)].
        * exists (dr_end r). split; [|reflexivity]. exists t, g, f. split; [auto|]. apply HF. auto.
        * exists q. split; [exists t, g, f; split; [auto|]; apply HF; auto|].
          apply IH; [|auto]. right. eapply SP; eauto.
  Qed.
  Lemma path_rk w : forall p q, rV p -> path k m s p w q -> rrk q = rrk p.
  Proof.
    induction w as [|a w IH]; intros p q Hp P; cbn in P.
    - now subst.
    - destruct P as (_ & p' & (t & g & f & E & Hf) & P).
      destruct (h_follow p t g f Hp E) as [F1 F2]. rewrite Forall_forall in F1, F2.
      rewrite (IH p' q); auto.
  Qed.
  Theorem path_lang r w : In r rules ->
    ((exists p, In p (firstpos root) /\ path k m s p w (dr_end r)) <-> dr_lang k m r w).
  Proof.
    intros Hr. assert (OK := rok r Hr). unfold dr_lang.
    rewrite (glushkov (token_sem k m) (dr_tree r) w (ro_pure _ _ _ _ OK) (ro_nodup _ _ _ _ OK)).
    unfold auto. split.
    - intros (p & Hp & P). apply root_In in Hp as (r' & Hr' & Hp).
      assert (Hpp := first_in_poss r' p Hr' Hp).
      assert (r' = r).
      { apply In_nth_error in Hr as Hi. destruct Hi as (i & Ei).
        apply In_nth_error in Hr' as Hj. destruct Hj as (j & Ej).
        assert (rrk (dr_end r) = rrk p) by (eapply path_rk; [exists r'; eauto|eauto]).
        rewrite (rule_idx_eq j r' p Ej Hpp) in H.
        rewrite (rule_idx_eq i r (dr_end r) Ei) in H by (left; auto). congruence. }
      subst r'. apply path_suf in P as [[-> ->]|P]; auto.
      + destruct Hp as [Hp|[Hn _]]; [|auto].
        exfalso. eapply end_not_poss; eauto. apply firstpos_poss; auto. apply OK.
      + destruct Hp as [Hp|[_ ->]]; [right; eauto|]. exfalso.
        destruct w as [|a w]; [destruct P|]. destruct P as ((t & H & _) & _).
        eapply end_not_poss; eauto. eapply leaf_poss; eauto.
    - intros [[-> Hn]|(p & Hp & P)].
      + exists (dr_end r). split; [|reflexivity]. apply root_In. exists r. split; [auto|]. right. auto.
      + exists p. split; [apply root_In; exists r; split; [auto|left; auto]|].
        apply path_suf; auto. right. apply firstpos_poss; auto. apply OK.
  Qed.

  (** ** The table *)
  Variables (lk : list N) (sm : list (list N)) (n wd : nat) (d : dstate).
  Hypothesis AL : alphabet m lk sm n.
  Hypothesis Hnw : (n + 7 <= wd)%nat.
  Hypothesis Hn : N.of_nat wd <= gnpos k.
  Hypothesis PI : plain_inv k fl s root used rV rrk sm wd d.
  Let t := {| t_lookup := lk; t_width := N.of_nat wd; t_dfa := concat (d_rows d) |}.

  Let B := i_b _ _ _ _ _ _ _ _ _ _ _ _ _ PI.

  (** [v] is the set of positions reached by [w]. *)
  Definition reached (w : list sym) (v : list nat) : Prop :=
    forall q, In q v <-> exists p, In p (firstpos root) /\ path k m s p w q.
  Lemma reached_end w v i : nth_error (d_seen d) i = Some v -> reached w v ->
    match first_end s v with
    | Some e => exists r, first_rule k m rules w r /\ e = dr_info r
    | None => forall r, In r rules -> ~ dr_lang k m r w
    end.
  Proof.
    intros Ev HR. assert (Hv := b_V _ _ _ _ _ _ _ B _ _ Ev). rewrite Forall_forall in Hv.
    assert (Hs := b_sorted _ _ _ _ _ _ _ B _ _ Ev).
    destruct (first_end s v) as [e|] eqn:Ee.
    - apply first_end_min with (rk := rrk) in Ee as (p & Hp & Ep & Hmin); auto.
      destruct (h_end p e (Hv p Hp) Ep) as (i0 & r & Er & -> & -> & Ri). exists r. split; [|auto].
      exists i0. split; [auto|]. split.
      + apply path_lang; [eapply nth_error_In; eauto|]. now apply HR.
      + intros j' r' Hj' Er' HL'. assert (Hr' := nth_error_In _ _ Er').
        apply path_lang in HL'; auto. apply HR in HL'.
        specialize (Hmin (dr_end r') (dr_info r') HL' (ro_end _ _ _ _ (rok r' Hr'))).
        rewrite (rule_idx_eq j' r' (dr_end r') Er') in Hmin by (left; auto). lia.
    - intros r Hr HL'. apply path_lang in HL'; auto. apply HR in HL'.
      rewrite first_end_none in Ee. apply (Ee (dr_end r) (dr_info r) HL').
      apply (ro_end _ _ _ _ (rok r Hr)).
  Qed.

  Lemma h_VL : forall p tk g f, rV p -> nth_error s p = Some (PLeaf tk g f) ->
      tk <> gnpos k /\ (special k tk \/ (exists l, nth_error sm (N.to_nat tk) = Some l)) /\
      StronglySorted N.lt (cset k sm tk) /\ cset k sm tk <> [] /\
      (special k tk \/ (forall c, In c (cset k sm tk) -> (N.to_nat c + 7 < wd)%nat)) /\
      Forall rV f /\ Forall (fun q => rrk q = rrk p) f.
  Proof.
    intros. eapply plain_leaf with (m := m) (lk := lk) (n := n) (w := wd) (V := rV) (rk := rrk);
        eauto using h_WV, h_lt, h_tok, h_Wtok, h_follow, h_inj, h_root_V, h_root_ne, h_root_sorted.
  Qed.
  Lemma no_lazy_ok : no_lazy s rules -> no_abstain k s sm d.
  Proof.
    intros H i v c g f Ev T. assert (Hv := b_V _ _ _ _ _ _ _ B _ _ Ev).
    assert (Hs := b_sorted _ _ _ _ _ _ _ B _ _ Ev).
    assert (TS := tval_spec k s sm wd rV rW rrk (fun f => f) h_VL v c Hv Hs). rewrite T in TS.
    destruct TS as (_ & _ & _ & _ & TS & _). unfold abstains.
    rewrite Forall_forall in Hv. destruct H as [H|H].
    - assert (g <> GNo).
      { apply TS. intros p g' Hp _ (tk & f' & E). destruct (Hv p Hp) as (r & Hr & [<-|Hpp]).
        - rewrite (ro_end _ _ _ _ (rok r Hr)) in E. discriminate.
        - eapply H; eauto. }
      destruct g; [congruence| |]; cbn; now rewrite !andb_false_r.
    - unfold cell0. destruct (first_end s v) as [e|] eqn:Ee; [|reflexivity].
      apply first_end_min with (rk := rrk) in Ee as (p & Hp & Ep & _); auto.
      destruct (h_end p e (Hv p Hp) Ep) as (i0 & r & Er & -> & -> & _).
      assert (G := H r (nth_error_In _ _ Er)). unfold end_bits.
      destruct (e_greedy (dr_info r)); [congruence| |]; destruct (e_pop (dr_info r)); reflexivity.
  Qed.

  Ltac hyps := eauto using h_WV, h_lt, h_tok, h_Wtok, h_follow, h_inj, h_root_V, h_root_ne, h_root_sorted.

  Lemma root_reached : exists v, nth_error (d_seen d) 0 = Some v /\ reached [] v.
  Proof.
    destruct (i_start _ _ _ _ _ _ _ _ _ _ _ _ _ PI) as (v & Ev & Hv). exists v. split; [auto|].
    intros q. rewrite (Hv q). cbn. split; [eauto|]. intros (p & Hp & ->). auto.
  Qed.
  Lemma reached_app w bs v v' : reached w v ->
    (forall q, In q v' <-> exists p, In p v /\ path k m s p bs q) -> reached (w ++ bs) v'.
  Proof.
    assert (PA : forall w bs p q, path k m s p (w ++ bs) q <->
       exists x, path k m s p w x /\ path k m s x bs q).
    { induction w0 as [|a w0 IH]; intros bs0 p q; cbn.
      - split; [eauto|]. intros (x & -> & H). auto.
      - split.
        + intros (Hs & p' & Hf & P). apply IH in P as (x & P1 & P2). exists x. split; [|auto].
          split; [auto|]. eauto.
        + intros (x & (Hs & p' & Hf & P1) & P2). split; [auto|]. exists p'. split; [auto|].
          apply IH. eauto. }
    intros H1 H2 q. rewrite H2. split.
    - intros (x & Hx & P). apply H1 in Hx as (p & Hp & P1). exists p. split; [auto|]. apply PA. eauto.
    - intros (p & Hp & P). apply PA in P as (x & P1 & P2). exists x. split; [|auto]. apply H1. eauto.
  Qed.

  Lemma from_row_state row0 w0 : from_row t row0 w0 ->
    exists i v, row0 = N.of_nat (S i) /\ nth_error (d_seen d) i = Some v /\ reached w0 v.
  Proof.
    destruct root_reached as (v & Ev & HR). intros [[-> ->]|(E & Hne & ->)].
    - exists O, v. auto.
    - destruct (start_bol k fl s root m used rV rrk) with (lk := lk) (sm := sm) (n := n) (w := wd) (d := d) (v := v)
        as (_ & S2 & _); hyps.
      destruct (S2 row0 E Hne) as (i' & v' & -> & Ev' & Hv'). exists i', v'. split; [auto|]. split; [auto|].
      apply (reached_app [] [SBol] v v' HR). intros q. rewrite Hv'. unfold next_set. cbn. split.
      + intros (p & Hp & H1 & H2). exists p. split; [auto|]. split; [auto|]. exists q. auto.
      + intros (p & Hp & H1 & x & H2 & ->). exists p. auto.
  Qed.

  Theorem dfa_sound row0 w0 bs row : from_row t row0 w0 -> Forall line_sym bs ->
    swalk t row0 bs row ->
    (accepting t row -> exists r, first_rule k m rules (w0 ++ bs) r /\ row_data t row (dr_info r)) /\
    (~ accepting t row -> forall r, In r rules -> ~ dr_lang k m r (w0 ++ bs)).
  Proof.
    intros HF Hb Hw. apply from_row_state in HF as (i & v & -> & Ev & HR).
    destruct (swalk_sound k fl s root m used rV rrk) with (lk := lk) (sm := sm) (n := n) (w := wd) (d := d)
      (u := bs) (i := i) (v := v) (row := row) as (i' & v' & -> & Ev' & Hv'); hyps.
    assert (HR' := reached_app _ _ _ _ HR Hv').
    assert (E := reached_end _ _ _ Ev' HR').
    assert (A := row_accepts k fl s root m used rV rrk HL h_lt h_tok h_follow h_inj lk sm n wd d Hnw Hn PI i' v' Ev').
    destruct (first_end s v') as [e|].
    - destruct E as (r & Hr & ->). split.
      + intros _. exists r. auto.
      + intros Hna. exfalso. apply Hna. eapply row_data_accepts; eauto.
    - split; [|auto]. intros Ha. exfalso. apply (proj2 A). exact Ha.
  Qed.
  Theorem dfa_complete row0 w0 bs r : no_lazy s rules -> from_row t row0 w0 ->
    Forall line_sym bs -> In r rules -> dr_lang k m r (w0 ++ bs) ->
    exists row, swalk t row0 bs row /\ accepting t row.
  Proof.
    intros NL HF Hb Hr HL'. assert (HF' := HF).
    apply from_row_state in HF as (i & v & -> & Ev & HR).
    apply path_lang in HL' as (p & Hp & P); auto.
    assert (X : exists x, In x v /\ path k m s x bs (dr_end r)).
    { assert (PA : forall w bs p q, path k m s p (w ++ bs) q ->
         exists x, path k m s p w x /\ path k m s x bs q).
      { induction w as [|a w IH]; intros bs0 p0 q0 P0; cbn in P0.
        - exists p0. split; [reflexivity|auto].
        - destruct P0 as (Hs & p' & Hf & P'). apply IH in P' as (x & P1 & P2). exists x. split; [|auto].
          cbn. split; [auto|]. eauto. }
      apply PA in P as (x & P1 & P2). exists x. split; [|auto]. apply HR. eauto. }
    destruct X as (x & Hx & Px).
    destruct (swalk_complete k fl s root m used rV rrk) with (lk := lk) (sm := sm) (n := n) (w := wd) (d := d)
      (u := bs) (i := i) (v := v) (p := x) (q := dr_end r) as (row & Hw); hyps.
    { now apply no_lazy_ok. }
    exists row. split; [exact Hw|].
    destruct (swalk_sound k fl s root m used rV rrk) with (lk := lk) (sm := sm) (n := n) (w := wd) (d := d)
      (u := bs) (i := i) (v := v) (row := row) as (i' & v' & -> & Ev' & Hv'); hyps.
    assert (A := row_accepts k fl s root m used rV rrk HL h_lt h_tok h_follow h_inj lk sm n wd d Hnw Hn PI i' v' Ev').
    destruct (first_end s v') as [e|] eqn:Ee.
    - eapply row_data_accepts; eauto.
    - exfalso. rewrite first_end_none in Ee. apply (Ee (dr_end r) (dr_info r)).
      + apply Hv'. eauto.
      + apply (ro_end _ _ _ _ (rok r Hr)).
  Qed.
  (** There is no row for the beginning of a line only if no rule starts there. *)
  Theorem dfa_bol : (exists b, cell t 0 0 = Some b) /\
    (no_lazy s rules -> cell t 0 0 = Some 0 ->
     forall r w, In r rules -> ~ dr_lang k m r (SBol :: w)).
  Proof.
    destruct root_reached as (v & Ev & HR).
    destruct (start_bol k fl s root m used rV rrk) with (lk := lk) (sm := sm) (n := n) (w := wd) (d := d) (v := v)
        as (S1 & _ & S3); hyps.
    split; [exact S1|]. intros NL E r w Hr HL'. apply path_lang in HL' as (p & Hp & P); auto.
    cbn in P. destruct P as (H1 & x & H2 & _).
    destruct (S3 E) as [H|(g & f & T & A)].
    - apply (H x). exists p. split; [|auto]. apply HR. exists p. split; [auto|]. reflexivity.
    - rewrite (no_lazy_ok NL O v _ g f Ev T) in A. discriminate.
  Qed.

  (** Where a transition is dropped the first rule is abstemious. *)
  Lemma abstains_lazy w i v g : nth_error (d_seen d) i = Some v -> reached w v ->
    abstains (cell0 s v) g = true -> lazy_at k m rules w.
  Proof.
    intros Ev HR A. assert (E := reached_end _ _ _ Ev HR). unfold cell0, abstains in A.
    destruct (first_end s v) as [e|]; [|discriminate]. destruct E as (r & Hr & ->). exists r. split; [auto|].
    apply andb_true_iff in A as [A _]. apply andb_true_iff in A as [_ A]. unfold end_bits in A.
    destruct (e_greedy (dr_info r)); [reflexivity| |]; destruct (e_pop (dr_info r)); discriminate.
  Qed.
  Lemma path_split u u' p q : path k m s p (u ++ u') q -> exists x, path k m s p u x /\ path k m s x u' q.
  Proof.
    revert p. induction u as [|a u IH]; intros p P; cbn in P.
    - exists p. split; [reflexivity|auto].
    - destruct P as (Hs & p' & Hf & P'). apply IH in P' as (x & P1 & P2). exists x. split; [|auto].
      cbn. split; [auto|]. eauto.
  Qed.
  Theorem dfa_stop row0 w0 w row a w' r : from_row t row0 w0 -> Forall line_sym w -> swalk t row0 w row ->
    line_sym a -> In r rules -> dr_lang k m r (w0 ++ w ++ a :: w') ->
    (exists row1, swalk t row [a] row1) \/ lazy_at k m rules (w0 ++ w).
  Proof.
    intros HF Hw Hwk Ha Hr HL'. apply from_row_state in HF as (i & v & -> & Ev & HR).
    destruct (swalk_sound k fl s root m used rV rrk) with (lk := lk) (sm := sm) (n := n) (w := wd) (d := d)
      (u := w) (i := i) (v := v) (row := row) as (i' & v' & -> & Ev' & Hv'); hyps.
    assert (HR' := reached_app _ _ _ _ HR Hv').
    apply path_lang in HL' as (p & Hp & P); auto. rewrite app_assoc in P. apply path_split in P as (x & P1 & P2).
    assert (Hx : In x v') by (apply HR'; eauto). cbn [path] in P2. destruct P2 as (Hs & p1 & Hf & P3).
    destruct a as [b| |]; [|destruct Ha|].
    - destruct (al_col _ _ _ _ AL b Ha) as (col & Ecol & _).
      assert (Hc : column t b = Some col) by exact Ecol.
      destruct (step_byte k fl s root m used rV rrk) with (lk := lk) (sm := sm) (n := n) (w := wd) (d := d)
        (i := i') (v := v') (b := b) (col := col) as (S1 & (y & Ey) & S3); hyps.
      destruct (N.eq_dec y 0) as [->|Hy].
      + destruct (S3 Ey) as [H|(g & f & T & _ & _ & A)].
        * exfalso. apply (H p1). exists x. auto.
        * right. eapply abstains_lazy; eauto.
      + left. exists y. eapply sw_byte; eauto. constructor.
    - destruct (step_eol k fl s root m used rV rrk) with (lk := lk) (sm := sm) (n := n) (w := wd) (d := d)
        (i := i') (v := v') as ((y & Ey) & S1 & S3); hyps.
      destruct (N.eq_dec y 0) as [->|Hy].
      + destruct (S3 Ey) as [H|(g & f & T & A)].
        * exfalso. apply (H p1). exists x. auto.
        * right. eapply abstains_lazy; eauto.
      + left. exists y. eapply sw_eol; eauto. constructor.
  Qed.
  Theorem dfa_bol_stop r w : cell t 0 0 = Some 0 -> In r rules -> dr_lang k m r (SBol :: w) -> lazy_at k m rules [].
  Proof.
    intros E Hr HL'. destruct root_reached as (v & Ev & HR).
    destruct (start_bol k fl s root m used rV rrk) with (lk := lk) (sm := sm) (n := n) (w := wd) (d := d) (v := v)
        as (S1 & _ & S3); hyps.
    apply path_lang in HL' as (p & Hp & P); auto. cbn in P. destruct P as (H1 & x & H2 & _).
    destruct (S3 E) as [H|(g & f & T & A)].
    - exfalso. apply (H x). exists p. split; [|auto]. apply HR. exists p. split; [auto|]. reflexivity.
    - eapply abstains_lazy; eauto.
  Qed.

  (** The start row for the beginning of a line is there for a rule that can begin
      with the marker. *)
  Theorem bol_leaf b : cell t 0 0 = Some b -> b <> 0 ->
    exists r p, In r rules /\ In p (firstpos (dr_tree r)) /\ In (p, bol_tok k) (leaves (dr_tree r)).
  Proof.
    intros E Hb. destruct (from_row_state b [SBol]) as (i & v & -> & Ev & HR); [right; auto|].
    assert (NE := b_ne _ _ _ _ _ _ _ B _ _ Ev). destruct v as [|q v]; [congruence|].
    destruct (proj1 (HR q) (or_introl eq_refl)) as (p & Hp & (tk & g & f & Et & Es) & _).
    cbn in Es. subst tk. assert (HV := h_root_V). rewrite Forall_forall in HV.
    destruct (h_leaf p _ _ _ (HV p Hp) Et) as (r & Hr & Hl & _).
    apply root_In in Hp as (r' & Hr' & Hp).
    assert (r' = r) as ->.
    { apply In_nth_error in Hr as (x & Ex), Hr' as (y & Ey).
      assert (x = y).
      { eapply RO; eauto; [right; eapply leaf_poss; eauto|]. apply first_in_poss; auto.
        eapply nth_error_In; eauto. }
      congruence. }
    exists r, p. split; [auto|]. split; [|auto]. destruct Hp as [Hp|[_ ->]]; [auto|].
    exfalso. apply (end_not_poss r Hr). eapply leaf_poss; eauto.
  Qed.

  Lemma rd_special p c : rV p -> rd k s sm p c -> special k c ->
    exists g f, nth_error s p = Some (PLeaf c g f).
  Proof.
    intros Hp (tk & g & f & E & Hc) HS. assert (VL := h_VL p tk g f Hp E).
    destruct VL as (_ & _ & _ & _ & [[->| ->]|HC] & _).
    - unfold cset in Hc. rewrite N.eqb_refl in Hc. destruct Hc as [<-|[]]. eauto.
    - unfold cset in Hc. rewrite N.eqb_refl, orb_true_r in Hc. destruct Hc as [<-|[]]. eauto.
    - apply HC in Hc. exfalso. destruct HS as [->| ->]; unfold bol_tok, eol_tok in *; lia.
  Qed.
  Lemma tval_eol v : eolless k rules -> Forall rV v -> rksorted rrk v -> tval k s sm v (eol_tok k) = None.
  Proof.
    intros EL Hv Hs.
    assert (TS := tval_spec k s sm wd rV rW rrk (fun f => f) h_VL v (eol_tok k) Hv Hs).
    destruct (tval k s sm v (eol_tok k)) as [(g, f)|] eqn:T; [|auto].
    exfalso.
    assert (EX : exists p, In p v /\ rd k s sm p (eol_tok k)).
    { apply TS. }
    destruct EX as (p & Hp & HR). rewrite Forall_forall in Hv.
    apply rd_special in HR as (g' & f' & E); [|auto|right; auto].
    destruct (h_leaf p _ _ _ (Hv p Hp) E) as (r & Hr & Hl & _). eapply EL; eauto.
  Qed.
  Lemma eol_none v : eolless k rules -> Forall rV v -> rksorted rrk v ->
    tgt k s sm (fun f => f) v (eol_tok k) = None.
  Proof. intros EL Hv Hs. unfold tgt. now rewrite tval_eol. Qed.

  (** Every state is reached by some text. *)
  Definition texty (w : list sym) : Prop :=
    exists bs, Forall (fun b => b < 256) bs /\ (w = map SByte bs \/ w = SBol :: map SByte bs).
  Definition liney (w : list sym) : Prop :=
    exists u, Forall line_sym u /\ (w = u \/ w = SBol :: u).
  Lemma state_reached : forall i v, nth_error (d_seen d) i = Some v ->
    exists w, liney w /\ (eolless k rules -> texty w) /\ reached w v.
  Proof.
    induction i as [i IH] using (well_founded_induction Wf_nat.lt_wf). intros v Ev.
    destruct i as [|i].
    { destruct root_reached as (v' & Ev' & HR). rewrite Ev in Ev'. injection Ev' as <-.
      exists []. split; [|split; [|auto]].
      - exists []. split; [constructor|left; auto].
      - intros _. exists []. split; [constructor|left; auto]. }
    destruct (i_came _ _ _ _ _ _ _ _ _ _ _ _ _ PI i v Ev) as (j & u & c & g & f & Hj & Eu & Hc & T & Hf & SQ).
    assert (Hu := b_V _ _ _ _ _ _ _ B _ _ Eu). assert (Hs := b_sorted _ _ _ _ _ _ _ B _ _ Eu).
    assert (TS := tval_spec k s sm wd rV rW rrk (fun f => f) h_VL u c Hu Hs). rewrite T in TS.
    destruct TS as ((p0 & Hp0 & Rp0) & _ & _ & TF & _).
    assert (Hu' := Hu). rewrite Forall_forall in Hu'.
    assert (STEP : forall w a, reached w u -> (forall p, In p u -> psem k m s p a <-> rd k s sm p c) ->
      reached (w ++ [a]) v).
    { intros w a HR Ha. apply (reached_app w [a] u v HR). intros q. rewrite (SQ q), (TF q). cbn [path]. split.
      - intros (p & Hp & H). apply nx_char in H as [H1 H2]. exists p. split; [auto|].
        split; [now apply Ha|]. exists q. auto.
      - intros (p & Hp & H1 & x & H2 & <-). exists p. split; [auto|]. apply nx_char. split; [now apply Ha|auto]. }
    destruct (N.eq_dec c (bol_tok k)) as [->|Hnb].
    - destruct j as [|j].
      + destruct root_reached as (u' & Eu' & HR). rewrite Eu in Eu'. injection Eu' as <-.
        exists ([] ++ [SBol]). split; [|split].
        * exists []. split; [constructor|right; auto].
        * intros _. exists []. split; [constructor|right; auto].
        * apply STEP; [auto|]. intros p Hp. symmetry. apply (rd_bol k s m rV rrk) with (lk := lk) (sm := sm) (n := n) (w := wd); hyps.
      + exfalso. assert (Wu := i_W _ _ _ _ _ _ _ _ _ _ _ _ _ PI _ _ Eu).
        rewrite Forall_forall in Wu. apply rd_special in Rp0 as (g' & f' & E); [|auto|left; auto].
        destruct (Wu p0 Hp0) as [_ HX]. eapply HX; eauto.
    - destruct (IH j) with (v := u) as (w & Lw & Tw & HR); [lia|auto|].
      destruct (N.eq_dec c (eol_tok k)) as [->|Hne].
      + exists (w ++ [SEol]). split; [|split].
        * destruct Lw as (bs & Hbs & Hw). exists (bs ++ [SEol]).
          split; [apply Forall_app; split; [auto|repeat constructor]|].
          destruct Hw as [->| ->]; [left|right]; reflexivity.
        * intros EL. rewrite tval_eol in T by auto. discriminate.
        * apply STEP; [auto|]. intros p Hp. symmetry. apply (rd_eol k s m rV rrk) with (lk := lk) (sm := sm) (n := n) (w := wd); hyps.
      + destruct (N.ltb_spec c (N.of_nat n)) as [Hcn|Hcn].
        2:{ exfalso. destruct Rp0 as (tk & g' & f' & E & Hi).
            destruct (h_tok p0 tk g' f' (Hu' p0 Hp0) E) as [->|[->|(tt & Ht)]].
            - unfold cset in Hi. rewrite N.eqb_refl in Hi. destruct Hi as [<-|[]]. congruence.
            - unfold cset in Hi. rewrite N.eqb_refl, orb_true_r in Hi. destruct Hi as [<-|[]]. congruence.
            - destruct (cset_ord k m HM HL lk sm n AL tk tt Ht) as (l & El & Ec). rewrite Ec in Hi.
              assert (R := al_range _ _ _ _ AL _ _ _ El Hi). lia. }
        destruct (al_surj _ _ _ _ AL c Hcn) as (b & Hb & Eb).
        exists (w ++ [SByte b]). split; [|split].
        * destruct Lw as (bs & Hbs & Hw). exists (bs ++ [SByte b]).
          split; [apply Forall_app; split; [auto|repeat constructor; auto]|].
          destruct Hw as [->| ->]; [left|right]; reflexivity.
        * intros EL. destruct (Tw EL) as (bs & Hbs & Hw). exists (bs ++ [b]). split; [apply Forall_app; auto|].
          rewrite map_app. destruct Hw as [->| ->]; [left|right]; reflexivity.
        * apply STEP; [auto|]. intros p Hp.
          rewrite (psem_byte k s m rV rrk) with (lk := lk) (sm := sm) (n := n) (w := wd) (d := d) (col := c + ix_trans); hyps.
          unfold ix_trans. split.
          -- intros (c' & E & H). replace c with c' by lia. auto.
          -- intros H. exists c. auto.
  Qed.

  (** The ids recorded for the check of suppressed rules: rules that come first
      for some text. *)
  Theorem used_sound u : In u (d_used d) -> In u used \/
    (suppressed_ok fl = false /\ exists w r, liney w /\ (eolless k rules -> texty w) /\
       first_rule k m rules w r /\ e_unique (dr_info r) = u).
  Proof.
    intros H. apply (b_used _ _ _ _ _ _ _ B) in H as [H|(Hs & i & v & e & Ev & Ee & <-)]; [auto|].
    right. split; [auto|]. destruct (state_reached i v Ev) as (w & Lw & Tw & HR). exists w.
    assert (RE := reached_end w v i Ev HR). rewrite Ee in RE. destruct RE as (r & Hr & ->). eauto 10.
  Qed.
  Theorem used_complete w r : no_lazy s rules -> suppressed_ok fl = false -> liney w ->
    first_rule k m rules w r -> In (e_unique (dr_info r)) (d_used d).
  Proof.
    intros NL Hs (bs & Hbs & Hw) HF. apply (b_used _ _ _ _ _ _ _ B). right. split; [auto|].
    assert (Hr : In r rules) by (destruct HF as (j & E & _); eapply nth_error_In; eauto).
    assert (HLr : dr_lang k m r w) by (destruct HF as (j & _ & H & _); auto).
    assert (FR : exists row0 w0, from_row t row0 w0 /\ w = w0 ++ bs).
    { destruct Hw as [->| ->].
      - exists 1, []. split; [left; auto|auto].
      - destruct dfa_bol as ((b & Eb) & D). destruct (N.eq_dec b 0) as [->|Hb].
        + exfalso. eapply (D NL Eb r); eauto.
        + exists b, [SBol]. split; [right; auto|auto]. }
    destruct FR as (row0 & w0 & FR & ->). assert (FR' := FR).
    destruct (dfa_complete row0 w0 bs r NL FR Hbs Hr HLr) as (row & Hwk & Ha).
    apply from_row_state in FR as (i & v & -> & Ev & HR).
    destruct (swalk_sound k fl s root m used rV rrk) with (lk := lk) (sm := sm) (n := n) (w := wd) (d := d)
      (u := bs) (i := i) (v := v) (row := row) as (i' & v' & -> & Ev' & Hv'); hyps.
    assert (HR' := reached_app _ _ _ _ HR Hv').
    assert (RE := reached_end _ _ _ Ev' HR').
    assert (A := row_accepts k fl s root m used rV rrk HL h_lt h_tok h_follow h_inj lk sm n wd d Hnw Hn PI i' v' Ev').
    destruct (first_end s v') as [e|] eqn:Ee; [|exfalso; apply (proj2 A); auto].
    destruct RE as (r' & Hr' & ->). exists i', v', (dr_info r'). split; [auto|]. split; [auto|].
    f_equal. destruct HF as (j & E1 & E2 & E3), Hr' as (j' & E1' & E2' & E3').
    assert (j = j') as <-.
    { destruct (Nat.lt_trichotomy j j') as [Hlt|[?|Hlt]]; [|auto|].
      - exfalso. eapply E3'; eauto.
      - exfalso. eapply E3; eauto. }
    congruence.
  Qed.
End Rules.
