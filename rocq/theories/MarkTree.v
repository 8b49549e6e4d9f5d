(** The trees that the parser builds read the marked words with the marks at
    positions whose greediness is [GHard]. *)
From Verif Require Import Base Tree RegexSpec TreeSpec Glushkov TreeProofs EolFix MarkSpec MarkWords.
From Coq Require Import Lia.

Definition hard (s : store) (p : nat) : Prop := exists t f, nth_error s p = Some (PLeaf t GHard f).
Definition hmono (s s' : store) : Prop := forall p, hard s p -> hard s' p.
Lemma hmono_refl s : hmono s s. Proof. intros p H. exact H. Qed.
Lemma hmono_trans a b c : hmono a b -> hmono b c -> hmono a c.
Proof. intros H1 H2 p H. auto. Qed.

(** ** The store operations keep what is hard *)
Lemma append_follow_hard fs s p : hmono s (append_follow fs s p).
Proof.
  intros q (t & f & E). unfold append_follow. destruct (nth_error s p) as [[t0 g0 f0|]|] eqn:E0; try (now exists t, f).
  destruct (Nat.eq_dec p q) as [->|Hn].
  - rewrite E0 in E. injection E as -> -> ->. exists t, (f ++ fs). apply nth_error_upd_eq.
    apply nth_error_Some. congruence.
  - exists t, f. rewrite nth_error_upd_neq; auto.
Qed.
Lemma append_follows_hard s ps fs s' : append_follows s ps fs = Ok s' -> hmono s s'.
Proof.
  unfold append_follows. destruct (forallb _ _); [|discriminate]. intros E. injection E as <-.
  revert s. induction ps as [|p ps IH]; cbn; intros s; [apply hmono_refl|].
  eapply hmono_trans; [apply append_follow_hard|apply IH].
Qed.
Lemma set_greedy_hard g s p : hmono s (set_greedy g s p).
Proof.
  intros q (t & f & E). unfold set_greedy. destruct (nth_error s p) as [[t0 g0 f0|]|] eqn:E0; try (now exists t, f).
  destruct (Nat.eq_dec p q) as [->|Hn].
  - rewrite E0 in E. injection E as -> -> ->. exists t, f. apply nth_error_upd_eq.
    apply nth_error_Some. congruence.
  - exists t, f. rewrite nth_error_upd_neq; auto.
Qed.
Lemma fold_greedy_hard g ps : forall s, hmono s (fold_left (set_greedy g) ps s).
Proof.
  induction ps as [|p ps IH]; cbn; intros s; [apply hmono_refl|].
  eapply hmono_trans; [apply set_greedy_hard|apply IH].
Qed.
Lemma set_greedies_hard s ps g s' : set_greedies s ps g = Ok s' -> hmono s s'.
Proof.
  unfold set_greedies. destruct (forallb _ _); [|discriminate]. intros E. injection E as <-. apply fold_greedy_hard.
Qed.
Lemma is_leaf_set g s p q : is_leaf s q = true -> is_leaf (set_greedy g s p) q = true.
Proof.
  unfold is_leaf, set_greedy. destruct (nth_error s p) as [[t0 g0 f0|]|] eqn:E0; auto.
  destruct (Nat.eq_dec p q) as [->|Hn].
  - intros _. rewrite nth_error_upd_eq; [auto|]. apply nth_error_Some. congruence.
  - now rewrite nth_error_upd_neq.
Qed.
Lemma set_greedies_made s ps s' : set_greedies s ps GHard = Ok s' -> forall p, In p ps -> hard s' p.
Proof.
  unfold set_greedies. destruct (forallb _ _) eqn:F; [|discriminate]. intros E. injection E as <-.
  assert (F' : forall p, In p ps -> is_leaf s p = true) by (now apply forallb_forall). clear F.
  revert s F'. induction ps as [|q ps IH]; cbn; intros s F p; [tauto|]. intros [<-|Hp].
  - apply fold_greedy_hard. pose proof (F q (or_introl eq_refl)) as L. unfold is_leaf in L.
    unfold set_greedy. destruct (nth_error s q) as [[t g f|]|] eqn:E0; try discriminate.
    exists t, f. rewrite nth_error_upd_eq; [destruct g; reflexivity|]. apply nth_error_Some. congruence.
  - apply IH; auto. intros r Hr. apply is_leaf_set. auto.
Qed.
Lemma app_hard s x : hmono s (s ++ x).
Proof. intros p (t & f & E). exists t, f. rewrite nth_error_app1; [auto|]. apply nth_error_Some. congruence. Qed.
Lemma mk_seq_hard l r s n s' : mk_seq l r s = Ok (n, s') -> n = NSeq l r /\ hmono s s'.
Proof.
  unfold mk_seq. intros E. apply bind_ok in E as (x & E & Ex). injection Ex as <- <-.
  split; [auto|]. eapply append_follows_hard; eauto.
Qed.
Lemma mk_iter_hard m g s n s' : mk_iter m g s = Ok (n, s') ->
  n = NIter m g /\ hmono s s' /\ (g = GHard -> forall p, In p (firstpos m) -> hard s' p).
Proof.
  unfold mk_iter. intros E. apply bind_ok in E as (x & E & Ex). apply bind_ok in Ex as (y & Ey & E').
  injection E' as <- <-. split; [auto|]. split.
  - eapply hmono_trans; [eapply append_follows_hard; eauto|eapply set_greedies_hard; eauto].
  - intros ->. eapply set_greedies_made; eauto.
Qed.

(** ** Marked words of a tree *)
Section Den.
  Context {A : Type}.
  Variable sem : N -> A -> Prop.

  Fixpoint mden (s : store) (n : node) (w : list (A * bool)) : Prop :=
    match n with
    | NNull _ => w = []
    | NLeaf t p => exists a m, w = [(a, m)] /\ sem t a /\ (m = true -> hard s p)
    | NSeq l r => exists u v, w = u ++ v /\ mden s l u /\ mden s r v
    | NSel l r => mden s l w \/ mden s r w
    | NIter n _ => star (mden s n) w
    | NEnd _ => False
    end.

  Lemma star_mono {B} (L M : list B -> Prop) w : (forall u, L u -> M u) -> star L w -> star M w.
  Proof. intros H. induction 1; constructor; auto. Qed.
  Lemma power_mono {B} (L M : list B -> Prop) n : forall w, (forall u, L u -> M u) -> power L n w -> power M n w.
  Proof.
    induction n as [|n IH]; cbn; auto. intros w H (u & v & -> & Hu & Hv). exists u, v. auto.
  Qed.
  Lemma mden_mono s s' n : hmono s s' -> forall w, mden s n w -> mden s' n w.
  Proof.
    intros H. induction n as [g|t p|l IHl r IHr|l IHl r IHr|n IH g|p]; cbn; intros w; auto.
    - intros (a & m & -> & S & M). exists a, m. auto.
    - intros (u & v & -> & Hu & Hv). exists u, v. auto.
    - intros [Hw|Hw]; auto.
    - now apply star_mono.
  Qed.
  Lemma mden_null s n : mden s n [] -> nullable n = true.
  Proof.
    induction n as [g|t p|l IHl r IHr|l IHl r IHr|n IH g|p]; cbn; auto.
    - intros (a & m & E & _). discriminate.
    - intros (u & v & E & Hu & Hv). symmetry in E. apply app_eq_nil in E as [-> ->]. now rewrite IHl, IHr.
    - intros [H|H]; [rewrite IHl|rewrite IHr]; auto. apply orb_true_r.
  Qed.
  (** Marking the first letter. *)
  Lemma mden_mark s n : (forall p, In p (firstpos n) -> hard s p) ->
    forall w, mden s n w -> mden s n (begin_mark w).
  Proof.
    induction n as [g|t p|l IHl r IHr|l IHl r IHr|n IH g|p]; cbn [firstpos mden]; intros H w.
    - intros ->. reflexivity.
    - intros (a & m & -> & S & M). exists a, true. cbn. intuition.
    - intros (u & v & -> & Hu & Hv). destruct u as [|[a m] u].
      + exists [], (begin_mark v). split; [reflexivity|]. split; [auto|]. apply IHr; [|auto].
        intros p Hp. apply H. rewrite (mden_null s l Hu). apply in_or_app. auto.
      + exists (begin_mark ((a, m) :: u)), v. split; [reflexivity|]. split; [|auto]. apply IHl; [|auto].
        intros p Hp. apply H. apply in_or_app. auto.
    - intros [Hw|Hw]; [left; apply IHl|right; apply IHr]; auto; intros p Hp; apply H, in_or_app; auto.
    - intros Hw. apply star_nonempty in Hw as [->|(a & u & v & -> & Hu & Hv)]; [constructor|].
      destruct a as [a m]. change (begin_mark (((a, m) :: u) ++ v)) with (begin_mark ((a, m) :: u) ++ v).
      constructor; [|auto]. apply IH; auto.
    - tauto.
  Qed.

  (** ** Copies *)
  Lemma copy_rec_marks n : forall s n' s', copy_rec n s = Ok (n', s') -> pure n = true ->
    pure n' = true /\ hmono s s' /\ forall w, mden s n w -> mden s' n' w.
  Proof.
    induction n as [g|t p|l IHl r IHr|l IHl r IHr|n IH g|p]; cbn [copy_rec]; intros s n' s' E P.
    - cbn in E. injection E as <- <-. split; [auto|]. split; [apply hmono_refl|auto].
    - cbn in E. destruct (nth_error s p) as [[t0 g f|]|] eqn:Ep; try discriminate. injection E as <- <-.
      split; [auto|]. split; [apply app_hard|]. cbn. intros w (a & m & -> & S & M). exists a, m.
      split; [auto|]. split; [auto|]. intros Hm. destruct (M Hm) as (t1 & f1 & E1).
      rewrite Ep in E1. injection E1 as -> -> ->. exists t, []. rewrite nth_error_app2 by auto.
      now rewrite Nat.sub_diag.
    - apply bind_ok in E as ([l' s1] & E1 & E). apply bind_ok in E as ([r' s2] & E2 & E). cbn [fst snd] in *.
      cbn in P. apply andb_prop in P as [P1 P2]. apply mk_seq_hard in E as [-> H3].
      destruct (IHl _ _ _ E1 P1) as (Q1 & H1 & L1). destruct (IHr _ _ _ E2 P2) as (Q2 & H2 & L2).
      split; [cbn; now rewrite Q1, Q2|]. split; [eapply hmono_trans; [eauto|eapply hmono_trans; eauto]|].
      cbn [mden]. intros w (u & v & -> & Hu & Hv). exists u, v. split; [auto|]. split.
      + eapply mden_mono; [|apply L1; eauto]. eapply hmono_trans; eauto.
      + eapply mden_mono; [eauto|]. apply L2. eapply mden_mono; eauto.
    - apply bind_ok in E as ([l' s1] & E1 & E). apply bind_ok in E as ([r' s2] & E2 & E). cbn [fst snd] in *.
      cbn in P. apply andb_prop in P as [P1 P2]. injection E as <- <-.
      destruct (IHl _ _ _ E1 P1) as (Q1 & H1 & L1). destruct (IHr _ _ _ E2 P2) as (Q2 & H2 & L2).
      split; [cbn; now rewrite Q1, Q2|]. split; [eapply hmono_trans; eauto|].
      cbn [mden]. intros w [Hw|Hw]; [left|right].
      + eapply mden_mono; [|apply L1; eauto]. auto.
      + apply L2. eapply mden_mono; eauto.
    - apply bind_ok in E as ([m s1] & E1 & E). cbn [fst snd] in *. cbn in P.
      apply mk_iter_hard in E as (-> & H3 & _). destruct (IH _ _ _ E1 P) as (Q1 & H1 & L1).
      split; [auto|]. split; [eapply hmono_trans; eauto|].
      cbn [mden]. intros w. apply star_mono. intros u Hu. eapply mden_mono; [eauto|]. auto.
    - discriminate.
  Qed.
  Lemma copy_marks n s n' s' : copy n s = Ok (n', s') -> pure n = true ->
    pure n' = true /\ hmono s s' /\ forall w, mden s n w -> mden s' n' w.
  Proof. intros E P. rewrite copy_is_rec in E by auto. now apply copy_rec_marks. Qed.

  (** ** The operators *)
  Definition ghard (g : greedy) : bool := match g with GHard => true | _ => false end.
  (** The further rounds. *)
  Definition more (L : list (A * bool) -> Prop) (g : greedy) (w : list (A * bool)) : Prop :=
    exists y, L y /\ w = if ghard g then begin_mark y else y.
  Lemma more_mono (L M : list (A * bool) -> Prop) g w : (forall u, L u -> M u) -> more L g w -> more M g w.
  Proof. intros H (y & Hy & ->). exists y. auto. Qed.
  Lemma more_den s n g w : (g = GHard -> forall p, In p (firstpos n) -> hard s p) ->
    more (mden s n) g w -> mden s n w.
  Proof. intros H (y & Hy & ->). destruct g; cbn; auto. apply mden_mark; auto. Qed.

  (** [op] replaces the tree on top by one that reads [F] of its words. *)
  Definition marks_op (op : tstate -> res tstate)
      (F : (list (A * bool) -> Prop) -> list (A * bool) -> Prop) : Prop :=
    forall n ns s st', op (n :: ns, s) = Ok st' -> pure n = true ->
    exists n' s', st' = (n' :: ns, s') /\ pure n' = true /\ hmono s s' /\
      forall w, F (mden s n) w -> mden s' n' w.

  Lemma sequence_marks l r ns s st' : t_sequence (r :: l :: ns, s) = Ok st' ->
    pure l = true -> pure r = true ->
    exists s', st' = (NSeq l r :: ns, s') /\ pure (NSeq l r) = true /\ hmono s s' /\
      forall u v, mden s l u -> mden s r v -> mden s' (NSeq l r) (u ++ v).
  Proof.
    cbn [t_sequence]. intros E P1 P2. apply bind_ok in E as ([n s'] & E & X). injection X as <-.
    apply mk_seq_hard in E as [-> H]. exists s'. split; [auto|]. split; [cbn; now rewrite P1, P2|].
    split; [auto|]. cbn [mden]. intros u v Hu Hv. exists u, v. split; [auto|].
    split; eapply mden_mono; eauto.
  Qed.
  Lemma optional_marks g : marks_op (t_optional g) (fun L w => w = [] \/ more L g w).
  Proof.
    intros n ns s st' E P. cbn [t_optional] in E. apply bind_ok in E as (s' & E & X). injection X as <-.
    exists (NSel n (NNull g)), s'. split; [auto|]. split; [cbn; now rewrite P|].
    pose proof (set_greedies_hard _ _ _ _ E) as H. split; [auto|]. intros w [->|M]; cbn [mden]; [auto|].
    left. apply (more_den s' n g); [intros ->; eapply set_greedies_made; eauto|].
    eapply more_mono; [|eauto]. apply mden_mono; auto.
  Qed.
  Lemma star_marks g : marks_op (t_star g) (fun L => star (more L g)).
  Proof.
    intros n ns s st' E P. cbn [t_star] in E. apply bind_ok in E as ([n' s'] & E & X). injection X as <-.
    apply mk_iter_hard in E as (-> & H & G). exists (NIter n g), s'. split; [auto|]. split; [auto|].
    split; [auto|]. intros w. cbn [mden]. apply star_mono. intros u M.
    apply (more_den s' n g); [auto|]. eapply more_mono; [|eauto]. apply mden_mono; auto.
  Qed.
  Lemma plus_marks g : marks_op (t_plus g) (fun L w => exists u v, w = u ++ v /\ L u /\ star (more L g) v).
  Proof.
    intros n ns s st' E P. cbn [t_plus] in E. apply bind_ok in E as ([c s1] & E1 & E).
    apply bind_ok in E as ([i s2] & E2 & E). apply bind_ok in E as ([q s3] & E3 & X). cbn [fst snd] in *.
    injection X as <-. destruct (copy_marks _ _ _ _ E1 P) as (P1 & H1 & L1).
    apply mk_iter_hard in E2 as (-> & H2 & G2). apply mk_seq_hard in E3 as [-> H3].
    exists (NSeq n (NIter c g)), s3. split; [auto|]. split; [cbn; now rewrite P, P1|].
    split; [eapply hmono_trans; [eauto|eapply hmono_trans; eauto]|].
    intros w (u & v & -> & Hu & Hv). cbn [mden]. exists u, v. split; [auto|]. split.
    - eapply mden_mono; [|exact Hu]. eapply hmono_trans; [eauto|eapply hmono_trans; eauto].
    - eapply star_mono; [|exact Hv]. intros x M. apply (more_den s3 c g).
      + intros Eg p Hp. apply H3. auto.
      + eapply more_mono; [|exact M]. intros y Hy. eapply mden_mono; [|apply L1; exact Hy].
        eapply hmono_trans; eauto.
  Qed.

  Lemma rep_step_marks prev acc ns s p' st' : rep_step prev (acc :: ns, s) = Ok (p', st') ->
    pure prev = true -> pure acc = true ->
    exists acc' s', st' = (acc' :: ns, s') /\ pure p' = true /\ pure acc' = true /\ hmono s s' /\
      (forall w, mden s prev w -> mden s' p' w) /\
      (forall u v, mden s acc u -> mden s prev v -> mden s' acc' (u ++ v)).
  Proof.
    unfold rep_step. cbn [fst snd]. intros E P1 P2. apply bind_ok in E as ([c s1] & E1 & E).
    apply bind_ok in E as (st & E2 & X). cbn [fst snd] in *. injection X as <- <-.
    destruct (copy_marks _ _ _ _ E1 P1) as (Pc & H1 & L1).
    destruct (sequence_marks _ _ _ _ _ E2 P2 P1) as (s2 & -> & P3 & H2 & L2).
    exists (NSeq acc prev), s2. split; [auto|]. split; [auto|]. split; [auto|].
    split; [eapply hmono_trans; eauto|]. split.
    - intros w Hw. eapply mden_mono; eauto.
    - intros u v Hu Hv. apply L2; eapply mden_mono; eauto.
  Qed.
  Lemma rep_steps_marks j : forall prev acc ns s p' st', rep_steps j prev (acc :: ns, s) = Ok (p', st') ->
    pure prev = true -> pure acc = true ->
    exists acc' s', st' = (acc' :: ns, s') /\ pure p' = true /\ pure acc' = true /\ hmono s s' /\
      (forall w, mden s prev w -> mden s' p' w) /\
      (forall u v, mden s acc u -> power (mden s prev) j v -> mden s' acc' (u ++ v)).
  Proof.
    induction j as [|j IH]; cbn [rep_steps]; intros prev acc ns s p' st' E P1 P2.
    - injection E as <- <-. exists acc, s. repeat (split; [auto using hmono_refl|]).
      cbn. intros u v Hu ->. now rewrite app_nil_r.
    - apply bind_ok in E as ([p1 st1] & E1 & E). cbn [fst snd] in E.
      destruct (rep_step_marks _ _ _ _ _ _ E1 P1 P2) as (a1 & s1 & -> & Q1 & Q2 & H1 & L1 & M1).
      destruct (IH _ _ _ _ _ _ E Q1 Q2) as (a2 & s2 & -> & R1 & R2 & H2 & L2 & M2).
      exists a2, s2. split; [auto|]. split; [auto|]. split; [auto|]. split; [eapply hmono_trans; eauto|].
      split; [auto|]. cbn [power]. intros u v Hu (x & y & -> & Hx & Hy). rewrite app_assoc.
      apply M2; [auto|]. eapply power_mono; [|exact Hy]. auto.
  Qed.

  Lemma more_power_opt (L : list (A * bool) -> Prop) m : forall j w, (j <= m)%nat -> power L j w ->
    power (fun w => w = [] \/ L w) m w.
  Proof.
    induction m as [|m IH]; intros j w H P.
    - assert (j = 0)%nat by lia. subst j. exact P.
    - destruct j as [|j].
      + exists [], w. split; [auto|]. split; [auto|]. apply (IH 0%nat); [lia|auto].
      + destruct P as (u & v & -> & Hu & Hv). exists u, v. split; [auto|]. split; [auto|].
        apply (IH j); [lia|auto].
  Qed.
  Lemma power_last {B} (L : list B -> Prop) n w : power L (S n) w ->
    exists u v, w = u ++ v /\ power L n u /\ L v.
  Proof.
    intros H. replace (S n) with (n + 1)%nat in H by lia. apply power_add in H as (u & v & -> & Hu & Hv).
    exists u, v. split; [auto|]. split; [auto|]. now apply power1.
  Qed.

  Definition rmax (min : N) (comma : bool) (max : N) : option N :=
    if comma then (if (max =? 0)%N then None else Some max) else Some min.
  Lemma repeat_marks g min comma max : rep_args min comma max ->
    marks_op (t_repeat g min comma max) (fun L => rounds L (ghard g) min (rmax min comma max)).
  Proof.
    intros HA n ns s st' E P. unfold t_repeat in E.
    destruct ((min =? 1)%N && negb comma) eqn:E1.
    { apply andb_prop in E1 as [E1 E2]. apply N.eqb_eq in E1. subst min.
      apply negb_true_iff in E2. subst comma. injection E as <-.
      exists n, s. split; [auto|]. split; [auto|]. split; [apply hmono_refl|].
      intros w (u & v & j & -> & Pu & Hj & Pv). cbn [rmax] in Hj. assert (j = 0)%nat by lia. subst j.
      cbn in Pv. subst v. rewrite app_nil_r. now apply power1. }
    set (top := if (0 <? min)%N then min else max) in *.
    apply bind_ok in E as (st1 & E0 & E).
    assert (O : exists m s1, st1 = (m :: ns, s1) /\ pure m = true /\ hmono s s1 /\
        forall w, (if (min =? 0)%N then w = [] \/ more (mden s n) g w else mden s n w) -> mden s1 m w).
    { destruct (min =? 0)%N.
      - destruct (optional_marks g n ns s st1 E0 P) as (m & s1 & -> & H1 & H2 & H3). exists m, s1. auto.
      - injection E0 as <-. exists n, s. split; [auto|]. split; [auto|]. split; [apply hmono_refl|auto]. }
    destruct O as (m & s1 & -> & Pm & H1 & L1). cbn [fst snd] in E.
    apply bind_ok in E as ([c s2] & E2 & E). cbn [fst snd] in E.
    destruct (copy_marks _ _ _ _ E2 Pm) as (Pc & H2 & L2).
    apply bind_ok in E as ([p3 st3] & E3 & E). cbn [fst snd] in E.
    destruct (rep_steps_marks _ _ _ _ _ _ _ E3 Pc Pm) as (n3 & s3 & -> & P3 & Q3 & H3 & L3 & M3).
    assert (L23 : forall w, mden s1 m w -> mden s3 p3 w) by auto.
    assert (M23 : forall w, power (mden s1 m) (S (N.to_nat (top - 2))) w -> mden s3 n3 w).
    { intros w (u & v & -> & Hu & Hv). apply M3; [eapply mden_mono; eauto|].
      eapply power_mono; [|exact Hv]. auto. }
    assert (H13 : hmono s s3) by (eapply hmono_trans; [eauto|eapply hmono_trans; eauto]).
    apply bind_ok in E as ([p5 st5] & E5 & E). cbn [fst snd] in E.
    destruct (comma && (0 <? min)%N) eqn:E4.
    2:{ injection E5 as <- <-. cbn [fst snd] in E.
        destruct (sequence_marks _ _ _ _ _ E Q3 P3) as (s4 & -> & P4 & H4 & L4).
        exists (NSeq n3 p3), s4. split; [auto|]. split; [auto|]. split; [eapply hmono_trans; eauto|].
        intros w Hw.
        assert (PW : power (mden s1 m) (S (S (N.to_nat (top - 2)))) w).
        { destruct Hw as (u & v & j & -> & Pu & Hj & Pv).
          destruct HA as [[-> Hmin]|[(-> & -> & Hmin)|(-> & Hlt & Hmax)]].
          - assert (min <> 1)%N by (intros ->; discriminate).
            assert (Hm0 : (min =? 0)%N = false) by (apply N.eqb_neq; lia). rewrite Hm0 in L1.
            assert (top = min) by (unfold top; destruct (N.ltb_spec 0 min); lia).
            cbn [rmax] in Hj. assert (j = 0)%nat by lia. subst j. cbn in Pv. subst v. rewrite app_nil_r.
            replace (S (S (N.to_nat (top - 2)))) with (N.to_nat min) by lia.
            eapply power_mono; [|exact Pu]. auto.
          - cbn in E4. apply N.ltb_ge in E4. lia.
          - cbn in E4. apply N.ltb_ge in E4. assert (min = 0%N) by lia. subst min.
            assert (top = max) by reflexivity. cbn in Pu. subst u.
            unfold rmax in Hj. destruct (N.eqb_spec max 0); [lia|].
            replace (S (S (N.to_nat (top - 2)))) with (N.to_nat max) by lia. cbn in L1.
            eapply power_mono; [exact L1|]. eapply more_power_opt; [|exact Pv]. lia. }
        apply power_last in PW as (u & v & -> & Pu & Pv). apply L4; auto. }
    apply andb_prop in E4 as [-> E4]. apply N.ltb_lt in E4.
    assert (Hm0 : (min =? 0)%N = false) by (apply N.eqb_neq; lia). rewrite Hm0 in L1.
    assert (Htop : top = min) by (unfold top; destruct (N.ltb_spec 0 min); lia).
    apply bind_ok in E5 as ([p4 st4] & E6 & E5). cbn [fst snd] in E5.
    assert (X : exists n4 s4, st4 = (n4 :: ns, s4) /\ pure p4 = true /\ pure n4 = true /\ hmono s s4 /\
        (forall w, mden s n w -> mden s4 p4 w) /\
        (forall w, power (mden s n) (N.to_nat min) w -> mden s4 n4 w)).
    { destruct (N.ltb_spec 1 min).
      - destruct (rep_step_marks _ _ _ _ _ _ E6 P3 Q3) as (n4 & s4 & -> & P4 & Q4 & H4 & L4 & M4).
        exists n4, s4. split; [auto|]. split; [auto|]. split; [auto|]. split; [eapply hmono_trans; eauto|].
        split; [auto|]. intros w PW. replace (N.to_nat min) with (S (S (N.to_nat (top - 2)))) in PW by lia.
        apply power_last in PW as (u & v & -> & Pu & Pv). apply M4; [|auto].
        apply M23. eapply power_mono; [|exact Pu]. auto.
      - injection E6 as <- <-. exists n3, s3. split; [auto|]. split; [auto|]. split; [auto|]. split; [auto|].
        split; [auto|]. intros w PW. apply M23.
        replace (S (N.to_nat (top - 2))) with (N.to_nat min) by lia. eapply power_mono; [|exact PW]. auto. }
    destruct X as (n4 & s4 & -> & P4 & Q4 & H4 & L4 & M4).
    destruct (max =? 0)%N eqn:Emax; cbn [negb] in E5.
    - (* {n,} *)
      unfold on_prev in E5. cbn [fst snd] in E5. apply bind_ok in E5 as (st6 & E6' & E5).
      destruct (star_marks g _ _ _ _ E6' P4) as (p6 & s6 & -> & P6 & H6 & L6). injection E5 as <- <-.
      cbn [fst snd] in E. destruct (sequence_marks _ _ _ _ _ E Q4 P6) as (s7 & -> & P7 & H7 & L7).
      exists (NSeq n4 p6), s7. split; [auto|]. split; [auto|].
      split; [eapply hmono_trans; [eauto|eapply hmono_trans; eauto]|].
      intros w (u & v & j & -> & Pu & _ & Pv). apply L7.
      + eapply mden_mono; eauto.
      + apply L6. apply power_star. exists j. eapply power_mono; [|exact Pv].
        intros x Hx. eapply more_mono; [|exact Hx]. auto.
    - (* {n,m} *)
      apply N.eqb_neq in Emax.
      assert (Hlt : (min < max)%N).
      { destruct HA as [[HA _]|[(_ & HA & _)|(_ & HA & _)]]; [discriminate|lia|auto]. }
      apply bind_ok in E5 as ([p6 st6] & E7 & E5). unfold on_prev in E7. cbn [fst snd] in E7, E5.
      apply bind_ok in E7 as (st7 & E7 & X).
      destruct (optional_marks g _ _ _ _ E7 P4) as (p7 & s7 & -> & P7 & H7 & L7). injection X as <- <-.
      destruct (rep_steps_marks _ _ _ _ _ _ _ E5 P7 Q4) as (n8 & s8 & -> & P8 & Q8 & H8 & L8 & M8).
      cbn [fst snd] in E. destruct (sequence_marks _ _ _ _ _ E Q8 P8) as (s9 & -> & P9 & H9 & L9).
      exists (NSeq n8 p5), s9. split; [auto|]. split; [auto|].
      split; [eapply hmono_trans; [exact H4|eapply hmono_trans; [exact H7|eapply hmono_trans; eauto]]|].
      intros w (u & v & j & -> & Pu & Hj & Pv). unfold rmax in Hj.
      destruct (N.eqb_spec max 0); [lia|].
      assert (PW : power (mden s7 p7) (S (N.to_nat (max - min - 1))) v).
      { eapply power_mono; [exact L7|]. apply (more_power_opt _ _ j); [lia|].
        eapply power_mono; [|exact Pv]. intros x Hx. eapply more_mono; [|exact Hx]. auto. }
      apply power_last in PW as (x & y & -> & Px & Py). rewrite app_assoc. apply L9; [|auto].
      apply M8; [|auto]. eapply mden_mono; eauto.
  Qed.
End Den.
