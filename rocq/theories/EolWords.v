(** Every way through the positions of a tree is part of a word. *)
From Verif Require Import Base Tree TreeSpec RegexSpec Glushkov TreeWords ParserRule.
Local Open Scope N_scope.

(** From position [p] to position [q], reading the tokens of all but [q]. *)
Fixpoint chain (n : node) (p : nat) (w : list N) (q : nat) : Prop :=
  match w with
  | [] => p = q
  | t :: w' => In (p, t) (leaves n) /\ exists p', fol n p p' /\ chain n p' w' q
  end.
Lemma chain_app n w : forall u p q, chain n p (w ++ u) q <-> exists x, chain n p w x /\ chain n x u q.
Proof.
  induction w as [|a w IH]; intros u p q; cbn.
  - split; [eauto|]. intros (x & -> & H). auto.
  - split.
    + intros (H1 & p' & H2 & H3). apply IH in H3 as (x & H4 & H5). exists x. eauto.
    + intros (x & (H1 & p' & H2 & H3) & H5). split; [auto|]. exists p'. split; [auto|]. apply IH. eauto.
Qed.
Lemma chain_mono n n' : (forall x, In x (leaves n) -> In x (leaves n')) ->
  (forall p q, fol n p q -> fol n' p q) -> forall w p q, chain n p w q -> chain n' p w q.
Proof.
  intros HL HF. induction w as [|a w IH]; intros p q; cbn; [auto|].
  intros (H1 & p' & H2 & H3). split; [auto|]. exists p'. auto.
Qed.
Lemma leaf_pos n p : pure n = true -> In p (poss n) -> exists t, In (p, t) (leaves n).
Proof. intros _ H. apply in_map_iff in H as ((q & t) & <- & H). eauto. Qed.

(** A tree with positions that is not nullable has first and last ones. *)
Lemma last_ex n : pure n = true -> nullable n = false -> exists p, In p (lastpos n).
Proof.
  induction n; cbn [pure nullable lastpos]; intros P H; try discriminate.
  - exists p. now left.
  - apply andb_prop in P as [P1 P2]. destruct (nullable n2) eqn:N2.
    + rewrite andb_true_r in H. destruct (IHn1 P1 H) as (p & Hp). exists p. rewrite in_app_iff. auto.
    + destruct (IHn2 P2 eq_refl) as (p & Hp). exists p. rewrite in_app_iff. auto.
  - apply andb_prop in P as [P1 P2]. apply orb_false_elim in H as [H1 H2]. destruct (IHn1 P1 H1) as (p & Hp).
    exists p. rewrite in_app_iff. auto.
Qed.
Lemma first_ex n : pure n = true -> nullable n = false -> exists p, In p (firstpos n).
Proof.
  induction n; cbn [pure nullable firstpos]; intros P H; try discriminate.
  - exists p. now left.
  - apply andb_prop in P as [P1 P2]. destruct (nullable n1) eqn:N2.
    + cbn in H. destruct (IHn2 P2 H) as (p & Hp). exists p. rewrite in_app_iff. auto.
    + destruct (IHn1 P1 eq_refl) as (p & Hp). exists p. rewrite in_app_iff. auto.
  - apply andb_prop in P as [P1 P2]. apply orb_false_elim in H as [H1 H2]. destruct (IHn1 P1 H1) as (p & Hp).
    exists p. rewrite in_app_iff. auto.
Qed.

Lemma reach n : pure n = true -> forall p, In p (poss n) -> exists p0 w, In p0 (firstpos n) /\ chain n p0 w p.
Proof.
  induction n; cbn [pure]; intros P x H; try easy.
  - cbn in H. destruct H as [->|[]]. exists x, []. split; [now left|reflexivity].
  - apply andb_prop in P as [P1 P2]. unfold poss in H. cbn [leaves] in H. rewrite map_app in H.
    apply in_app_or in H as [H|H].
    + destruct (IHn1 P1 x H) as (p0 & w & F & C). exists p0, w. cbn [firstpos]. rewrite in_app_iff. split; [auto|].
      eapply chain_mono; [| |exact C]; cbn [leaves fol]; [intros; rewrite in_app_iff|]; auto.
    + destruct (IHn2 P2 x H) as (p0 & w & F & C).
      assert (C' : chain (NSeq n1 n2) p0 w x).
      { eapply chain_mono; [| |exact C]; cbn [leaves fol]; [intros; rewrite in_app_iff|]; auto. }
      destruct (nullable n1) eqn:N1.
      * exists p0, w. cbn [firstpos]. rewrite N1, in_app_iff. auto.
      * destruct (last_ex n1 P1 N1) as (y & Hy).
        destruct (leaf_pos n1 y P1 (lastpos_poss n1 y P1 Hy)) as (t & Ht).
        destruct (IHn1 P1 y (lastpos_poss n1 y P1 Hy)) as (y0 & v & Fy & Cy).
        exists y0, (v ++ t :: w). cbn [firstpos]. rewrite in_app_iff. split; [auto|].
        apply chain_app. exists y. split.
        -- eapply chain_mono; [| |exact Cy]; cbn [leaves fol]; [intros; rewrite in_app_iff|]; auto.
        -- cbn [chain leaves]. rewrite in_app_iff. split; [auto|]. exists p0. split; [cbn [fol]; auto|auto].
  - apply andb_prop in P as [P1 P2]. unfold poss in H. cbn [leaves] in H. rewrite map_app in H.
    apply in_app_or in H as [H|H];
      [destruct (IHn1 P1 x H) as (p0 & w & F & C)|destruct (IHn2 P2 x H) as (p0 & w & F & C)];
      exists p0, w; cbn [firstpos]; rewrite in_app_iff; (split; [auto|]);
      (eapply chain_mono; [| |exact C]; cbn [leaves fol]; [intros; rewrite in_app_iff|]; auto).
  - destruct (IHn P x H) as (p0 & w & F & C). exists p0, w. split; [exact F|].
    eapply chain_mono; [| |exact C]; cbn [leaves fol]; auto.
Qed.
Lemma coreach n : pure n = true -> forall p, In p (poss n) ->
  exists q w, In q (lastpos n) /\ chain n p w q.
Proof.
  induction n; cbn [pure]; intros P x H; try easy.
  - cbn in H. destruct H as [->|[]]. exists x, []. split; [now left|reflexivity].
  - apply andb_prop in P as [P1 P2]. unfold poss in H. cbn [leaves] in H. rewrite map_app in H.
    apply in_app_or in H as [H|H].
    + destruct (IHn1 P1 x H) as (p0 & w & F & C).
      assert (C' : chain (NSeq n1 n2) x w p0).
      { eapply chain_mono; [| |exact C]; cbn [leaves fol]; [intros; rewrite in_app_iff|]; auto. }
      destruct (nullable n2) eqn:N1.
      * exists p0, w. cbn [lastpos]. rewrite N1, in_app_iff. auto.
      * destruct (first_ex n2 P2 N1) as (y & Hy).
        destruct (leaf_pos n1 p0 P1 (lastpos_poss n1 p0 P1 F)) as (t & Ht).
        destruct (IHn2 P2 y (firstpos_poss n2 y P2 Hy)) as (y0 & v & Fy & Cy).
        exists y0, (w ++ t :: v). cbn [lastpos]. rewrite in_app_iff. split; [auto|].
        apply chain_app. exists p0. split; [auto|].
        cbn [chain leaves]. rewrite in_app_iff. split; [auto|]. exists y. split; [cbn [fol]; auto|].
        eapply chain_mono; [| |exact Cy]; cbn [leaves fol]; [intros; rewrite in_app_iff|]; auto.
    + destruct (IHn2 P2 x H) as (p0 & w & F & C). exists p0, w. cbn [lastpos]. rewrite in_app_iff. split; [auto|].
      eapply chain_mono; [| |exact C]; cbn [leaves fol]; [intros; rewrite in_app_iff|]; auto.
  - apply andb_prop in P as [P1 P2]. unfold poss in H. cbn [leaves] in H. rewrite map_app in H.
    apply in_app_or in H as [H|H];
      [destruct (IHn1 P1 x H) as (p0 & w & F & C)|destruct (IHn2 P2 x H) as (p0 & w & F & C)];
      exists p0, w; cbn [lastpos]; rewrite in_app_iff; (split; [auto|]);
      (eapply chain_mono; [| |exact C]; cbn [leaves fol]; [intros; rewrite in_app_iff|]; auto).
  - destruct (IHn P x H) as (p0 & w & F & C). exists p0, w. split; [exact F|].
    eapply chain_mono; [| |exact C]; cbn [leaves fol]; auto.
Qed.

Lemma chain_suf n t w : forall p q, chain n p w q -> In (q, t) (leaves n) -> In q (lastpos n) ->
  suf (@eq N) n (w ++ [t]) p.
Proof.
  induction w as [|a w IH]; intros p q C Ht Hq.
  - cbn in C. subst q. cbn. split; [exists t; auto|]. auto.
  - destruct C as (H1 & p' & H2 & C). specialize (IH p' q C Ht Hq).
    change ((a :: w) ++ [t]) with (a :: (w ++ [t])). cbn [suf]. split; [exists a; auto|].
    right. exists p'. auto.
Qed.
(** A way through positions can be completed to a word. *)
Theorem chain_word n p w q t : pure n = true -> NoDup (poss n) -> chain n p w q -> In (q, t) (leaves n) ->
  exists u v, tden n (u ++ (w ++ [t]) ++ v).
Proof.
  intros P ND C Ht.
  assert (Hq : In q (poss n)) by (apply (in_map fst) in Ht; exact Ht).
  assert (Hp : In p (poss n)).
  { destruct w as [|a w]; [cbn in C; now subst|]. destruct C as (H & _). apply (in_map fst) in H. exact H. }
  destruct (reach n P p Hp) as (p0 & u & F & Cu). destruct (coreach n P q Hq) as (y & v & L & Cv).
  destruct (leaf_pos n y P (lastpos_poss n y P L)) as (ty & Hy).
  assert (E : exists z, v ++ [ty] = t :: z).
  { destruct v as [|b v].
    - cbn in Cv. subst y. exists []. now rewrite (nodup_fst _ _ _ _ ND Hy Ht).
    - destruct Cv as (Hb & _). exists (v ++ [ty]). cbn. now rewrite (nodup_fst _ _ _ _ ND Hb Ht). }
  destruct E as (z & E). exists u, z.
  apply (glushkov (@eq N) n); auto. right. exists p0. split; [auto|].
  replace (u ++ (w ++ [t]) ++ z) with ((u ++ w ++ v) ++ [ty]).
  - apply chain_suf with (q := y); auto. apply chain_app. exists p. split; [auto|]. apply chain_app. exists q. auto.
  - rewrite <- !app_assoc. f_equal. f_equal. exact E.
Qed.
