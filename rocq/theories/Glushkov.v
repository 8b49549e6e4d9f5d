(** The position automaton of a tree accepts exactly its denotation. *)
From Verif Require Import Base Tree RegexSpec TreeSpec.

Lemma NoDup_app_disj {A} (l r : list A) :
  NoDup (l ++ r) -> forall x, In x l -> In x r -> False.
Proof.
  induction l as [|a l IH]; cbn; intros H x Hl Hr; [easy|].
  inversion H as [|? ? Ha Hn]; subst. destruct Hl as [->|Hl]; [|eauto].
  apply Ha. apply in_or_app; auto.
Qed.
Lemma NoDup_app_inv {A} (l r : list A) : NoDup (l ++ r) -> NoDup l /\ NoDup r.
Proof.
  induction l as [|a l IH]; cbn; intros H; [split; [constructor|auto]|].
  inversion H as [|? ? Ha Hn]; subst. apply IH in Hn as [H1 H2]. split; [|auto].
  constructor; auto. intros Hi. apply Ha. apply in_or_app; auto.
Qed.

Lemma firstpos_poss n p : pure n = true -> In p (firstpos n) -> In p (poss n).
Proof.
  unfold poss. induction n; cbn; intros HP H; try tauto.
  - apply andb_prop in HP as [H1 H2]. rewrite map_app, in_app_iff.
    apply in_app_or in H as [H|H]; [auto|]. destruct (nullable n1); [auto|easy].
  - apply andb_prop in HP as [H1 H2]. rewrite map_app, in_app_iff.
    apply in_app_or in H as [H|H]; auto.
  - discriminate.
Qed.
Lemma lastpos_poss n p : pure n = true -> In p (lastpos n) -> In p (poss n).
Proof.
  unfold poss. induction n; cbn; intros HP H; try tauto.
  - apply andb_prop in HP as [H1 H2]. rewrite map_app, in_app_iff.
    apply in_app_or in H as [H|H]; [|auto]. destruct (nullable n2); [auto|easy].
  - apply andb_prop in HP as [H1 H2]. rewrite map_app, in_app_iff.
    apply in_app_or in H as [H|H]; auto.
  - discriminate.
Qed.
Lemma fol_poss n p q : pure n = true -> fol n p q -> In p (poss n) /\ In q (poss n).
Proof.
  induction n; cbn; intros HP H; try tauto.
  - apply andb_prop in HP as [H1 H2]. unfold poss in *. cbn. rewrite map_app, !in_app_iff.
    destruct H as [H|[H|[Ha Hb]]].
    + destruct (IHn1 H1 H); auto.
    + destruct (IHn2 H2 H); auto.
    + apply lastpos_poss in Ha; auto. apply firstpos_poss in Hb; auto.
  - apply andb_prop in HP as [H1 H2]. unfold poss in *. cbn. rewrite map_app, !in_app_iff.
    destruct H as [H|H].
    + destruct (IHn1 H1 H); auto.
    + destruct (IHn2 H2 H); auto.
  - destruct H as [H|[Ha Hb]]; [auto|].
    apply lastpos_poss in Ha; auto. apply firstpos_poss in Hb; auto.
Qed.

Lemma star_app2 {A} (L : list A -> Prop) u v : star L u -> star L v -> star L (u ++ v).
Proof.
  induction 1; cbn; auto. intros Hv. rewrite <- app_assoc. constructor; auto.
Qed.
Lemma star_nonempty {A} (L : list A -> Prop) w :
  star L w -> w = [] \/ exists a u v, w = (a :: u) ++ v /\ L (a :: u) /\ star L v.
Proof.
  induction 1 as [|u v H1 H2 IH]; [auto|].
  destruct u as [|a u]; [exact IH|]. right. exists a, u, v. auto.
Qed.
Lemma star_ext {A} (L M : list A -> Prop) w :
  (forall u, L u <-> M u) -> star L w <-> star M w.
Proof.
  intros E. split; induction 1; constructor; auto; now apply E.
Qed.
Lemma power_star {A} (L : list A -> Prop) w : star L w <-> exists k, power L k w.
Proof.
  split.
  - induction 1 as [|u v H1 H2 [k IH]]; [now exists O|].
    exists (S k), u, v. auto.
  - intros [k H]. revert w H. induction k; cbn; intros w H.
    + subst. constructor.
    + destruct H as (u & v & -> & Hu & Hv). constructor; auto.
Qed.
Lemma power_ext {A} (L M : list A -> Prop) k w :
  (forall u, L u <-> M u) -> power L k w <-> power M k w.
Proof.
  intros E. revert w. induction k; cbn; intros w; [tauto|].
  split; intros (u & v & -> & Hu & Hv); exists u, v; (split; [auto|]); split;
    try (now apply E); now apply IHk.
Qed.
Lemma power_add {A} (L : list A -> Prop) j k w :
  power L (j + k) w <-> exists u v, w = u ++ v /\ power L j u /\ power L k v.
Proof.
  revert w. induction j; cbn; intros w; split.
  - intros H. exists [], w. auto.
  - intros (u & v & -> & -> & H). auto.
  - intros (u & v & -> & Hu & Hv). apply IHj in Hv as (u' & v' & -> & Hu' & Hv').
    exists (u ++ u'), v'. rewrite app_assoc. split; [auto|]. split; [|auto].
    exists u, u'. auto.
  - intros (x & v & -> & (u & u' & -> & Hu & Hu') & Hv).
    exists u, (u' ++ v). rewrite app_assoc. split; [auto|]. split; [auto|].
    apply IHj. exists u', v. auto.
Qed.
Lemma power1 {A} (L : list A -> Prop) w : power L 1 w <-> L w.
Proof.
  cbn. split.
  - intros (u & v & -> & H & ->). now rewrite app_nil_r.
  - intros H. exists w, []. rewrite app_nil_r. auto.
Qed.

Section G.
  Context {A : Type}.
  Variable sem : N -> A -> Prop.
  Notation reads := (reads sem).
  Notation suf := (suf sem).
  Notation auto_ := (auto sem).
  Notation den := (den sem).

  Lemma reads_poss n p a : reads n p a -> In p (poss n).
  Proof. intros (t & H & _). unfold poss. apply (in_map fst) in H. exact H. Qed.
  Lemma suf_poss n w p : suf n w p -> In p (poss n).
  Proof. destruct w; cbn; [easy|]. intros [H _]. eapply reads_poss; eauto. Qed.

  Lemma reads_app_l l r p a : (forall x, In x (poss l) -> In x (poss r) -> False) ->
    In p (poss l) ->
    (exists t, In (p, t) (leaves l ++ leaves r) /\ sem t a) <-> reads l p a.
  Proof.
    intros D Hp. unfold TreeSpec.reads. split; intros (t & Ht & Hs); exists t; split; auto.
    - apply in_app_or in Ht as [Ht|Ht]; auto. apply (in_map fst) in Ht. cbn in Ht.
      exfalso. eapply D; eauto.
    - apply in_or_app; auto.
  Qed.
  Lemma reads_app_r l r p a : (forall x, In x (poss l) -> In x (poss r) -> False) ->
    In p (poss r) ->
    (exists t, In (p, t) (leaves l ++ leaves r) /\ sem t a) <-> reads r p a.
  Proof.
    intros D Hp. unfold TreeSpec.reads. split; intros (t & Ht & Hs); exists t; split; auto.
    - apply in_app_or in Ht as [Ht|Ht]; auto. apply (in_map fst) in Ht. cbn in Ht.
      exfalso. eapply D; eauto.
    - apply in_or_app; auto.
  Qed.

  Section Two.
    Variables l r : node.
    Hypothesis Pl : pure l = true.
    Hypothesis Pr : pure r = true.
    Hypothesis D : forall x, In x (poss l) -> In x (poss r) -> False.

    Lemma suf_seq_r w p : In p (poss r) -> suf (NSeq l r) w p <-> suf r w p.
    Proof.
      revert p. induction w as [|a w IH]; intros p Hp; cbn [TreeSpec.suf]; [tauto|].
      rewrite (reads_app_r l r p a D Hp).
      apply and_iff_compat_l. cbn [lastpos fol]. split.
      - intros [[-> H]|(q & Hq & H)].
        + left. split; [auto|]. apply in_app_or in H as [H|H]; auto.
          destruct (nullable r); [|easy]. apply lastpos_poss in H; auto. exfalso; eauto.
        + right. exists q. destruct Hq as [Hq|[Hq|[Hq _]]].
          * apply fol_poss in Hq as [Hq _]; auto. exfalso; eauto.
          * split; auto. apply IH; auto. now apply fol_poss in Hq.
          * apply lastpos_poss in Hq; auto. exfalso; eauto.
      - intros [[-> H]|(q & Hq & H)].
        + left. split; auto. apply in_or_app; auto.
        + right. exists q. split; auto. apply IH; auto. now apply fol_poss in Hq.
    Qed.

    Lemma suf_seq_l w p : In p (poss l) ->
      suf (NSeq l r) w p <-> exists u v, w = u ++ v /\ suf l u p /\ auto_ r v.
    Proof.
      revert p. induction w as [|a w IH]; intros p Hp; cbn [TreeSpec.suf].
      - split; [easy|]. intros (u & v & E & Hu & _). destruct u; [easy|discriminate].
      - rewrite (reads_app_l l r p a D Hp). cbn [lastpos fol]. split.
        + intros [Hr [[-> H]|(q & Hq & H)]].
          * apply in_app_or in H as [H|H].
            -- destruct (nullable r) eqn:En; [|easy].
               exists [a], []. cbn. split; [auto|]. split; [auto|]. left; auto.
            -- apply lastpos_poss in H; auto. exfalso; eauto.
          * destruct Hq as [Hq|[Hq|[Hq Hf]]].
            -- apply IH in H as (u & v & -> & Hu & Hv); [|now apply fol_poss in Hq].
               exists (a :: u), v. cbn. split; [auto|]. split; [|auto]. split; [auto|].
               right. exists q. auto.
            -- apply fol_poss in Hq as [Hq _]; auto. exfalso; eauto.
            -- apply suf_seq_r in H; [|now apply firstpos_poss].
               exists [a], w. cbn. split; [auto|]. split; [auto|]. right. exists q. auto.
        + intros (u & v & E & Hu & Hv). destruct u as [|b u]; [easy|].
          cbn in E. injection E as <- ->. cbn in Hu. destruct Hu as [Hr Hu].
          split; [exact Hr|]. destruct Hu as [[-> H]|(q & Hq & H)].
          * destruct Hv as [[-> Hn]|(q & Hq & Hv)].
            -- left. split; [auto|]. rewrite Hn. apply in_or_app; auto.
            -- right. exists q. split; auto. apply suf_seq_r; auto. now apply firstpos_poss.
          * right. exists q. split; auto. apply IH; [now apply fol_poss in Hq|].
            exists u, v. auto.
    Qed.

    Lemma auto_seq w : auto_ (NSeq l r) w <-> exists u v, w = u ++ v /\ auto_ l u /\ auto_ r v.
    Proof.
      unfold TreeSpec.auto at 1. cbn [nullable firstpos]. split.
      - intros [[-> H]|(p & Hp & H)].
        + apply andb_prop in H as [H1 H2]. exists [], []. repeat split; left; auto.
        + apply in_app_or in Hp as [Hp|Hp].
          * apply suf_seq_l in H as (u & v & -> & Hu & Hv); [|now apply firstpos_poss].
            exists u, v. split; [auto|]. split; [|auto]. right. exists p. auto.
          * destruct (nullable l) eqn:En; [|easy].
            apply suf_seq_r in H; [|now apply firstpos_poss].
            exists [], w. split; [auto|]. split; [left; auto|]. right. exists p; auto.
      - intros (u & v & -> & [[-> Hn]|(p & Hp & Hu)] & Hv).
        + destruct Hv as [[-> Hm]|(q & Hq & Hv)].
          * left. rewrite Hn, Hm. auto.
          * right. exists q. rewrite Hn. split; [apply in_or_app; auto|].
            apply suf_seq_r; auto. now apply firstpos_poss.
        + right. exists p. split; [apply in_or_app; auto|].
          apply suf_seq_l; [now apply firstpos_poss|]. exists u, v. auto.
    Qed.

    Lemma suf_sel_l w p : In p (poss l) -> suf (NSel l r) w p <-> suf l w p.
    Proof.
      revert p. induction w as [|a w IH]; intros p Hp; cbn [TreeSpec.suf]; [tauto|].
      rewrite (reads_app_l l r p a D Hp). apply and_iff_compat_l. cbn [lastpos fol]. split.
      - intros [[-> H]|(q & Hq & H)].
        + left. split; [auto|]. apply in_app_or in H as [H|H]; auto.
          apply lastpos_poss in H; auto. exfalso; eauto.
        + right. exists q. destruct Hq as [Hq|Hq].
          * split; auto. apply IH; auto. now apply fol_poss in Hq.
          * apply fol_poss in Hq as [Hq _]; auto. exfalso; eauto.
      - intros [[-> H]|(q & Hq & H)].
        + left. split; auto. apply in_or_app; auto.
        + right. exists q. split; auto. apply IH; auto. now apply fol_poss in Hq.
    Qed.
    Lemma suf_sel_r w p : In p (poss r) -> suf (NSel l r) w p <-> suf r w p.
    Proof.
      revert p. induction w as [|a w IH]; intros p Hp; cbn [TreeSpec.suf]; [tauto|].
      rewrite (reads_app_r l r p a D Hp). apply and_iff_compat_l. cbn [lastpos fol]. split.
      - intros [[-> H]|(q & Hq & H)].
        + left. split; [auto|]. apply in_app_or in H as [H|H]; auto.
          apply lastpos_poss in H; auto. exfalso; eauto.
        + right. exists q. destruct Hq as [Hq|Hq].
          * apply fol_poss in Hq as [Hq _]; auto. exfalso; eauto.
          * split; auto. apply IH; auto. now apply fol_poss in Hq.
      - intros [[-> H]|(q & Hq & H)].
        + left. split; auto. apply in_or_app; auto.
        + right. exists q. split; auto. apply IH; auto. now apply fol_poss in Hq.
    Qed.
    Lemma auto_sel w : auto_ (NSel l r) w <-> auto_ l w \/ auto_ r w.
    Proof.
      unfold TreeSpec.auto. cbn [nullable firstpos]. rewrite orb_true_iff. split.
      - intros [[-> [H|H]]|(p & Hp & H)]; auto.
        apply in_app_or in Hp as [Hp|Hp].
        + left. right. exists p. split; auto. apply suf_sel_l in H; auto. now apply firstpos_poss.
        + right. right. exists p. split; auto. apply suf_sel_r in H; auto. now apply firstpos_poss.
      - intros [[[-> H]|(p & Hp & H)]|[[-> H]|(p & Hp & H)]]; auto.
        + right. exists p. split; [apply in_or_app; auto|]. apply suf_sel_l; auto.
          now apply firstpos_poss.
        + right. exists p. split; [apply in_or_app; auto|]. apply suf_sel_r; auto.
          now apply firstpos_poss.
    Qed.
  End Two.

  Section One.
    Variables (n : node) (g : greedy).
    Hypothesis P : pure n = true.

    Lemma suf_iter_dec w p : suf (NIter n g) w p ->
      exists u v, w = u ++ v /\ suf n u p /\ star (auto_ n) v.
    Proof.
      revert p. induction w as [|a w IH]; intros p; cbn [TreeSpec.suf]; [easy|].
      intros [Hr [[-> H]|(q & Hq & H)]]; cbn [lastpos] in *.
      - exists [a], []. cbn. split; [auto|]. split; [auto|constructor].
      - apply IH in H as (u & v & -> & Hu & Hv). cbn in Hq. destruct Hq as [Hq|[Hl Hf]].
        + exists (a :: u), v. cbn. split; [auto|]. split; [|auto]. split; auto.
          right. exists q. auto.
        + exists [a], (u ++ v). cbn. split; [auto|]. split; [auto|].
          constructor; auto. right. exists q. auto.
    Qed.
    Lemma suf_iter_fwd u v p : suf n u p ->
      (v = [] \/ exists q, In q (firstpos n) /\ suf (NIter n g) v q) ->
      suf (NIter n g) (u ++ v) p.
    Proof.
      revert p. induction u as [|a u IH]; intros p; cbn [TreeSpec.suf app]; [easy|].
      intros [Hr H] Hv. split; [exact Hr|]. cbn [lastpos fol].
      destruct H as [[-> H]|(q & Hq & H)].
      - destruct Hv as [->|(q & Hq & Hv)]; [left; auto|]. right. exists q. auto.
      - right. exists q. split; [auto|]. apply IH; auto.
    Qed.
    Lemma auto_iter w : auto_ (NIter n g) w <-> star (auto_ n) w.
    Proof.
      split.
      - intros [[-> _]|(p & Hp & H)]; [constructor|].
        apply suf_iter_dec in H as (u & v & -> & Hu & Hv). constructor; auto.
        right. exists p. auto.
      - intros H. cut (w = [] \/ exists q, In q (firstpos n) /\ suf (NIter n g) w q).
        { intros [->|(q & Hq & Hs)]; [left; auto|]. right. exists q. auto. }
        induction H as [|u v H1 H2 IH]; [auto|].
        destruct H1 as [[-> _]|(p & Hp & Hu)]; [exact IH|].
        right. exists p. split; auto. apply suf_iter_fwd; auto.
    Qed.
  End One.

  Theorem glushkov n w : pure n = true -> NoDup (poss n) -> den n w <-> auto_ n w.
  Proof.
    revert w. induction n; intros w HP ND; cbn [TreeSpec.den].
    - unfold TreeSpec.auto. cbn. split; [intros ->; auto|]. intros [[H _]|(p & H & _)]; easy.
    - unfold TreeSpec.auto. cbn. split.
      + intros (a & -> & H). right. exists p. split; [auto|]. cbn. split; [|left; auto].
        exists tok. cbn. auto.
      + intros [[_ H]|(q & [<-|[]] & H)]; [discriminate|].
        destruct w as [|a w]; cbn in H; [easy|]. destruct H as [(t & [E|[]] & Hs) H].
        injection E as <-. destruct H as [[-> _]|(q & [] & _)]. eauto.
    - cbn in HP. apply andb_prop in HP as [P1 P2].
      unfold poss in ND. cbn in ND. rewrite map_app in ND.
      assert (D : forall x, In x (poss n1) -> In x (poss n2) -> False)
        by (eapply NoDup_app_disj; eauto).
      apply NoDup_app_inv in ND as [N1 N2].
      rewrite auto_seq; auto. split; intros (u & v & -> & Hu & Hv); exists u, v;
        (split; [auto|]); split; try (apply IHn1; auto); apply IHn2; auto.
    - cbn in HP. apply andb_prop in HP as [P1 P2].
      unfold poss in ND. cbn in ND. rewrite map_app in ND.
      assert (D : forall x, In x (poss n1) -> In x (poss n2) -> False)
        by (eapply NoDup_app_disj; eauto).
      apply NoDup_app_inv in ND as [N1 N2].
      rewrite auto_sel; auto. rewrite IHn1, IHn2; tauto.
    - rewrite auto_iter; auto. apply star_ext. intros u. apply IHn; auto.
    - discriminate.
  Qed.
End G.
