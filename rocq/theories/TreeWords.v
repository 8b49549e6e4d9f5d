(** Which token words witness the positions of a tree. *)
From Verif Require Import Base Tree TreeSpec RegexSpec Glushkov.
Local Open Scope N_scope.

Notation tden n := (den (@eq N) n).

Lemma den_inhabited n : pure n = true -> exists w, tden n w.
Proof.
  induction n; cbn [pure den]; intros P.
  - eauto.
  - exists [tok]. eauto.
  - apply andb_prop in P as [P1 P2]. destruct (IHn1 P1) as (u & Hu), (IHn2 P2) as (v & Hv).
    exists (u ++ v), u, v. auto.
  - apply andb_prop in P as [P1 P2]. destruct (IHn1 P1) as (u & Hu). eauto.
  - exists []. constructor.
  - discriminate.
Qed.
Lemma star_one {A} (L : list A -> Prop) w : L w -> star L w.
Proof. intros H. rewrite <- (app_nil_r w). constructor; [auto|constructor]. Qed.

Lemma leaf_word n p t : pure n = true -> In (p, t) (leaves n) -> exists u v, tden n (u ++ t :: v).
Proof.
  induction n; cbn [pure den leaves]; intros P H; try easy.
  - destruct H as [[= -> ->]|[]]. exists [], [], t. auto.
  - apply andb_prop in P as [P1 P2]. apply in_app_or in H as [H|H].
    + destruct (IHn1 P1 H) as (u & v & Hu). destruct (den_inhabited n2 P2) as (x & Hx).
      exists u, (v ++ x), (u ++ t :: v), x. rewrite <- app_assoc. auto.
    + destruct (IHn2 P2 H) as (u & v & Hu). destruct (den_inhabited n1 P1) as (x & Hx).
      exists (x ++ u), v, x, (u ++ t :: v). rewrite <- app_assoc. auto.
  - apply andb_prop in P as [P1 P2]. apply in_app_or in H as [H|H].
    + destruct (IHn1 P1 H) as (u & v & Hu). eauto.
    + destruct (IHn2 P2 H) as (u & v & Hu). eauto.
  - destruct (IHn P H) as (u & v & Hu). exists u, v. now apply star_one.
Qed.

Lemma nullable_word n : pure n = true -> (nullable n = true <-> tden n []).
Proof.
  induction n; cbn [pure den nullable]; intros P; try easy.
  - split; [discriminate|]. now intros (a & ? & _).
  - apply andb_prop in P as [P1 P2]. rewrite andb_true_iff, IHn1, IHn2 by auto. split.
    + intros [H1 H2]. exists [], []. auto.
    + intros (u & v & E & Hu & Hv). symmetry in E. apply app_eq_nil in E as [-> ->]. auto.
  - apply andb_prop in P as [P1 P2]. now rewrite orb_true_iff, IHn1, IHn2 by auto.
  - split; [|auto]. intros _. constructor.
Qed.

Lemma first_word n p : pure n = true -> In p (firstpos n) ->
  exists t v, In (p, t) (leaves n) /\ tden n (t :: v).
Proof.
  induction n; cbn [pure den leaves firstpos]; intros P H; try easy.
  - destruct H as [->|[]]. exists tok, []. split; [now left|]. cbn. eauto.
  - apply andb_prop in P as [P1 P2]. apply in_app_or in H as [H|H].
    + destruct (IHn1 P1 H) as (t & v & Hl & Hd). destruct (den_inhabited n2 P2) as (x & Hx).
      exists t, (v ++ x). rewrite in_app_iff. split; [auto|]. exists (t :: v), x. auto.
    + destruct (nullable n1) eqn:N1; [|easy]. apply nullable_word in N1; auto.
      destruct (IHn2 P2 H) as (t & v & Hl & Hd).
      exists t, v. rewrite in_app_iff. split; [auto|]. exists [], (t :: v). auto.
  - apply andb_prop in P as [P1 P2]. apply in_app_or in H as [H|H].
    + destruct (IHn1 P1 H) as (t & v & Hl & Hd). exists t, v. rewrite in_app_iff. auto.
    + destruct (IHn2 P2 H) as (t & v & Hl & Hd). exists t, v. rewrite in_app_iff. auto.
  - destruct (IHn P H) as (t & v & Hl & Hd). exists t, v. split; [auto|]. now apply star_one.
Qed.
Lemma word_first n t v : pure n = true -> tden n (t :: v) ->
  exists p, In p (firstpos n) /\ In (p, t) (leaves n).
Proof.
  revert v. induction n; cbn [pure den leaves firstpos]; intros w P H; try easy.
  - destruct H as (a & [= <- _] & <-). exists p. cbn. auto.
  - apply andb_prop in P as [P1 P2]. destruct H as (u & x & E & Hu & Hx).
    destruct u as [|a u]; cbn in E.
    + subst x. apply nullable_word in Hu; auto. destruct (IHn2 _ P2 Hx) as (p & F & L).
      exists p. rewrite Hu, !in_app_iff. auto.
    + injection E as <- ->. destruct (IHn1 _ P1 Hu) as (p & F & L). exists p. rewrite !in_app_iff. auto.
  - apply andb_prop in P as [P1 P2].
    destruct H as [H|H]; [destruct (IHn1 _ P1 H) as (p & F & L)|destruct (IHn2 _ P2 H) as (p & F & L)];
      exists p; rewrite !in_app_iff; auto.
  - apply star_nonempty in H as [H|(a & u & x & E & Hu & Hx)]; [discriminate|].
    injection E as <- ->. eauto.
Qed.
Lemma last_word n p : pure n = true -> In p (lastpos n) ->
  exists t v, In (p, t) (leaves n) /\ tden n (v ++ [t]).
Proof.
  induction n; cbn [pure den leaves lastpos]; intros P H; try easy.
  - destruct H as [->|[]]. exists tok, []. split; [now left|]. cbn. eauto.
  - apply andb_prop in P as [P1 P2]. apply in_app_or in H as [H|H].
    + destruct (nullable n2) eqn:N1; [|easy]. apply nullable_word in N1; auto.
      destruct (IHn1 P1 H) as (t & v & Hl & Hd).
      exists t, v. rewrite in_app_iff. split; [auto|]. exists (v ++ [t]), []. rewrite app_nil_r. auto.
    + destruct (IHn2 P2 H) as (t & v & Hl & Hd). destruct (den_inhabited n1 P1) as (x & Hx).
      exists t, (x ++ v). rewrite in_app_iff, <- app_assoc. split; [auto|]. exists x, (v ++ [t]). auto.
  - apply andb_prop in P as [P1 P2]. apply in_app_or in H as [H|H].
    + destruct (IHn1 P1 H) as (t & v & Hl & Hd). exists t, v. rewrite in_app_iff. auto.
    + destruct (IHn2 P2 H) as (t & v & Hl & Hd). exists t, v. rewrite in_app_iff. auto.
  - destruct (IHn P H) as (t & v & Hl & Hd). exists t, v. split; [auto|]. now apply star_one.
Qed.
Lemma fol_word n p q : pure n = true -> fol n p q ->
  exists a b u v, In (p, a) (leaves n) /\ In (q, b) (leaves n) /\ tden n (u ++ a :: b :: v).
Proof.
  assert (J : forall l r, pure l = true -> pure r = true -> In p (lastpos l) -> In q (firstpos r) ->
    exists a b u v x y, In (p, a) (leaves l) /\ In (q, b) (leaves r) /\ tden l x /\ tden r y /\
      x ++ y = u ++ a :: b :: v).
  { intros l r Pl Pr Hp Hq. destruct (last_word l p Pl Hp) as (a & u & La & Da).
    destruct (first_word r q Pr Hq) as (b & v & Lb & Db).
    exists a, b, u, v, (u ++ [a]), (b :: v). do 4 (split; [auto|]). now rewrite <- app_assoc. }
  induction n; cbn [pure den leaves fol]; intros P H; try easy.
  - apply andb_prop in P as [P1 P2]. destruct H as [H|[H|[H1 H2]]].
    + destruct (IHn1 P1 H) as (a & b & u & v & La & Lb & D). destruct (den_inhabited n2 P2) as (x & Hx).
      exists a, b, u, (v ++ x). rewrite !in_app_iff. do 2 (split; [auto|]).
      exists (u ++ a :: b :: v), x. rewrite <- app_assoc. auto.
    + destruct (IHn2 P2 H) as (a & b & u & v & La & Lb & D). destruct (den_inhabited n1 P1) as (x & Hx).
      exists a, b, (x ++ u), v. rewrite !in_app_iff. do 2 (split; [auto|]).
      exists x, (u ++ a :: b :: v). rewrite <- app_assoc. auto.
    + destruct (J n1 n2 P1 P2 H1 H2) as (a & b & u & v & x & y & La & Lb & Dx & Dy & E).
      exists a, b, u, v. rewrite !in_app_iff. do 2 (split; [auto|]). rewrite <- E. eauto.
  - apply andb_prop in P as [P1 P2].
    destruct H as [H|H]; [destruct (IHn1 P1 H) as (a & b & u & v & La & Lb & D)
                         |destruct (IHn2 P2 H) as (a & b & u & v & La & Lb & D)];
      exists a, b, u, v; rewrite !in_app_iff; auto.
  - destruct H as [H|[H1 H2]].
    + destruct (IHn P H) as (a & b & u & v & La & Lb & D). exists a, b, u, v.
      do 2 (split; [auto|]). now apply star_one.
    + destruct (J n n P P H1 H2) as (a & b & u & v & x & y & La & Lb & Dx & Dy & E).
      exists a, b, u, v. do 2 (split; [auto|]). rewrite <- E. constructor; [auto|]. now apply star_one.
Qed.

(** From token words to words of symbols and back. *)
Lemma den_map {A} (sem : N -> A -> Prop) n : forall w, tden n w -> forall ws, Forall2 sem w ws -> den sem n ws.
Proof.
  induction n; cbn [den]; intros w H ws F.
  - subst. inversion F; auto.
  - destruct H as (a & -> & <-). inversion F as [|? y ? ? S F']; subst. inversion F'; subst. eauto.
  - destruct H as (u & v & -> & Hu & Hv). apply Forall2_app_inv_l in F as (us & vs & Fu & Fv & ->).
    exists us, vs. eauto.
  - destruct H as [H|H]; eauto.
  - revert ws F. induction H as [|u v Hu Hv IH]; intros ws F.
    + inversion F. constructor.
    + apply Forall2_app_inv_l in F as (us & vs & Fu & Fv & ->). constructor; eauto.
  - easy.
Qed.
Lemma den_unmap {A} (sem : N -> A -> Prop) n : forall ws, den sem n ws -> exists w, tden n w /\ Forall2 sem w ws.
Proof.
  induction n; cbn [den]; intros ws H.
  - subst. exists []. auto.
  - destruct H as (a & -> & S). exists [tok]. split; eauto.
  - destruct H as (us & vs & -> & Hu & Hv). apply IHn1 in Hu as (u & Du & Fu).
    apply IHn2 in Hv as (v & Dv & Fv). exists (u ++ v). split; [eauto|]. now apply Forall2_app.
  - destruct H as [H|H]; [apply IHn1 in H as (u & Du & Fu)|apply IHn2 in H as (u & Du & Fu)]; eauto.
  - induction H as [|us vs Hu Hv IH].
    + exists []. split; constructor.
    + apply IHn in Hu as (u & Du & Fu). destruct IH as (v & Dv & Fv). exists (u ++ v).
      split; [now constructor|]. now apply Forall2_app.
  - easy.
Qed.
