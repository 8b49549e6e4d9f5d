(** The marked words of a rule are its words, with marks. *)
From Verif Require Import Base StringToken StringTokenSpec RegexSpec StateMachine ReToken DfaSpec Grammar
  Tree Parser Generator Build Lookup TableSpec LookupSpec RuleSpec Glushkov MarkSpec.
From Coq Require Import Lia.
Local Open Scope N_scope.

Lemma begin_mark_fst {A} (w : list (A * bool)) : map fst (begin_mark w) = map fst w.
Proof. destruct w as [|[a m] w]; reflexivity. Qed.

Lemma power_map {A B} (f : A -> B) (L : list A -> Prop) (M : list B -> Prop) :
  (forall w, L w -> M (map f w)) -> forall n w, power L n w -> power M n (map f w).
Proof.
  intros H. induction n as [|n IH]; cbn; [intros w ->; auto|].
  intros w (u & v & -> & Hu & Hv). rewrite map_app. exists (map f u), (map f v). auto.
Qed.
Lemma power_lift {A B} (f : A -> B) (L : list A -> Prop) (M : list B -> Prop) :
  (forall w, M w -> exists x, L x /\ map f x = w) ->
  forall n w, power M n w -> exists x, power L n x /\ map f x = w.
Proof.
  intros H. induction n as [|n IH]; cbn; [intros w ->; exists []; auto|].
  intros w (u & v & -> & Hu & Hv). apply H in Hu as (x & Hx & <-). apply IH in Hv as (y & Hy & <-).
  exists (x ++ y). split; [exists x, y; auto|]. apply map_app.
Qed.

Lemma rounds_erase {A} (L : list (A * bool) -> Prop) (M : list A -> Prop) g mn mx :
  (forall w, L w -> M (map fst w)) -> forall w, rounds L g mn mx w ->
  exists n, mn <= N.of_nat n /\ match mx with Some m => N.of_nat n <= m | None => True end /\
    power M n (map fst w).
Proof.
  intros H w (u & v & j & -> & Pu & Hm & Pv). exists (N.to_nat mn + j)%nat.
  split; [lia|]. split; [destruct mx; [lia|auto]|]. rewrite map_app. apply power_add.
  exists (map fst u), (map fst v). split; [auto|]. split.
  - eapply power_map; [|exact Pu]. auto.
  - eapply power_map; [|exact Pv]. intros x (y & Hy & ->). destruct g; [rewrite begin_mark_fst|]; auto.
Qed.
Lemma rounds_lift {A} (L : list (A * bool) -> Prop) (M : list A -> Prop) g mn mx n w :
  (forall w, M w -> exists x, L x /\ map fst x = w) ->
  mn <= N.of_nat n -> match mx with Some m => N.of_nat n <= m | None => True end -> power M n w ->
  exists x, rounds L g mn mx x /\ map fst x = w.
Proof.
  intros H H1 H2 P. replace n with (N.to_nat mn + (n - N.to_nat mn))%nat in P by lia.
  apply power_add in P as (u & v & -> & Pu & Pv).
  destruct (power_lift fst L M H _ _ Pu) as (x & Px & <-).
  destruct (power_lift fst (fun x => exists y, L y /\ x = if g then begin_mark y else y) M) with
    (n := (n - N.to_nat mn)%nat) (w := v) as (y & Py & <-); auto.
  { intros z Hz. apply H in Hz as (y & Hy & <-). exists (if g then begin_mark y else y).
    split; [eauto|]. destruct g; [apply begin_mark_fst|auto]. }
  exists (x ++ y). split; [|apply map_app]. exists x, y, (n - N.to_nat mn)%nat.
  split; [auto|]. split; [auto|]. split; [destruct mx; [lia|auto]|auto].
Qed.

Lemma mgram_erase X r ts : mgram X r ts ->
  exists x, gram X x ts /\ forall w, mlang r w -> clang x (map fst w).
Proof.
  induction 1 as [r w H (x & G & L)|a b u v t H1 (x & G1 & L1) T H2 (y & G2 & L2)|r w H (x & G & L)
    |a b u v H1 (x & G1 & L1) H2 (y & G2 & L2)|r w H (x & G & L)|r w t g mn mx H (x & G & L) D
    |t T|t T|t T|r w o c To H (x & G & L) Tc].
  - exists x. split; [now constructor|auto].
  - exists (XAlt x y). split; [now constructor|]. cbn. intros w0 [W|W]; auto.
  - exists x. split; [now constructor|auto].
  - exists (XCat x y). split; [now constructor|]. cbn. intros w0 (p & q & -> & P & Q).
    rewrite map_app. exists (map fst p), (map fst q). auto.
  - exists x. split; [now constructor|auto].
  - assert (R : forall w, mlang (MRep r g mn mx) w -> exists n, mn <= N.of_nat n /\
       match mx with Some m => N.of_nat n <= m | None => True end /\ power (clang x) n (map fst w))
      by (intros w0; apply rounds_erase; auto).
    destruct D as [t T|t T|t T|t T|t T|t T|t mn mx T C|t mn mx T C].
    + exists (XOpt x). split; [constructor; [auto|constructor; auto]|]. intros w0 W.
      apply R in W as (n & _ & N1 & P). cbn. destruct n as [|[|n]]; [cbn in P; auto| |lia].
      right. now apply power1.
    + exists (XOpt x). split; [constructor; [auto|constructor; auto]|]. intros w0 W.
      apply R in W as (n & _ & N1 & P). cbn. destruct n as [|[|n]]; [cbn in P; auto| |lia].
      right. now apply power1.
    + exists (XStar x). split; [constructor; [auto|constructor; auto]|]. intros w0 W.
      apply R in W as (n & _ & _ & P). cbn. eauto.
    + exists (XStar x). split; [constructor; [auto|constructor; auto]|]. intros w0 W.
      apply R in W as (n & _ & _ & P). cbn. eauto.
    + exists (XPlus x). split; [constructor; [auto|constructor; auto]|]. intros w0 W.
      apply R in W as (n & H1 & _ & P). cbn. exists n. split; [lia|auto].
    + exists (XPlus x). split; [constructor; [auto|constructor; auto]|]. intros w0 W.
      apply R in W as (n & H1 & _ & P). cbn. exists n. split; [lia|auto].
    + exists (XRep x mn mx). split; [|intros w0 W; cbn; apply R; auto].
      apply (g_dup x w t (fun a => XRep a mn mx)); [auto|constructor; auto].
    + exists (XRep x mn mx). split; [|intros w0 W; cbn; apply R; auto].
      apply (g_dup x w t (fun a => XRep a mn mx)); [auto|constructor; auto].
  - exists (XSet (tk_str t)). split; [now constructor|]. cbn. intros w0 (c & M & ->). exists c. auto.
  - exists XBol. split; [now constructor|]. cbn. intros w0 ->. auto.
  - exists XEol. split; [now constructor|]. cbn. intros w0 ->. auto.
  - exists x. split; [now constructor|auto].
Qed.

Lemma mgram_lift X x ts : gram X x ts ->
  exists r, mgram X r ts /\ forall w, clang x w -> exists W, mlang r W /\ map fst W = w.
Proof.
  induction 1 as [r w H (x & G & L)|a b u v t H1 (x & G1 & L1) T H2 (y & G2 & L2)|r w H (x & G & L)
    |a b u v H1 (x & G1 & L1) H2 (y & G2 & L2)|r w H (x & G & L)|r w t f H (x & G & L) D
    |t T|t T|t T|r w o c To H (x & G & L) Tc].
  - exists x. split; [now constructor|auto].
  - exists (MAlt x y). split; [now constructor|]. cbn. intros w0 [W|W].
    + apply L1 in W as (W' & ? & ?). eauto.
    + apply L2 in W as (W' & ? & ?). eauto.
  - exists x. split; [now constructor|auto].
  - exists (MCat x y). split; [now constructor|]. cbn. intros w0 (p & q & -> & P & Q).
    apply L1 in P as (P' & ? & <-). apply L2 in Q as (Q' & ? & <-).
    exists (P' ++ Q'). split; [eauto 6|apply map_app].
  - exists x. split; [now constructor|auto].
  - assert (K : forall g mn mx n w, mn <= N.of_nat n ->
       match mx with Some m => N.of_nat n <= m | None => True end -> power (clang r) n w ->
       exists W, mlang (MRep x g mn mx) W /\ map fst W = w)
      by (intros g mn mx n w0 A1 A2 A3; cbn; eapply rounds_lift; eauto).
    assert (O : forall g w, w = [] \/ clang r w ->
       exists W, mlang (MRep x g 0 (Some 1)) W /\ map fst W = w).
    { intros g w0 [->|W]; [apply (K g 0 (Some 1) 0%nat)|apply (K g 0 (Some 1) 1%nat)]; try (cbn; lia).
      - reflexivity.
      - now apply power1. }
    destruct D as [t [T|T]|t [T|T]|t [T|T]|t mn mx [T|T] C].
    + exists (MRep x true 0 (Some 1)). split; [constructor; [auto|now constructor]|]. intros w0. apply O.
    + exists (MRep x false 0 (Some 1)). split; [constructor; [auto|now constructor]|]. intros w0. apply O.
    + exists (MRep x true 0 None). split; [constructor; [auto|now constructor]|].
      intros w0 (n & P). apply (K true 0 None n); [lia|auto|auto].
    + exists (MRep x false 0 None). split; [constructor; [auto|now constructor]|].
      intros w0 (n & P). apply (K false 0 None n); [lia|auto|auto].
    + exists (MRep x true 1 None). split; [constructor; [auto|now constructor]|].
      intros w0 (n & N1 & P). apply (K true 1 None n); [lia|auto|auto].
    + exists (MRep x false 1 None). split; [constructor; [auto|now constructor]|].
      intros w0 (n & N1 & P). apply (K false 1 None n); [lia|auto|auto].
    + exists (MRep x true mn mx). split; [constructor; [auto|now constructor]|].
      intros w0 (n & N1 & N2 & P). apply (K true mn mx n); auto.
    + exists (MRep x false mn mx). split; [constructor; [auto|now constructor]|].
      intros w0 (n & N1 & N2 & P). apply (K false mn mx n); auto.
  - exists (MSet (tk_str t)). split; [now constructor|]. cbn. intros w0 (c & M & ->).
    exists [(CChar c, false)]. split; [eauto|auto].
  - exists MBol. split; [now constructor|]. cbn. intros w0 ->. exists [(CBol, false)]. auto.
  - exists MEol. split; [now constructor|]. cbn. intros w0 ->. exists [(CEol, false)]. auto.
  - exists x. split; [now constructor|auto].
Qed.

(** The marked words of a rule are its words, with marks. *)
Theorem marks_words r w : w <> [] ->
  rule_lang r w <-> exists W, rule_marks r W /\ map fst W = w.
Proof.
  intros NE. split.
  - intros (ts & [x|] & T & G & L); cbn in G, L; [|congruence].
    apply mgram_lift in G as (y & G & K). apply K in L as (W & L & <-).
    exists W. split; [|auto]. exists ts, y. auto.
  - intros (W & (ts & y & T & G & L) & <-). apply mgram_erase in G as (x & G & K).
    exists ts, (Some x). cbn. auto.
Qed.
Lemma goes_on_match y bol cs c cs' : goes_on y bol cs c cs' -> rmatch y bol (cs ++ c :: cs').
Proof.
  intros (W1 & W2 & M & E & E2).
  assert (K1 : map fst W1 = map CChar cs -> rule_lang y (map CChar (cs ++ c :: cs'))).
  { intros E1. apply marks_words; [now destruct cs|]. eexists. split; [exact M|].
    rewrite map_app. cbn [map fst]. rewrite E1, E2, map_app. reflexivity. }
  assert (K2 : map fst W1 = CBol :: map CChar cs -> rule_lang y (CBol :: map CChar (cs ++ c :: cs'))).
  { intros E1. apply marks_words; [discriminate|]. eexists. split; [exact M|].
    rewrite map_app. cbn [map fst]. rewrite E1, E2, map_app. reflexivity. }
  unfold rmatch. destruct bol; [destruct E as [E|[NA E]]; auto|auto].
Qed.
