(** The grammar is unambiguous. *)
From Verif Require Import Base StringToken ReToken Parser Grammar ParserProofs.
Local Open Scope N_scope.

Lemma app_eq_cases {A} (a b c d : list A) : a ++ b = c ++ d ->
  (exists y, b = y ++ d /\ c = a ++ y) \/ (exists y, d = y ++ b /\ a = c ++ y).
Proof.
  revert c. induction a as [|x a IH]; intros c H; cbn in H.
  - left. exists c. auto.
  - destruct c as [|z c]; cbn in H.
    + right. exists (x :: a). auto.
    + injection H as <- H. apply IH in H as [(y & -> & ->)|(y & -> & ->)]; [left|right]; exists y; auto.
Qed.

(** The last token of an atom. *)
Definition closes (t : ttype) : bool :=
  match t with CHARSET | BOL | EOL | CLOSEPAREN => true | _ => false end.
Lemma atom_last r w : gram GAtom r w -> exists v t, w = v ++ [t] /\ closes (tk_type t) = true.
Proof.
  intros H. inversion H as [| | | | | |t E|t E|t E|r' w' o c Eo G Ec]; subst;
    try (exists [], t; cbn; now rewrite E).
  exists (o :: w'), c. rewrite Ec. auto.
Qed.
Lemma atom_inv r w : gram GAtom r w ->
  (exists t, w = [t] /\ (tk_type t = CHARSET \/ tk_type t = BOL \/ tk_type t = EOL)) \/
  (exists o w' c, w = o :: w' ++ [c] /\ tk_type o = OPENPAREN /\ tk_type c = CLOSEPAREN /\ gram GRegex r w').
Proof.
  intros H. inversion H as [| | | | | |t E|t E|t E|r' w' o c Eo G Ec]; subst; [left; eauto..|].
  right. exists o, w', c. auto.
Qed.
Lemma dup_type t f : dup t f -> is_dup (tk_type t) = true.
Proof. intros H. inversion H as [? E|? E|? E|? ? ? E ?]; destruct E as [-> | ->]; reflexivity. Qed.

Lemma depth_mono n m w e : depth n w = Some e -> depth (n + m) w = Some (e + m)%nat.
Proof.
  revert n. induction w as [|t w IH]; intros n; cbn [depth]; [now intros [= ->]|].
  destruct (tk_type t); auto.
  - intros H. apply (IH (S n)) in H. exact H.
  - destruct n as [|n]; [discriminate|]. cbn [plus]. apply IH.
Qed.

(** An alternation inside a sequence is in parentheses. *)
Lemma seq_or X r w : gram X r w -> X <> GRegex -> forall y z t, w = y ++ t :: z -> tk_type t = OR ->
  depth 0 y <> Some 0%nat.
Proof.
  induction 1 as [r w H IH|a b u v t0 H IH Ht H2 IH2|r w H IH|a b u v H IH H2 IH2|r w H IH|r w t0 f H IH D
                 |t0 E|t0 E|t0 E|r w o c Eo H IH Ec]; intros NX y z t Ew Et; try easy.
  - apply IH with (2 := Ew); auto; discriminate.
  - apply app_eq_cases in Ew as [(q & -> & ->)|(q & Eq & ->)].
    + destruct q as [|p q]; cbn in *.
      * exfalso. apply (IH2 ltac:(discriminate) [] z t); auto.
      * rewrite depth_app, (gram_depth _ _ _ H). apply IH2 with (y := p :: q) (z := z) (t := t); auto; discriminate.
    + destruct q as [|p q]; cbn in Eq.
      * exfalso. apply (IH2 ltac:(discriminate) [] z t); auto.
      * injection Eq as <- ->. apply IH with (y := y) (z := q) (t := t); auto; discriminate.
  - apply IH with (2 := Ew); auto; discriminate.
  - apply app_eq_cases in Ew as [(q & Eq & ->)|(q & Eq & ->)].
    + exfalso. apply dup_type in D. destruct q as [|p q]; cbn in Eq.
      * injection Eq as -> _. rewrite Et in D. discriminate.
      * destruct q; discriminate.
    + destruct q as [|p q]; cbn in Eq.
      * exfalso. injection Eq as -> _. apply dup_type in D. rewrite Et in D. discriminate.
      * injection Eq as <- ->. apply IH with (y := y) (z := q) (t := t); auto; discriminate.
  - destruct y as [|p y]; cbn in Ew; [injection Ew as -> ->; congruence|destruct y; discriminate].
  - destruct y as [|p y]; cbn in Ew; [injection Ew as -> ->; congruence|destruct y; discriminate].
  - destruct y as [|p y]; cbn in Ew; [injection Ew as -> ->; congruence|destruct y; discriminate].
  - destruct y as [|p y]; cbn in Ew; injection Ew as -> Ew; [congruence|].
    cbn [depth]. rewrite Eo. intros Hd.
    assert (Q : exists q, w = y ++ q).
    { apply app_eq_cases in Ew as [(q & Eq & ->)|(q & Eq & ->)].
      - destruct q as [|p' q]; cbn in Eq; [injection Eq as -> _; congruence|destruct q; discriminate].
      - eauto. }
    destruct Q as (q & ->). pose proof (gram_depth _ _ _ H 0%nat) as D0. rewrite depth_app in D0.
    destruct (depth 0 y) as [e|] eqn:Ey; [|discriminate].
    apply (depth_mono 0 1) in Ey. cbn in Ey. rewrite Ey in Hd. injection Hd as Hd. lia.
Qed.

(** A suffix that is an expression is unique. *)
Lemma atom_suffix r1 w1 r2 w2 x1 x2 : gram GAtom r1 w1 -> gram GAtom r2 w2 -> x1 ++ w1 = x2 ++ w2 -> w1 = w2.
Proof.
  assert (Paren : forall r w o c r' w' o' c' y, tk_type o = OPENPAREN -> tk_type o' = OPENPAREN ->
    tk_type c = CLOSEPAREN -> tk_type c' = CLOSEPAREN ->
    gram GRegex r w -> gram GRegex r' w' -> o :: w ++ [c] = y ++ o' :: w' ++ [c'] -> y = []).
  { intros r w o c r' w' o' c' y Eo Eo' Ec Ec' G G' E. destruct y as [|p y]; [auto|]. exfalso.
    cbn in E. injection E as -> E. change (o' :: w' ++ [c']) with ((o' :: w') ++ [c']) in E.
    rewrite app_assoc in E. apply app_inj_tail in E as [E _].
    pose proof (gram_depth _ _ _ G 0%nat) as D. rewrite E, depth_app in D.
    destruct (depth 0 y) as [e|]; [|discriminate]. cbn [depth] in D. rewrite Eo' in D.
    rewrite (gram_depth _ _ _ G') in D. discriminate. }
  intros G1 G2 E.
  destruct (atom_last _ _ G1) as (v1 & t1 & -> & C1), (atom_last _ _ G2) as (v2 & t2 & -> & C2).
  assert (Et : t1 = t2) by (rewrite !app_assoc in E; now apply app_inj_tail in E). subst t2.
  assert (One : forall r v t, gram GAtom r (v ++ [t]) -> tk_type t <> CLOSEPAREN -> v = []).
  { intros r v t G N. destruct (atom_inv _ _ G) as [(t' & Ew & _)|(o & w' & c & Ew & Eo & Ec & _)].
    - destruct v as [|? [|]]; [auto|discriminate|discriminate].
    - exfalso. change (o :: w' ++ [c]) with ((o :: w') ++ [c]) in Ew. apply app_inj_tail in Ew as [_ <-]. auto. }
  destruct (ttype_eqb (tk_type t1) CLOSEPAREN) eqn:Q.
  2:{ assert (N : tk_type t1 <> CLOSEPAREN) by (intros Z; rewrite Z in Q; discriminate).
      rewrite (One _ _ _ G1 N), (One _ _ _ G2 N). reflexivity. }
  assert (Ec : tk_type t1 = CLOSEPAREN) by (destruct (tk_type t1); try discriminate; auto).
  assert (Grp : forall r v, gram GAtom r (v ++ [t1]) -> exists o r' w', tk_type o = OPENPAREN /\
     v = o :: w' /\ gram GRegex r' w').
  { intros r v G. destruct (atom_inv _ _ G) as [(t' & Ew & Ht)|(o & w' & c & Ew & Eo & _ & Gr)].
    - destruct v as [|? [|]]; try discriminate. injection Ew as ->.
      destruct Ht as [Ht|[Ht|Ht]]; congruence.
    - change (o :: w' ++ [c]) with ((o :: w') ++ [c]) in Ew. apply app_inj_tail in Ew as [-> _]. eauto 6. }
  destruct (Grp _ _ G1) as (o1 & r1' & w1' & Eo1 & -> & H1), (Grp _ _ G2) as (o2 & r2' & w2' & Eo2 & -> & H2).
  cbn [app] in *. apply app_eq_cases in E as [(y & E & _)|(y & E & _)].
  - assert (y = []) by (eapply Paren; [| | | |exact H1|exact H2|exact E]; auto). now subst y.
  - assert (y = []) by (eapply Paren; [| | | |exact H2|exact H1|exact E]; auto). now subst y.
Qed.
Lemma expr_last r w : gram GExpr r w ->
  (gram GAtom r w /\ exists v t, w = v ++ [t] /\ is_dup (tk_type t) = false) \/
  (exists r' v t f, r = f r' /\ w = v ++ [t] /\ gram GAtom r' v /\ dup t f).
Proof.
  intros H. inversion H as [| | | |? ? G|r' v t f G D| | | |]; subst.
  - left. split; [auto|]. destruct (atom_last _ _ G) as (v & t & -> & C). exists v, t. split; [auto|].
    destruct (tk_type t); try discriminate; reflexivity.
  - right. exists r', v, t, f. auto.
Qed.
Lemma expr_suffix r1 w1 r2 w2 x1 x2 : gram GExpr r1 w1 -> gram GExpr r2 w2 -> x1 ++ w1 = x2 ++ w2 -> w1 = w2.
Proof.
  intros G1 G2 E.
  destruct (expr_last _ _ G1) as [[A1 (v1 & t1 & E1 & N1)]|(s1 & v1 & t1 & f1 & -> & E1 & A1 & D1)],
           (expr_last _ _ G2) as [[A2 (v2 & t2 & E2 & N2)]|(s2 & v2 & t2 & f2 & -> & E2 & A2 & D2)].
  - eapply atom_suffix; eauto.
  - exfalso. rewrite E1, E2, !app_assoc in E. apply app_inj_tail in E as [_ ->]. apply dup_type in D2. congruence.
  - exfalso. rewrite E1, E2, !app_assoc in E. apply app_inj_tail in E as [_ ->]. apply dup_type in D1. congruence.
  - subst. rewrite !app_assoc in E. apply app_inj_tail in E as [E ->]. f_equal. eapply atom_suffix; eauto.
Qed.

Lemma dup_fun t f g : dup t f -> dup t g -> forall r, f r = g r.
Proof.
  intros F G r. inversion F as [? E|? E|? E|? mn mx E C]; inversion G as [? E'|? E'|? E'|? mn' mx' E' C'];
    subst; try reflexivity;
    try (exfalso; destruct E as [E|E], E' as [E'|E']; rewrite E in E'; discriminate).
  destruct (counts_fun _ _ _ _ _ C C') as [-> ->]. reflexivity.
Qed.

Lemma regex_inv r w : gram GRegex r w -> gram GSeq r w \/
  exists a b u v t, r = XAlt a b /\ w = u ++ t :: v /\ gram GRegex a u /\ tk_type t = OR /\ gram GSeq b v.
Proof. intros H. inversion H; subst; [auto|right; eauto 12]. Qed.
Lemma seq_inv r w : gram GSeq r w -> gram GExpr r w \/
  exists a b u v, r = XCat a b /\ w = u ++ v /\ gram GSeq a u /\ gram GExpr b v.
Proof. intros H. inversion H; subst; [auto|right; eauto 12]. Qed.
Lemma app_self {A} (u v : list A) : v = u ++ v -> u = [].
Proof. intros H. apply (f_equal (@length A)) in H. rewrite app_length in H. destruct u; cbn in H; [auto|lia]. Qed.

Theorem gram_unique X r w : gram X r w -> forall r', gram X r' w -> r = r'.
Proof.
  induction 1 as [r w H IH|a b u v t0 H IH Ht H2 IH2|r w H IH|a b u v H IH H2 IH2|r w H IH|r w t0 f H IH D
                 |t0 E|t0 E|t0 E|r w o c Eo H IH Ec]; intros r' G.
  - apply regex_inv in G as [G|(a' & b' & u' & v' & t' & -> & -> & G1 & Et & G2)]; [auto|].
    exfalso. apply (seq_or _ _ _ H ltac:(discriminate) u' v' t'); auto. apply (gram_depth _ _ _ G1).
  - apply regex_inv in G as [G1|(a' & b' & u' & v' & t' & -> & Ew & G1 & Et & G2)].
    + exfalso. apply (seq_or _ _ _ G1 ltac:(discriminate) u v t0); auto. apply (gram_depth _ _ _ H).
    + assert (Z : forall p q y t rp rq, gram GSeq rp p -> gram GSeq rq q -> tk_type t = OR ->
         p = y ++ t :: q -> False).
      { intros p q y t rp rq Gp Gq To Ep. apply (seq_or _ _ _ Gp ltac:(discriminate) y q t); auto.
        pose proof (gram_depth _ _ _ Gp 0%nat) as Dp. rewrite Ep, depth_app in Dp.
        destruct (depth 0 y) as [e|]; [|discriminate]. cbn [depth] in Dp. rewrite To in Dp.
        rewrite (gram_depth _ _ _ Gq) in Dp. exact Dp. }
      apply app_eq_cases in Ew as [(y & Ey & Ey')|(y & Ey & Ey')].
      * destruct y as [|p y]; cbn in Ey.
        -- injection Ey as <- <-. rewrite app_nil_r in Ey'. subst u'. f_equal; auto.
        -- injection Ey as <- ->. exfalso. eapply (Z (y ++ t' :: v') v' y t'); eauto.
      * destruct y as [|p y]; cbn in Ey.
        -- injection Ey as <- <-. rewrite app_nil_r in Ey'. subst u'. f_equal; auto.
        -- injection Ey as <- ->. exfalso. eapply (Z (y ++ t0 :: v) v y t0); eauto.
  - apply seq_inv in G as [G|(a' & b' & u' & v' & -> & -> & G1 & G2)]; [auto|].
    exfalso. pose proof (expr_suffix _ _ _ _ [] u' H G2 eq_refl) as Q.
    symmetry in Q. apply app_self in Q. subst u'. now apply gram_ne in G1.
  - apply seq_inv in G as [G1|(a' & b' & u' & v' & -> & Ew & G1 & G2)].
    + exfalso. pose proof (expr_suffix _ _ _ _ [] u G1 H2 eq_refl) as Q.
      symmetry in Q. apply app_self in Q. subst u. now apply gram_ne in H.
    + assert (v = v') by (eapply expr_suffix; eauto). subst v'. apply app_inv_tail in Ew. subst u'. f_equal; auto.
  - apply expr_last in G as [[G _]|(r1 & v & t & f & -> & -> & G1 & D)]; [auto|].
    exfalso. destruct (atom_last _ _ H) as (v' & t' & Ew & C). apply app_inj_tail in Ew as [-> ->].
    apply dup_type in D. destruct (tk_type t'); discriminate.
  - apply expr_last in G as [[G1 _]|(r1 & v & t & f' & -> & Ew & G1 & D')].
    + exfalso. destruct (atom_last _ _ G1) as (v' & t' & Ew & C). apply app_inj_tail in Ew as [-> ->].
      apply dup_type in D. destruct (tk_type t'); discriminate.
    + apply app_inj_tail in Ew as [<- <-]. rewrite (IH _ G1). now apply (dup_fun t0).
  - inversion G; subst; congruence.
  - inversion G; subst; congruence.
  - inversion G; subst; congruence.
  - destruct (atom_inv _ _ G) as [(t' & Ew & _)|(o1 & w1 & c1 & Ew & _ & _ & G1)].
    + destruct w; discriminate.
    + injection Ew as _ Ew. apply app_inj_tail in Ew as [<- _]. auto.
Qed.
