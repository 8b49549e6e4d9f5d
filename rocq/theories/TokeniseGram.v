(** Token vectors whose neighbours fit and whose parentheses match are regular
    expressions. *)
From Verif Require Import Base StringToken StringTokenSpec ReToken ReTokeniser Grammar GramUnique ParserProofs
  Rules TokeniseSpec TokeniseProofs.
Local Open Scope N_scope.

(** Inside one pair of parentheses: an operand is expected, an operand ends, or a
    duplicated operand ends. *)
Definition lv0 (c : list token) : Prop :=
  c = [] \/ exists a A t, c = A ++ [t] /\ gram GRegex a A /\ tk_type t = OR.
Definition seq0 (s : list token) : Prop := s = [] \/ exists r, gram GSeq r s.
Definition lv1 (c : list token) : Prop :=
  exists p s a r, c = p ++ s ++ a /\ lv0 p /\ seq0 s /\ gram GAtom r a.
Definition lv2 (c : list token) : Prop := exists p s r, c = p ++ s /\ lv0 p /\ gram GSeq r s.
Lemma lv0_seq p s r : lv0 p -> gram GSeq r s -> exists r', gram GRegex r' (p ++ s).
Proof.
  intros [->|(a & A & t & -> & H1 & H2)] H; [exists r; now constructor|].
  rewrite <- app_assoc. cbn [app]. eexists. eapply g_or; eauto.
Qed.
Lemma lv2_regex c : lv2 c -> exists r, gram GRegex r c.
Proof. intros (p & s & r & -> & H1 & H2). eapply lv0_seq; eauto. Qed.
Lemma seq0_expr s a r : seq0 s -> gram GExpr r a -> exists r', gram GSeq r' (s ++ a).
Proof. intros [->|(q & H)] G; [exists r; now constructor|]. eexists. eapply g_cat; eauto. Qed.
Lemma lv1_lv2 c : lv1 c -> lv2 c.
Proof.
  intros (p & s & a & r & -> & H1 & H2 & H3). destruct (seq0_expr s a r H2) as (r' & G); [now constructor|].
  exists p, (s ++ a), r'. auto.
Qed.
Definition lvx (c : list token) : Prop := lv0 c \/ lv2 c.
Lemma lvx_atom c a r : lvx c -> gram GAtom r a -> lv1 (c ++ a).
Proof.
  intros [H|(p & s & q & -> & H1 & H2)] G.
  - exists c, [], a, r. split; [reflexivity|]. split; [auto|]. split; [now left|auto].
  - exists p, s, a, r. rewrite app_assoc. split; [reflexivity|]. split; [auto|]. split; [right; eauto|auto].
Qed.
Lemma lv1_dup c t f : lv1 c -> dup t f -> lv2 (c ++ [t]).
Proof.
  intros (p & s & a & r & -> & H1 & H2 & H3) D.
  destruct (seq0_expr s (a ++ [t]) (f r) H2) as (r' & G); [now apply g_dup|].
  exists p, (s ++ a ++ [t]), r'. split; [now rewrite <- !app_assoc|auto].
Qed.
Lemma lv2_or c t : lv2 c -> tk_type t = OR -> lv0 (c ++ [t]).
Proof. intros H E. apply lv2_regex in H. destruct H as (r & H). right. eauto 6. Qed.

Inductive ctx : nat -> list token -> Prop :=
| ctx_nil : ctx 0 []
| ctx_open n p c o : ctx n p -> lvx c -> tk_type o = OPENPAREN -> ctx (S n) (p ++ c ++ [o]).
Definition lvl (ty : ttype) (c : list token) : Prop :=
  match ty with
  | BEGIN | OR | OPENPAREN => lv0 c
  | CHARSET | BOL | EOL | CLOSEPAREN => lv1 c
  | _ => lv2 c
  end.
Lemma lvl_x ty c : lvl ty c -> lvx c.
Proof. unfold lvx. destruct ty; cbn; auto using lv1_lv2. Qed.

(** A duplication directly behind another one; the operator precedence table
    lets OPT through (finding 17). *)
Definition dupb (ty : ttype) : bool :=
  match ty with
  | OPT | AOPT | ZEROORMORE | AZEROORMORE | ONEORMORE | AONEORMORE | REPEATN | AREPEATN => true
  | _ => false
  end.
Fixpoint undoubled (x : ttype) (w : list token) : Prop :=
  match w with
  | [] => True
  | t :: w' => ~ (dupb x = true /\ dupb (tk_type t) = true) /\ undoubled (tk_type t) w'
  end.
Lemma undoubled_app u v : forall x, undoubled x (u ++ v) <-> undoubled x u /\ undoubled (tlast x u) v.
Proof.
  induction u as [|t u IH]; intros x; [cbn; tauto|]. rewrite tlast_cons. cbn [app undoubled]. rewrite IH. tauto.
Qed.

Lemma gram_prefix Q w : Forall (vtok Q) w -> chain BEGIN w -> undoubled BEGIN w -> forall n, depth 0 w = Some n ->
  exists p c, w = p ++ c /\ ctx n p /\ lvl (tlast BEGIN w) c.
Proof.
  induction w as [|t w IH] using rev_ind; intros F C U n D.
  - cbn in D. injection D as <-. exists [], []. split; [reflexivity|]. split; [constructor|]. now left.
  - apply Forall_app in F. destruct F as [F Ft]. inversion Ft as [|? ? T _]; subst. apply chain_app in C. destruct C as [C [Ct _]].
    apply undoubled_app in U. destruct U as [U [Ut _]]. rewrite depth_app in D. destruct (depth 0 w) as [m|] eqn:Dm; [|discriminate].
    destruct (IH F C U m eq_refl) as (p & c & E & P & L). rewrite tlast_snoc.
    pose proof (lvl_x _ _ L) as X.
    assert (S0 : start (tlast BEGIN w) = true).
    { clear - F. destruct w as [|y w1] eqn:Ew; [reflexivity|]. rewrite <- Ew in *.
      destruct (forall_last _ BEGIN _ F) as (z & X1 & X2); [subst; discriminate|].
      rewrite X2. apply vtok_term in X1. destruct (tk_type z); auto; discriminate. }
    set (x := tlast BEGIN w) in *.
    assert (ATOM : forall r, gram GAtom r [t] -> n = m -> exists p0 c0, w ++ [t] = p0 ++ c0 /\ ctx n p0 /\ lv1 c0).
    { intros r G ->. exists p, (c ++ [t]). rewrite E, <- app_assoc. split; [auto|]. split; [auto|]. eapply lvx_atom; eauto. }
    assert (DUP : dupb (tk_type t) = true -> (exists f, dup t f) -> n = m -> exists p0 c0, w ++ [t] = p0 ++ c0 /\ ctx n p0 /\ lv2 c0).
    { intros Hd (f & Hf) ->. exists p, (c ++ [t]). rewrite E, <- app_assoc. split; [auto|]. split; [auto|].
      eapply lv1_dup; [|eauto].
      destruct x; try exact L; exfalso; try discriminate S0; try (apply Ut; rewrite Hd; now split).
      all: destruct (tk_type t); discriminate. }
    unfold vtok in T. cbn [depth] in D.
    destruct (tk_type t) eqn:Et; try contradiction; cbn [lvl].
    + (* OR *) injection D as <-. exists p, (c ++ [t]). rewrite E, <- app_assoc. split; [auto|]. split; [auto|].
      apply lv2_or; [|auto]. destruct x; try discriminate S0; try discriminate Ct; cbn in L; auto using lv1_lv2.
    + injection D as <-. eapply ATOM; [now apply g_set|auto].
    + injection D as <-. eapply ATOM; [now apply g_bol|auto].
    + injection D as <-. eapply ATOM; [now apply g_eol|auto].
    + (* OPENPAREN *) injection D as <-. exists (p ++ c ++ [t]), []. rewrite app_nil_r, E, app_assoc.
      split; [reflexivity|]. split; [rewrite <- app_assoc; now constructor|now left].
    + (* CLOSEPAREN *) destruct m as [|m]; [discriminate|]. injection D as <-. inversion P as [|m' p' c' o P' X' Ho]; subst.
      assert (L2 : lv2 c) by (destruct x; try discriminate S0; try discriminate Ct; cbn in L; auto using lv1_lv2).
      apply lv2_regex in L2. destruct L2 as (r & G).
      exists p', (c' ++ o :: c ++ [t]). split; [now rewrite <- !app_assoc|]. split; [auto|].
      eapply lvx_atom; [exact X'|]. eapply g_paren; eauto.
    + injection D as <-. apply DUP; auto. exists XOpt. constructor. auto.
    + injection D as <-. apply DUP; auto. exists XOpt. constructor. auto.
    + injection D as <-. apply DUP; auto. exists XStar. constructor. auto.
    + injection D as <-. apply DUP; auto. exists XStar. constructor. auto.
    + injection D as <-. apply DUP; auto. exists XPlus. constructor. auto.
    + injection D as <-. apply DUP; auto. exists XPlus. constructor. auto.
    + injection D as <-. destruct T as (mn & mx & T & _). apply DUP; auto. exists (fun a => XRep a mn mx). constructor; auto.
    + injection D as <-. destruct T as (mn & mx & T & _). apply DUP; auto. exists (fun a => XRep a mn mx). constructor; auto.
Qed.

Theorem vec_gram Q w : vec Q w -> undoubled BEGIN w -> exists o, ogram o w.
Proof.
  intros V U. pose proof (ve_chain _ _ V) as C. apply chain_app in C. destruct C as [C [C2 _]].
  destruct (gram_prefix Q w (ve_toks _ _ V) C U 0 (ve_bal _ _ V)) as (p & c & E & P & L).
  inversion P; subst p. cbn in E. subst c.
  destruct w as [|t w1] eqn:Ew; [now exists None|]. rewrite <- Ew in *.
  assert (L2 : lv2 w).
  { destruct (forall_last _ BEGIN _ (ve_toks _ _ V)) as (x & X1 & X2); [subst; discriminate|]. rewrite X2 in *.
    unfold vtok in X1. destruct (tk_type x); try contradiction; try discriminate C2; cbn in L; auto using lv1_lv2. }
  apply lv2_regex in L2. destruct L2 as (r & G). exists (Some r). exact G.
Qed.
