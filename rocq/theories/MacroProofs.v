(** rules.hpp:674-797: a macro stands for its text in parentheses. *)
From Verif Require Import Base StringToken StringTokenSpec RegexSpec ReToken DfaSpec Grammar GramUnique ParserProofs Parser ReTokeniser Rules
  TokeniseSpec TokeniseProofs TokeniseGram StripProofs PruneProofs PruneLang.
Local Open Scope N_scope.

Lemma depth_open p o v n m : depth n p = Some m -> tk_type o = OPENPAREN -> depth n (p ++ o :: v) = depth (S m) v.
Proof. intros D H. rewrite depth_app, D. cbn. now rewrite H. Qed.
Lemma cut_open X r p o v : gram X r (p ++ o :: v) -> tk_type o = OPENPAREN -> depth 1 v = Some 1%nat -> False.
Proof.
  intros G H D. pose proof (gram_depth _ _ _ G 0%nat) as E. destruct (depth 0 p) as [m|] eqn:Ep.
  - rewrite (depth_open _ _ _ _ _ Ep H) in E. apply (depth_mono 1 m) in D. cbn [Nat.add] in D. rewrite D in E. injection E. lia.
  - rewrite depth_app, Ep in E. discriminate.
Qed.
Lemma set_only t r : tk_type t = CHARSET -> gram GRegex r [t] -> r = XSet (tk_str t).
Proof. intros H G. eapply gram_unique; [exact G|]. apply g_regex, g_seq, g_expr. now constructor. Qed.

Section Paren.
  Variables o c : token.
  Hypothesis Ho : tk_type o = OPENPAREN.
  Hypothesis Hc : tk_type c = CLOSEPAREN.
  Lemma paren_in X r w : gram X r w -> forall p t q, w = p ++ t :: q -> tk_type t = CHARSET -> gram X r (p ++ o :: t :: c :: q).
  Proof.
    induction 1 as [r w G IH|a b u v s G1 IH1 Es G2 IH2|r w G IH|a b u v G1 IH1 G2 IH2|r w G IH|r w s f G IH D|s Es|s Es|s Es|r w o' c' Eo G IH Ec];
      intros p t q E Ht.
    - constructor. eauto.
    - destruct (split_app _ _ _ _ _ E) as [(v1 & -> & ->)|(u1 & -> & E1)].
      + change (p ++ o :: t :: c :: v1 ++ s :: v) with (p ++ (o :: t :: c :: v1) ++ s :: v). rewrite app_assoc. apply g_or; auto.
      + destruct u1 as [|x u1]; cbn in E1; injection E1 as -> E1; [congruence|]. rewrite <- app_assoc. cbn [app]. apply g_or; auto.
    - constructor. eauto.
    - destruct (split_app _ _ _ _ _ E) as [(v1 & -> & ->)|(u1 & -> & E1)].
      + change (p ++ o :: t :: c :: v1 ++ v) with (p ++ (o :: t :: c :: v1) ++ v). rewrite app_assoc. apply g_cat; auto.
      + rewrite <- app_assoc. apply g_cat; auto.
    - constructor. eauto.
    - destruct (split_app _ _ _ _ _ E) as [(v1 & -> & ->)|(u1 & -> & E1)].
      + change (p ++ o :: t :: c :: v1 ++ [s]) with (p ++ (o :: t :: c :: v1) ++ [s]). rewrite app_assoc. apply g_dup; auto.
      + destruct u1 as [|x u1]; cbn in E1; injection E1 as -> E1; [|destruct u1; discriminate]. apply dup_type in D. rewrite Ht in D. discriminate.
    - destruct p as [|x p]; cbn in E; injection E as -> E; [|destruct p; discriminate]. subst q.
      apply (g_paren (XSet (tk_str t)) [t] o c Ho); [|exact Hc]. apply g_regex, g_seq, g_expr. now constructor.
    - destruct p as [|x p]; cbn in E; injection E as -> E; [congruence|destruct p; discriminate].
    - destruct p as [|x p]; cbn in E; injection E as -> E; [congruence|destruct p; discriminate].
    - destruct p as [|x p]; cbn in E; injection E as -> E; [congruence|]. destruct (split_app _ _ _ _ _ E) as [(v1 & -> & ->)|(u1 & -> & E1)].
      + change ((x :: p) ++ o :: t :: c :: v1 ++ [c']) with (x :: p ++ (o :: t :: c :: v1) ++ [c']). rewrite app_assoc. apply g_paren; auto.
      + destruct u1 as [|y u1]; cbn in E1; injection E1 as -> E1; [congruence|destruct u1; discriminate].
  Qed.
  Lemma paren_out X r w : gram X r w -> forall p t q, w = p ++ o :: t :: c :: q -> tk_type t = CHARSET -> gram X r (p ++ t :: q).
  Proof.
    assert (D1 : depth 1 [] = Some 1%nat) by reflexivity.
    assert (D2 : forall t, tk_type t = CHARSET -> depth 1 [t] = Some 1%nat) by (intros t H; cbn; now rewrite H).
    induction 1 as [r w G IH|a b u v s G1 IH1 Es G2 IH2|r w G IH|a b u v G1 IH1 G2 IH2|r w G IH|r w s f G IH D|s Es|s Es|s Es|r w o' c' Eo G IH Ec];
      intros p t q E Ht.
    - constructor. eauto.
    - destruct (split_app _ _ _ _ _ E) as [(v1 & -> & E1)|(u1 & -> & E1)].
      + destruct v1 as [|x [|y v1]]; cbn in E1.
        * exfalso. eapply cut_open; eauto.
        * injection E1 as <- E1 E2. exfalso. eapply cut_open; eauto.
        * injection E1 as <- <- ->. change (p ++ t :: v1 ++ s :: v) with (p ++ (t :: v1) ++ s :: v). rewrite app_assoc. apply g_or; auto.
      + destruct u1 as [|x u1]; cbn in E1; injection E1 as -> E1; [congruence|]. rewrite <- app_assoc. cbn [app]. apply g_or; auto.
    - constructor. eauto.
    - destruct (split_app _ _ _ _ _ E) as [(v1 & -> & E1)|(u1 & -> & E1)].
      + destruct v1 as [|x [|y v1]]; cbn in E1.
        * exfalso. eapply cut_open; eauto.
        * injection E1 as <- E1. exfalso. eapply cut_open; eauto.
        * injection E1 as <- <- ->. change (p ++ t :: v1 ++ v) with (p ++ (t :: v1) ++ v). rewrite app_assoc. apply g_cat; auto.
      + rewrite <- app_assoc. apply g_cat; auto.
    - constructor. eauto.
    - destruct (split_app _ _ _ _ _ E) as [(v1 & -> & E1)|(u1 & -> & E1)].
      + destruct v1 as [|x [|y v1]]; cbn in E1.
        * discriminate.
        * injection E1 as <- <- E1. exfalso. apply dup_type in D. rewrite Hc in D. discriminate.
        * injection E1 as <- <- ->. change (p ++ t :: v1 ++ [s]) with (p ++ (t :: v1) ++ [s]). rewrite app_assoc. apply g_dup; auto.
      + apply (f_equal (@length token)) in E1. rewrite app_length in E1. cbn in E1. lia.
    - apply (f_equal (@length token)) in E. rewrite app_length in E. cbn in E. lia.
    - apply (f_equal (@length token)) in E. rewrite app_length in E. cbn in E. lia.
    - apply (f_equal (@length token)) in E. rewrite app_length in E. cbn in E. lia.
    - destruct p as [|x p]; cbn in E.
      + injection E as -> E. destruct w as [|x [|y w]]; cbn in E.
        * now apply gram_nonempty in G.
        * injection E as <- <- <-. rewrite (set_only _ _ Ht G). now constructor.
        * injection E as -> -> E. exfalso. pose proof (gram_depth _ _ _ G 0%nat) as Q. cbn in Q. rewrite Ht, Hc in Q. discriminate.
      + injection E as -> E. destruct (split_app _ _ _ _ _ E) as [(v1 & -> & E1)|(u1 & -> & E1)].
        * destruct v1 as [|z [|y v1]]; cbn in E1.
          -- discriminate.
          -- injection E1 as <- <- E1. exfalso. eapply cut_open; eauto.
          -- injection E1 as <- <- ->. change ((x :: p) ++ t :: v1 ++ [c']) with (x :: p ++ (t :: v1) ++ [c']). rewrite app_assoc. apply g_paren; auto.
        * apply (f_equal (@length token)) in E1. rewrite app_length in E1. cbn in E1. lia.
  Qed.
  Theorem paren_set p t q : tk_type t = CHARSET -> forall e, ogram e (p ++ t :: q) <-> ogram e (p ++ o :: t :: c :: q).
  Proof.
    intros Ht [r|]; cbn.
    - split; intros G; [eapply paren_in; eauto|eapply paren_out; eauto].
    - split; intros E; apply (f_equal (@length token)) in E; rewrite app_length in E; cbn in E; lia.
  Qed.
End Paren.

(** The text of the macro: its tokens, with ^ and $ as characters. *)
Definition macro_text (u : list token) : list token := lit_bol (lit_eol u).
(** A macro that begins with ^ at the beginning of a rule, or ends with $ at its
    end, is not put in parentheses. *)
Definition at_edge (front back : bool) (u : list token) : Prop := front && starts BOL u || back && ends EOL u = true.
Theorem macro_is_group Q u front back p q : vec Q u -> u <> [] -> ~ at_edge front back u -> forall e,
  ogram e (p ++ expand front back u ++ q) <-> ogram e (p ++ paren_open :: macro_text u ++ paren_close :: q).
Proof.
  intros V N H e. unfold at_edge in H. apply not_true_iff_false in H. unfold expand. rewrite H. apply orb_false_iff in H. destruct H as [H1 H2]. cbn [negb]. rewrite andb_true_r.
  assert (EB : (if back then id else lit_eol) u = lit_eol u).
  { destruct back; [|reflexivity]. cbn [andb] in H2. unfold id. now rewrite lit_eol_not. }
  assert (SL : starts BOL (lit_eol u) = starts BOL u).
  { destruct u as [|t [|t2 u]]; [reflexivity| |reflexivity]. clear. destruct t as [ty x s]. destruct ty; reflexivity. }
  assert (EF : (if front then id else lit_bol) (lit_eol u) = lit_bol (lit_eol u)).
  { destruct front; [|reflexivity]. cbn [andb] in H1. unfold id. rewrite lit_bol_not; [auto|congruence]. }
  cbv zeta. rewrite EB, EF. fold (macro_text u). destruct (Nat.ltb_spec 1 (length u)) as [L|L].
  - change ((paren_open :: macro_text u ++ [paren_close]) ++ q) with (paren_open :: (macro_text u ++ [paren_close]) ++ q). rewrite <- app_assoc. reflexivity.
  - destruct u as [|t [|t2 u]]; [congruence| |cbn in L; lia].
    pose proof (ve_toks _ _ V) as F. inversion F as [|? ? T _]; subst.
    pose proof (ve_chain _ _ V) as C. cbn in C. destruct C as [C1 [C2 _]].
    assert (ET : exists s, macro_text [t] = [s] /\ tk_type s = CHARSET).
    { unfold vtok in T. destruct t as [ty x z]. cbn [tk_type] in *. destruct ty; try contradiction; try discriminate C1; try discriminate C2;
        try (eexists; split; [reflexivity|reflexivity]).
    }
    destruct ET as (s & -> & Hs). cbn [app]. now apply (paren_set paren_open paren_close).
Qed.
