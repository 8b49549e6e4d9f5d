(** When $ ends a rule, and a check of the hypotheses about rules that computes. *)
From Verif Require Import Base StringToken StringTokenSpec StringTokenProofs RegexSpec StateMachine Slice ReToken DfaSpec Grammar
  Tree Partition Parser Generator Build ParserKeys ParserProofs GramUnique ParserRule Lookup TableSpec LookupSpec
  RuleSpec RuleWords TokeniseSpec TokeniseProofs BuildSpec BolWords BuildCheck EolSpec.
Local Open Scope N_scope.

Lemma no_eol_words X r ts w : gram X r ts -> no_eol ts -> clang r w -> ~ In CEol w.
Proof.
  intros G F H. assert (Q : Forall (fun a => a <> CEol) w).
  { revert w H. apply (gram_symbols _ X r ts G); try discriminate. intros (t & Ht & Et) _.
    unfold no_eol in F. rewrite Forall_forall in F. eapply F; eauto. }
  rewrite Forall_forall in Q. intros Hi. eapply Q; eauto.
Qed.
Lemma last_pre u t v : eol_last (u ++ t :: v) -> no_eol u.
Proof.
  intros H. apply Forall_forall. intros x Hx E. apply in_split in Hx as (a & b & ->).
  rewrite <- app_assoc in H. specialize (H a x (b ++ t :: v) eq_refl E). destruct b; discriminate.
Qed.
Lemma last_suf u v : eol_last (u ++ v) -> eol_last v.
Proof. intros H a x b -> E. apply (H (u ++ a) x b); [now rewrite <- app_assoc|auto]. Qed.
(** An end of line comes last in the words. *)
Lemma gram_last X r ts : gram X r ts -> eol_last ts ->
  forall w, clang r w -> forall u v, w = u ++ CEol :: v -> v = [].
Proof.
  assert (Q : forall X r ts t w u v, gram X r (ts ++ [t]) -> eol_last (ts ++ [t]) -> tk_type t <> EOL ->
    clang r w -> w = u ++ CEol :: v -> v = []).
  { intros Y r' ts' t w u v G L Ht C ->. exfalso. apply (no_eol_words _ _ _ _ G) in C.
    - apply C. apply in_or_app. right. now left.
    - apply Forall_app. split; [now apply (last_pre ts' t [])|]. constructor; auto. }
  induction 1 as [r w G IH|a c u v t G1 IH1 Et G2 IH2|r w G IH|a c u v G1 IH1 G2 IH2|r w G IH|
                  r w t f G IH D|t Et|t Et|t Et|r w o c Eo G IH Ec]; intros L x HL y z E; eauto.
  - cbn [clang] in HL. destruct HL as [HL|HL].
    + exfalso. apply (no_eol_words _ _ _ _ G1) in HL; [|now apply last_pre in L].
      apply HL. subst x. apply in_or_app. right. now left.
    + eapply IH2; eauto. apply (last_suf (u ++ [t])). now rewrite <- app_assoc.
  - cbn [clang] in HL. destruct HL as (x1 & x2 & -> & L1 & L2).
    destruct v as [|v0 v]; [now apply gram_ne in G2|].
    apply (no_eol_words _ _ _ _ G1) in L1; [|now apply last_pre in L].
    apply last_suf in L.
    assert (E' : exists y', x2 = y' ++ CEol :: z).
    { clear - E L1. revert y E. induction x1 as [|a x1 IH]; intros y E; [exists y; auto|].
      destruct y as [|b y]; cbn in E; injection E as -> E.
      - exfalso. apply L1. now left.
      - apply (IH (fun H => L1 (or_intror H)) y E). }
    destruct E' as (y' & ->). eapply IH2; eauto.
  - apply (Q GExpr (f r) w t x y z); auto; [now constructor|]. intros H. apply dup_type in D. rewrite H in D. discriminate.
  - cbn in HL. destruct HL as (c & _ & ->). destruct y as [|? [|? ?]]; discriminate.
  - cbn in HL. subst x. destruct y as [|? [|? ?]]; discriminate.
  - cbn in HL. subst x. destruct y as [|? [|? ?]]; [now injection E as <-|discriminate|discriminate].
  - rewrite app_comm_cons in L. apply (Q GAtom r (o :: w) c x y z); auto; [|congruence].
    change (gram GAtom r (o :: w ++ [c])). now constructor.
Qed.
Theorem last_tokens r ts u v : rule_tokens r ts -> eol_last ts -> rule_lang r (u ++ CEol :: v) -> v = [].
Proof.
  intros T L (ts' & o & T' & G & C). rewrite (rule_tokens_unique r ts' _ T' T) in G.
  destruct o as [x|]; cbn in G, C.
  - eapply gram_last; eauto.
  - destruct u; discriminate.
Qed.
Theorem last_bounded r ts : rule_tokens r ts -> eol_last ts -> eol_bounded 1 r.
Proof.
  intros T L u v [|[|j]] H; try lia. cbn in H. apply (last_tokens r ts u (CEol :: repeat CEol j ++ v) T L) in H.
  discriminate.
Qed.
(** Rules that cannot be matched by nothing. *)
Theorem last_consumes r ts : rule_tokens r ts -> eol_last ts -> ~ rmatch r false [] -> ~ only_place r ->
  consumes r.
Proof.
  intros T L N1 N2 j. destruct j as [|[|j]]; split; intros H.
  - apply N1. exact H.
  - apply N2. right. auto.
  - apply N2. left. exact H.
  - apply (last_tokens r ts [CBol] [CEol] T L) in H. discriminate.
  - cbn in H. apply (last_tokens r ts [] (CEol :: repeat CEol j) T L) in H. discriminate.
  - cbn in H. apply (last_tokens r ts [CBol] (CEol :: CEol :: repeat CEol j) T L) in H. discriminate.
Qed.

(** A $ at the end, with no | outside parentheses. *)
Lemma gram_ends X r ts : gram X r ts -> forall v e, ts = v ++ [e] -> tk_type e = EOL -> no_top_or v ->
  forall x, clang r x -> exists y, x = y ++ [CEol].
Proof.
  assert (LA : forall (u v w : list token) e t, u ++ t :: v = w ++ [e] -> v <> [] -> exists v', v = v' ++ [e] /\ w = u ++ t :: v').
  { intros u v w e t E NE. destruct v as [|v0 v _] using rev_ind; [congruence|].
    rewrite app_comm_cons, app_assoc in E. apply app_inj_tail in E as [<- <-]. eauto. }
  induction 1 as [r w G IH|a c u v t G1 IH1 Et G2 IH2|r w G IH|a c u v G1 IH1 G2 IH2|r w G IH|
                  r w t f G IH D|t Et|t Et|t Et|r w o c Eo G IH Ec]; intros z e E Ee NO x HL; eauto.
  - exfalso. destruct (LA _ _ _ _ _ E (gram_ne _ _ _ G2)) as (v' & -> & ->).
    apply (NO u t v'); auto. apply (gram_depth _ _ _ G1).
  - destruct v as [|v0 v _] using rev_ind; [now apply gram_ne in G2|]. rewrite app_assoc in E.
    apply app_inj_tail in E as [<- ->]. cbn [clang] in HL. destruct HL as (x1 & x2 & -> & L1 & L2).
    destruct (IH2 v e eq_refl Ee) with (x := x2) as (y & ->); auto.
    + intros p t q -> HD. apply (NO (u ++ p) t q); [now rewrite <- app_assoc|].
      rewrite depth_app, (gram_depth _ _ _ G1). exact HD.
    + exists (x1 ++ y). now rewrite app_assoc.
  - apply app_inj_tail in E as [_ ->]. apply dup_type in D. rewrite Ee in D. discriminate.
  - destruct z as [|? [|? ?]]; try discriminate. injection E as ->. congruence.
  - destruct z as [|? [|? ?]]; try discriminate. injection E as ->. congruence.
  - cbn in HL. subst x. exists []. reflexivity.
  - rewrite app_comm_cons in E. apply app_inj_tail in E as [_ ->]. congruence.
Qed.
Theorem ends_tokens r v e : rule_tokens r (v ++ [e]) -> tk_type e = EOL -> no_top_or v -> ends_line r.
Proof.
  intros T Ee NO w (ts & o & T' & G & L). rewrite (rule_tokens_unique r ts _ T' T) in G.
  destruct o as [x|]; [|cbn in G; destruct v; discriminate G]. cbn in G, L. eapply gram_ends; eauto.
Qed.

(** ** The check *)
Definition rule_fairb (b : N) (r : grule) : bool :=
  match gr_tokens r with
  | B :: w =>
    let ts := removelast w in
    match tk_type B, tk_type (last w B), w with
    | BEGIN, END, _ :: _ =>
      forallb (tok_okb b) ts && (match depth 0 ts with Some O => true | _ => false end)
    | _, _, _ => false
    end
  | [] => false
  end.
Lemma rule_fairb_ok b r : rule_fairb b r = true -> rule_fair b r.
Proof.
  unfold rule_fairb. destruct (gr_tokens r) as [|B w] eqn:Er; [discriminate|].
  destruct (tk_type B) eqn:EB; try discriminate. destruct (tk_type (last w B)) eqn:EE; try discriminate.
  destruct w as [|w0 w1] eqn:Ew; [discriminate|]. rewrite <- Ew in *. assert (NE : w <> []) by (rewrite Ew; discriminate).
  rewrite !andb_true_iff. intros [H1 H2]. set (ts := removelast w) in *.
  assert (T : rule_tokens r ts).
  { exists B, (last w B). split; [|auto]. rewrite Er. f_equal. now apply app_removelast_last. }
  exists ts. split; [auto|]. split.
  - rewrite forallb_forall in H1. apply Forall_forall. intros t Ht. apply tok_okb_ok. auto.
  - unfold balanced. destruct (depth 0 ts) as [[|?]|]; [reflexivity|discriminate|discriminate].
Qed.
Definition state_fairb (k : gcfg) (g : gstate) : bool :=
  forallb (rule_fairb (g_bytes k)) (gs_rules g) && (N.of_nat (length (all_sets (g_bytes k) g)) <? eol_tok k).
Definition rules_fairb (k : gcfg) (R : grules) : bool := forallb (state_fairb k) (gr_states R).
Lemma rules_fairb_ok k R : rules_fairb k R = true -> rules_fair k R.
Proof.
  unfold rules_fairb. rewrite forallb_forall. intros H. apply Forall_forall. intros g Hg. specialize (H g Hg).
  apply andb_true_iff in H as [H1 H2]. apply N.ltb_lt in H2. split.
  - rewrite forallb_forall in H1. apply Forall_forall. intros r Hr. apply rule_fairb_ok. auto.
  - exists (all_sets (g_bytes k) g). split; [auto|]. intros r t Hr Ht x Hx. apply all_sets_ok.
    apply in_flat_map. exists r. split; [auto|]. apply in_flat_map. eauto.
Qed.
(** $ is the last token or absent. *)
Definition eol_lastb (ts : list token) : bool := negb (existsb is_eolb (removelast ts)).
Lemma eol_lastb_ok ts : eol_lastb ts = true -> eol_last ts.
Proof.
  unfold eol_lastb. intros H u x v -> E. apply negb_true_iff in H. destruct v as [|y v]; [auto|]. exfalso.
  assert (X : existsb is_eolb (removelast (u ++ x :: y :: v)) = true); [|congruence].
  apply existsb_exists. exists x. split; [|unfold is_eolb; now rewrite E].
  rewrite removelast_app by discriminate. apply in_or_app. right. cbn. now left.
Qed.
