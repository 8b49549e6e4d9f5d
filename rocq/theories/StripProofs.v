(** rules.hpp: strip_parens. *)
From Verif Require Import Base StringToken StringTokenSpec ReToken ReTokeniser Grammar GramUnique ParserProofs
  Rules TokeniseSpec TokeniseProofs TokeniseGram.
Local Open Scope N_scope.

(** Pairs of parentheses around the whole that match each other. *)
Inductive strips : list token -> list token -> Prop :=
| st_refl w : strips w w
| st_step o inner c w' : tk_type o = OPENPAREN -> tk_type c = CLOSEPAREN -> balanced inner ->
    strips inner w' -> strips (o :: inner ++ [c]) w'.
(** None is left. *)
Definition bare (w : list token) : Prop :=
  ~ exists o inner c, w = o :: inner ++ [c] /\ tk_type o = OPENPAREN /\ tk_type c = CLOSEPAREN /\ balanced inner.

Lemma balanced_parens_iff l : forall n, balanced_parens n l = true <-> depth n l = Some O.
Proof.
  induction l as [|t l IH]; intros n; cbn.
  - rewrite Nat.eqb_eq. split; congruence.
  - destruct (tk_type t); auto. destruct n; [split; discriminate|auto].
Qed.
Lemma between_nth1 w : nth_error (between w) 1 = match w with [] => Some (tok END) | t :: _ => Some t end.
Proof. now destruct w. Qed.
Lemma strip_step f w o inner c : w = o :: inner ++ [c] -> tk_type o = OPENPAREN -> tk_type c = CLOSEPAREN -> balanced inner ->
  strip_loop (S f) (between w) = strip_loop f (between inner).
Proof.
  intros -> Ho Hc Hb. cbn [strip_loop]. rewrite between_nth1, between_len.
  replace (S (S (length (o :: inner ++ [c]))) - 2)%nat with (S (S (length inner)))
    by (cbn [length]; rewrite app_length; cbn; lia).
  assert (E2 : nth_error (between (o :: inner ++ [c])) (S (S (length inner))) = Some c).
  { unfold between. cbn [nth_error app]. rewrite <- app_assoc, nth_error_app2 by lia. now rewrite Nat.sub_diag. }
  rewrite E2.
  assert (EI : firstn (S (S (length (o :: inner ++ [c]))) - 4) (skipn 2 (between (o :: inner ++ [c]))) = inner).
  { unfold between. cbn [skipn app length]. rewrite <- app_assoc. apply firstn_app_all. rewrite app_length. cbn. lia. }
  cbv zeta. rewrite EI. apply is_type_iff in Ho, Hc. rewrite Ho, Hc. unfold balanced in Hb. apply balanced_parens_iff in Hb. rewrite Hb.
  cbn [Nat.ltb Nat.leb andb]. f_equal.
  replace (S (S (length (o :: inner ++ [c]))) - 1)%nat with (S (length (o :: inner ++ [c]))) by lia.
  assert (ES : skipn (S (length (o :: inner ++ [c]))) (between (o :: inner ++ [c])) = [tok END]).
  { unfold between. rewrite skipn_cons, skipn_app, skipn_all, Nat.sub_diag. reflexivity. }
  rewrite ES. reflexivity.
Qed.
Lemma strip_stop f w : bare w -> strip_loop (S f) (between w) = between w.
Proof.
  intros B. cbn [strip_loop]. rewrite between_nth1, between_len. destruct w as [|o w]; [reflexivity|].
  destruct (nth_error (between (o :: w)) (S (S (length (o :: w))) - 2)) as [c|] eqn:E; [|reflexivity]. cbv zeta.
  match goal with |- context [if ?b then _ else _] => destruct b eqn:EB end; [|reflexivity]. exfalso.
  apply andb_true_iff in EB. destruct EB as [EB Hb]. apply andb_true_iff in EB. destruct EB as [EB Hc].
  apply andb_true_iff in EB. destruct EB as [EL Ho]. apply Nat.ltb_lt in EL.
  destruct w as [|c' inner _] using rev_ind; [cbn in EL; lia|].
  apply B. exists o, inner, c'.
  assert (E2 : nth_error (between (o :: inner ++ [c'])) (S (S (length (o :: inner ++ [c']))) - 2) = Some c').
  { replace (S (S (length (o :: inner ++ [c']))) - 2)%nat with (S (S (length inner)))
      by (cbn [length]; rewrite app_length; cbn; lia).
    unfold between. cbn [nth_error app]. rewrite <- app_assoc, nth_error_app2 by lia. now rewrite Nat.sub_diag. }
  rewrite E2 in E. injection E as <-. apply is_type_iff in Ho, Hc. split; [reflexivity|]. split; [auto|]. split; [auto|].
  apply balanced_parens_iff in Hb.
  assert (EI : firstn (S (S (length (o :: inner ++ [c']))) - 4) (skipn 2 (between (o :: inner ++ [c']))) = inner).
  { unfold between. cbn [skipn app length]. rewrite <- app_assoc. apply firstn_app_all. rewrite app_length. cbn. lia. }
  now rewrite EI in Hb.
Qed.
Lemma bare_dec w : bare w \/ exists o inner c, w = o :: inner ++ [c] /\ tk_type o = OPENPAREN /\ tk_type c = CLOSEPAREN /\ balanced inner.
Proof.
  destruct w as [|o w]; [left; intros (? & ? & ? & ? & _); discriminate|].
  destruct w as [|c inner _] using rev_ind; [left; intros (? & i & ? & E & _); destruct i; discriminate|].
  destruct (is_type OPENPAREN o) eqn:Eo; [|left; intros (? & i & ? & E & H & _); injection E as -> _; apply is_type_iff in H; congruence].
  destruct (is_type CLOSEPAREN c) eqn:Ec.
  2:{ left; intros (? & i & ? & E & _ & H & _); injection E as _ E; apply app_inj_tail in E; destruct E as [_ ->]; apply is_type_iff in H; congruence. }
  destruct (balanced_parens 0 inner) eqn:Eb.
  2:{ left; intros (? & i & ? & E & _ & _ & H); injection E as _ E; apply app_inj_tail in E; destruct E as [-> _]; apply balanced_parens_iff in H; congruence. }
  right. exists o, inner, c. apply is_type_iff in Eo, Ec. apply balanced_parens_iff in Eb. auto.
Qed.
Lemma strip_loop_ok fuel : forall w, (length w < fuel)%nat ->
  exists w', strip_loop fuel (between w) = between w' /\ strips w w' /\ bare w'.
Proof.
  induction fuel as [|f IH]; intros w Hf; [lia|].
  destruct (bare_dec w) as [B|(o & inner & c & E & Ho & Hc & Hb)].
  - exists w. split; [now apply strip_stop|]. split; [constructor|auto].
  - rewrite (strip_step f w o inner c E Ho Hc Hb).
    destruct (IH inner) as (w' & H1 & H2 & H3); [subst w; cbn [length] in Hf; rewrite app_length in Hf; cbn in Hf; lia|].
    exists w'. split; [auto|]. split; [subst w; now constructor|auto].
Qed.
Theorem strip_parens_ok w : exists w', strip_parens (between w) = between w' /\ strips w w' /\ bare w'.
Proof. unfold strip_parens. apply strip_loop_ok. rewrite between_len. lia. Qed.

(** ** The meaning stays *)
Lemma gram_nonempty X r w : gram X r w -> w <> [].
Proof.
  induction 1; intros E; try discriminate; auto.
  - destruct u; discriminate.
  - apply app_eq_nil in E. tauto.
  - destruct w; discriminate.
Qed.
Lemma balanced_prefix o u z : tk_type o = OPENPAREN -> balanced (u ++ z) -> depth 0 (o :: u) = Some O -> False.
Proof.
  intros Ho Hb Hd. unfold balanced in Hb. rewrite depth_app in Hb. destruct (depth 0 u) as [k|] eqn:E; [|discriminate].
  cbn in Hd. rewrite Ho in Hd. apply (depth_mono 0 1) in E. cbn in E. rewrite E in Hd. injection Hd as Hd. lia.
Qed.
Lemma split_head A (o : A) inner c u t v : o :: inner ++ [c] = u ++ t :: v -> u <> [] ->
  exists u1 z, u = o :: u1 /\ inner = u1 ++ z.
Proof.
  intros E Hu. destruct u as [|x u1]; [congruence|]. injection E as <- E.
  destruct (@exists_last _ (t :: v)) as (z & y & Ez); [discriminate|]. rewrite Ez, app_assoc in E.
  apply app_inj_tail in E. destruct E as [-> _]. eauto.
Qed.
Lemma gram_parens X r w : gram X r w -> forall o inner c, w = o :: inner ++ [c] ->
  tk_type o = OPENPAREN -> tk_type c = CLOSEPAREN -> balanced inner -> gram GRegex r inner.
Proof.
  induction 1; intros o' inner c' E Ho Hc Hb; eauto.
  - exfalso. pose proof (gram_depth _ _ _ H) as D. symmetry in E. destruct (split_head _ _ _ _ _ _ _ E (gram_nonempty _ _ _ H)) as (u1 & z & -> & ->).
    eapply balanced_prefix; [exact Ho|exact Hb|apply D].
  - exfalso. pose proof (gram_depth _ _ _ H) as D. pose proof (gram_nonempty _ _ _ H0) as Nv. destruct v as [|t v]; [congruence|].
    symmetry in E. destruct (split_head _ _ _ _ _ _ _ E (gram_nonempty _ _ _ H)) as (u1 & z & -> & ->).
    eapply balanced_prefix; [exact Ho|exact Hb|apply D].
  - exfalso. rewrite app_comm_cons in E. apply app_inj_tail in E. destruct E as [_ ->].
    inversion H0; subst; intuition congruence.
  - injection E as _ E. destruct inner; discriminate.
  - injection E as _ E. destruct inner; discriminate.
  - injection E as _ E. destruct inner; discriminate.
  - injection E as _ E. apply app_inj_tail in E. destruct E as [-> _]. auto.
Qed.
Theorem strips_gram w w' : strips w w' -> forall r, gram GRegex r w <-> gram GRegex r w'.
Proof.
  induction 1 as [w|o inner c w' Ho Hc Hb S IH]; intros r; [tauto|]. rewrite <- IH. split.
  - intros G. eapply gram_parens; eauto.
  - intros G. apply g_regex, g_seq, g_expr, g_paren; auto.
Qed.
Theorem strips_ogram w w' : w' <> [] -> strips w w' -> forall o, ogram o w <-> ogram o w'.
Proof.
  intros Hn S o. destruct o as [r|]; cbn; [now apply strips_gram|].
  split; [intros ->; inversion S; subst; auto|congruence].
Qed.

(** ** The vector stays one *)
Lemma strips_vec Q w w' : strips w w' -> vec Q w -> vec Q w'.
Proof.
  induction 1 as [w|o inner c w' Ho Hc Hb S IH]; [auto|]. intros [V1 V2 V3 V4 V5]. apply IH.
  inversion V1; subst. apply Forall_app in H2. destruct H2 as [F _].
  cbn [app chain] in V2. destruct V2 as [_ V2]. rewrite <- app_assoc in V2. rewrite Ho in V2.
  assert (NE : inner <> []).
  { intros ->. cbn in V2. rewrite Hc in V2. destruct V2 as [V2 _]. discriminate. }
  apply chain_app in V2. destruct V2 as [C1 C2]. cbn [app chain] in C2. destruct C2 as [C2 _]. rewrite Hc in C2.
  assert (NB : no_type BOL inner).
  { apply bol_first_cons in V4. apply Forall_app in V4. apply V4. }
  assert (NX : no_type EOL inner).
  { rewrite app_comm_cons in V5. apply eol_last_snoc in V5. inversion V5; auto. }
  constructor; auto using no_bol_first, no_eol_last.
  apply chain_app. split.
  - destruct inner as [|t inner]; [congruence|]. cbn in *. destruct C1 as [C1 C3]. split; [|auto].
    inversion F as [|? ? F1 _]; subst. apply vtok_term in F1. destruct (tk_type t); try discriminate; reflexivity.
  - cbn. split; [|exact I]. rewrite (tlast_ne _ OPENPAREN) by auto.
    destruct (forall_last _ OPENPAREN _ F NE) as (t & T1 & T2). rewrite T2 in *. apply vtok_term in T1.
    destruct (tk_type t); try discriminate; reflexivity.
Qed.
Lemma strips_undoubled w w' : strips w w' -> undoubled BEGIN w -> undoubled BEGIN w'.
Proof.
  induction 1 as [w|o inner c w' Ho Hc Hb S IH]; [auto|]. intros [_ U]. apply IH. apply undoubled_app in U. destruct U as [U _].
  destruct inner as [|t inner]; [exact I|]. destruct U as [_ U]. split; [|auto]. intros [H _]. discriminate.
Qed.
