(** rules.hpp:505-570: tokenise() as a whole. *)
From Verif Require Import Base StringToken StringTokenSpec StringTokenProofs RegexSpec ReToken Parser ReTokeniser ReTokeniserProofs ReTokeniserNext Grammar
  GramUnique ParserProofs Rules TokeniseSpec TokeniseProofs TokeniseGram StripProofs PruneProofs SplitProofs.
Local Open Scope N_scope.

(** A class of characters of the lexer, not empty. *)
Definition chars (b : N) (t : stoken) : Prop := built (max_char b) t /\ t <> [].

Lemma wf_mem t : wf t -> t <> [] -> exists c, mem c t.
Proof.
  destruct t as [|[x y] t]; [congruence|]. intros W _. exists x. exists x, y. split; [now left|]. cbn in W. lia.
Qed.
Lemma mem_ne c t : mem c t -> t <> [].
Proof. intros (x & y & H & _) ->. destruct H. Qed.
Lemma chars_mem b t : chars b t -> exists c, mem c t.
Proof. intros [B N]. apply wf_mem; [|auto]. now apply built_wf in B. Qed.

Lemma chars_set b ic inp t r : Forall (fun c => c <= max_char b) inp -> charset nesting b ic inp = Ok (t, r) -> chars b t.
Proof. intros F E. pose proof (charset_built b ic inp F) as C. rewrite E in C. split; apply C. Qed.
Lemma chars_insert_token b t u : chars b t -> built (max_char b) u -> chars b (insert_token t u).
Proof.
  intros [Bt Nt] Bu. split; [now apply built_insert_token|]. apply built_wf in Bt, Bu. destruct Bt as [W _], Bu as [W' _].
  destruct (wf_mem t W Nt) as (c & Hc). apply (mem_ne c). apply insert_token_correct; auto.
Qed.
Lemma chars_add b ic c : c <= max_char b -> chars b (add_range b ic [] (c, c)).
Proof.
  intros Hc. assert (H : chars b (insert [] (c, c))) by (split; [apply built_insert; [constructor|lia|auto]|discriminate]).
  unfold add_range. cbv zeta. destruct ic; [|auto]. apply chars_insert_token; [auto|]. now apply fold_range_built.
Qed.
Lemma max_char_ge b : 255 <= max_char b.
Proof. unfold max_char. destruct (b =? 1); [lia|]. destruct (b =? 2); lia. Qed.
Lemma chars_chr b c : c = 94 \/ c = 36 -> chars b [(c, c)].
Proof.
  intros Hc. pose proof (max_char_ge b). split; [|discriminate]. change [(c, c)] with (insert [] (c, c)). apply built_insert; [constructor|lia|]. destruct Hc; subst; lia.
Qed.
Lemma chars_dot b fl : chars b (dot_set b fl).
Proof.
  pose proof (max_char_ge b) as M. split.
  - unfold dot_set. apply built_negate. destruct (has fl rf_dot_not_newline); [repeat constructor; lia|]. destruct (has fl rf_dot_not_cr_lf); repeat constructor; lia.
  - unfold dot_set. unfold max_char. destruct (has fl rf_dot_not_newline); [|destruct (has fl rf_dot_not_cr_lf)]; destruct (b =? 1); try discriminate; destruct (b =? 2); discriminate.
Qed.
Lemma chars_remove b t u : chars b t -> chars b u -> match remove t u with Ok v => v <> [] -> chars b v | _ => False end.
Proof.
  intros [Bt _] [Bu _]. pose proof (proj1 (built_wf _ _ Bt)) as W. pose proof (proj1 (built_wf _ _ Bu)) as W'.
  destruct (remove_correct t u W W') as (v & E & _). rewrite E. intros N. split; [|auto]. exact (built_remove _ t u v Bt Bu E).
Qed.

Notation small b := (Forall (fun c => c <= max_char b)).
Lemma tok_loop_vec b flags ms regex : macros_ok (chars b) ms -> small b regex -> numbers_fit regex ->
  outcome (chars b) ms (tok_loop (S (length regex)) b ms (start_state flags regex) [tok BEGIN] [] None).
Proof.
  intros HM HS HN. apply (tok_loop_ok b (chars b)) with (w := []); auto; try congruence.
  - intros. eapply chars_set; eauto.
  - apply chars_add.
  - apply chars_chr.
  - apply chars_dot.
  - apply chars_remove.
  - intros t u Ht [Hu _]. now apply chars_insert_token.
  - constructor; cbn; auto; try congruence; try (constructor).
    + exists 0%nat. auto.
    + intros u t v E. destruct u; discriminate.
    + intros u t v E. destruct u; discriminate.
Qed.

(** ** The parts *)
Inductive joins : list token -> list (list token) -> Prop :=
| j_one w : joins w [w]
| j_more p t w ps : tk_type t = OR -> joins w ps -> joins (p ++ t :: w) (p :: ps).
Lemma split_joins w : forall k cur, depth k w = Some 0%nat -> Forall (fun t => term (tk_type t) = true) w ->
  exists p ps, split_loop (w ++ [tok END]) k cur = Ok (map between ((rev cur ++ p) :: ps)) /\ joins w (p :: ps) /\ depth k p = Some 0%nat /\ Forall balanced ps.
Proof.
  induction w as [|t w IH]; intros k cur D F.
  - cbn in D. injection D as ->. exists [], []. cbn. rewrite app_nil_r. repeat split; auto. constructor.
  - inversion F as [|? ? F1 F2]; subst.
    assert (NEXT : forall k', depth k' w = Some 0%nat -> depth k (t :: w) = depth k' w -> (forall p, depth k (t :: p) = depth k' p) ->
      split_loop ((t :: w) ++ [tok END]) k cur = split_loop (w ++ [tok END]) k' (t :: cur) ->
      exists p ps, split_loop ((t :: w) ++ [tok END]) k cur = Ok (map between ((rev cur ++ p) :: ps)) /\ joins (t :: w) (p :: ps) /\ depth k p = Some 0%nat /\ Forall balanced ps).
    { intros k' D' _ HD E. destruct (IH k' (t :: cur) D' F2) as (p & ps & E1 & J & Dp & B).
      exists (t :: p), ps. rewrite E, E1. cbn [rev]. rewrite <- app_assoc. cbn [app]. split; [reflexivity|]. split; [|rewrite HD; auto].
      inversion J; subst; [constructor|]. now apply (j_more (t :: p)). }
    destruct (tk_type t) eqn:Et; try discriminate F1;
      try (apply (NEXT k); [cbn in D; rewrite Et in D; exact D|cbn; now rewrite Et|intros p; cbn; now rewrite Et|cbn [app split_loop]; now rewrite Et]).
    + (* OR *)
      destruct k as [|k].
      * cbn in D. rewrite Et in D. destruct (IH 0%nat [] D F2) as (p & ps & E1 & J & Dp & B).
        exists [], (p :: ps). cbn [app split_loop]. rewrite Et. cbn [Nat.eqb]. rewrite E1. cbn [bind rev app map]. rewrite app_nil_r.
        assert (EP : part cur = between (rev cur)) by reflexivity. rewrite EP. split; [reflexivity|]. split; [now apply (j_more [] t)|]. split; [reflexivity|]. constructor; auto.
      * apply (NEXT (S k)); [cbn in D; rewrite Et in D; exact D|cbn; now rewrite Et|intros p; cbn; now rewrite Et|cbn [app split_loop]; now rewrite Et].
    + (* OPENPAREN *)
      apply (NEXT (S k)); [cbn in D; rewrite Et in D; exact D|cbn; now rewrite Et|intros p; cbn; now rewrite Et|cbn [app split_loop]; now rewrite Et].
    + (* CLOSEPAREN *)
      cbn in D. rewrite Et in D. destruct k as [|k]; [discriminate|].
      apply (NEXT k); [exact D|cbn; now rewrite Et|intros p; cbn; now rewrite Et|cbn [app split_loop]; now rewrite Et].
Qed.
Lemma joins_sub w ps : joins w ps -> Forall (fun p => sub p w) ps.
Proof.
  induction 1 as [w|p t w ps Ht J IH]; [repeat constructor; apply sub_refl|]. constructor.
  - rewrite <- (app_nil_r p) at 1. apply sub_app; [apply sub_refl|apply sub_none].
  - eapply Forall_impl; [|exact IH]. intros q Hq. apply (sub_app [] p q); [apply sub_none|]. now constructor.
Qed.
Lemma adj_or_begin y : adj OR y = true -> term y = true -> adj BEGIN y = true.
Proof. destruct y; (discriminate || reflexivity). Qed.
Lemma adj_or_end x : start x = true -> adj x OR = true -> adj x END = true.
Proof. destruct x; (discriminate || reflexivity). Qed.
Lemma tlast_start p x : start x = true -> Forall (fun t => term (tk_type t) = true) p -> start (tlast x p) = true.
Proof.
  intros Hx F. destruct p as [|t p _] using rev_ind; [exact Hx|]. rewrite tlast_snoc. apply Forall_app in F. destruct F as [_ F]. inversion F; subst.
  destruct (tk_type t); (discriminate || reflexivity).
Qed.
Lemma joins_chain w ps : joins w ps -> forall x, x = BEGIN \/ x = OR -> (x = OR -> w <> []) -> Forall (fun t => term (tk_type t) = true) w -> chain x (w ++ [tok END]) ->
  Forall (fun p => chain BEGIN (p ++ [tok END])) ps.
Proof.
  induction 1 as [w|p t w ps Ht J IH]; intros x Hx Hne F C.
  - constructor; [|constructor]. destruct Hx as [->| ->]; [auto|]. destruct w as [|y w]; [now elim Hne|].
    cbn in C |- *. inversion F; subst. split; [apply adj_or_begin; tauto|tauto].
  - rewrite <- app_assoc in C. apply chain_app in C. destruct C as [C1 C2]. cbn [app chain] in C2. rewrite Ht in C2. destruct C2 as [C2 C3].
    apply Forall_app in F. destruct F as [Fp Ft]. inversion Ft as [|? ? _ Fw]; subst. constructor.
    + assert (C1' : chain BEGIN p).
      { destruct Hx as [->| ->]; [auto|]. destruct p as [|y p]; [exact Logic.I|]. cbn in C1 |- *. inversion Fp; subst. split; [apply adj_or_begin; tauto|tauto]. }
      apply chain_app. split; [auto|]. cbn. split; [|exact Logic.I]. destruct p as [|y p].
      * reflexivity.
      * rewrite (tlast_ne BEGIN x) by discriminate. apply adj_or_end; [|auto]. apply tlast_start; [destruct Hx; subst; reflexivity|auto].
    + apply (IH OR); auto. intros _ ->. cbn in C3. destruct C3; discriminate.
Qed.
Theorem split_vec Q w : vec Q w -> exists ps, split (between w) = Ok (map between ps) /\ ps <> [] /\ joins w ps /\ Forall (vec Q) ps.
Proof.
  intros V. assert (F : Forall (fun t => term (tk_type t) = true) w) by (eapply Forall_impl; [|exact (ve_toks _ _ V)]; intros t; apply vtok_term).
  destruct (split_joins w 0 [] (ve_bal _ _ V) F) as (p & ps & E & J & D & B). exists (p :: ps).
  split; [exact E|]. split; [discriminate|]. split; [exact J|].
  pose proof (joins_sub _ _ J) as S. pose proof (joins_chain _ _ J BEGIN (or_introl eq_refl)) as C.
  specialize (C ltac:(discriminate) F (ve_chain _ _ V)).
  assert (B' : Forall balanced (p :: ps)) by (constructor; auto).
  rewrite Forall_forall in S, C, B' |- *. intros q Hq. destruct V as [V1 V2 V3 V4 V5]. constructor; auto.
  - eapply sub_forall; eauto.
  - eapply sub_bol; eauto.
  - eapply sub_eol; eauto.
Qed.

(** ^ is only in the first part and $ in the last. *)
Definition edges (v : list (list token)) : Prop :=
  Forall (fun t => starts BOL (tl t) = false) (tl v) /\ Forall (fun t => ends EOL (removelast t) = false) (removelast v).
Lemma joins_ne w ps : joins w ps -> ps <> [].
Proof. destruct 1; discriminate. Qed.
Lemma between_starts p : starts BOL (tl (between p)) = true -> exists t p', p = t :: p' /\ tk_type t = BOL.
Proof.
  destruct p as [|t p]; cbn; [discriminate|]. intros H. exists t, p. split; [auto|]. unfold is_type in H. destruct (tk_type t); (reflexivity || discriminate).
Qed.
Lemma between_ends p : ends EOL (removelast (between p)) = true -> exists t p', p = p' ++ [t] /\ tk_type t = EOL.
Proof.
  unfold between. change (tok BEGIN :: p ++ [tok END]) with ((tok BEGIN :: p) ++ [tok END]). rewrite removelast_last. unfold ends.
  destruct p as [|t p _] using rev_ind; [discriminate|]. cbn [rev]. rewrite rev_app_distr. cbn [rev app starts]. intros H. exists t, p.
  split; [auto|]. unfold is_type in H. destruct (tk_type t); (reflexivity || discriminate).
Qed.
Lemma joins_edges w ps : joins w ps -> bol_first w -> eol_last w -> edges (map between ps).
Proof.
  intros J HB HE. split.
  - inversion J as [|p t w' ps' Ht J']; subst; [constructor|]. cbn [map tl]. rewrite Forall_map. apply joins_sub in J'.
    eapply Forall_impl; [|exact J']. intros q S. destruct (starts BOL (tl (between q))) eqn:E; [|reflexivity].
    destruct (between_starts _ E) as (x & q' & -> & Hx). assert (I : In x w') by (pose proof (sub_forall (fun y => In y w') _ _ S) as FF; specialize (FF (proj2 (Forall_forall _ _) (fun y H => H))); rewrite Forall_forall in FF; apply FF; now left).
    apply in_split in I. destruct I as (u & v & ->). specialize (HB (p ++ t :: u) x v). exfalso. destruct (p ++ t :: u) eqn:Ep; [destruct p; discriminate|].
    assert (HB' : t0 :: l = []) by (apply HB; [rewrite <- Ep, <- app_assoc; reflexivity|auto]). discriminate.
  - clear HB. induction J as [w|p t w ps Ht J IH]; [constructor|]. pose proof (joins_ne _ _ J) as N. destruct ps as [|q ps]; [congruence|].
    cbn [map] in IH |- *. change (removelast (between p :: between q :: map between ps)) with (between p :: removelast (between q :: map between ps)).
    constructor.
    + destruct (ends EOL (removelast (between p))) eqn:E; [|reflexivity]. destruct (between_ends _ E) as (x & p' & -> & Hx).
      assert (X : t :: w = []) by (apply (HE p' x (t :: w)); [now rewrite <- app_assoc|auto]). discriminate.
    + apply IH. intros u x v -> Hx. apply (HE (p ++ t :: u) x v); [now rewrite <- app_assoc|auto].
Qed.

(** ** The whole *)
Theorem tokenise_ok b flags ms regex rule : macros_ok (chars b) ms -> small b regex -> numbers_fit regex ->
  (rule = true -> forall w, tok_loop (S (length regex)) b ms (start_state flags regex) [tok BEGIN] [] None = Ok (between w) -> Forall zero_plain w) ->
  match tokenise b flags ms regex rule with
  | Ok v => v <> [] /\ Forall (mvec (chars b)) v /\ edges v
  | Throw _ => True
  | UB => exists name, macro_find name ms = Some []
  | Fuel => False
  end.
Proof.
  intros HM HS HN HZ. unfold tokenise. pose proof (tok_loop_vec b flags ms regex HM HS HN) as O.
  destruct (tok_loop _ b ms _ _ _ _) as [ts| | |]; cbn [bind]; try exact O.
  destruct O as (w & -> & V). destruct (strip_parens_ok w) as (w1 & -> & S & _). pose proof (strips_vec _ _ _ S V) as V1.
  cbv zeta.
  assert (P : exists w2, (if rule then prune (between w1) else Ok (between w1)) = Ok (between w2) /\ vec (chars b) w2).
  { destruct rule; [|eauto]. specialize (HZ eq_refl w eq_refl).
    assert (Z1 : Forall zero_plain w1) by (clear - S HZ; induction S; [auto|]; apply IHS; inversion HZ as [|? ? _ HZ']; subst; apply Forall_app in HZ'; tauto).
    destruct (prune_ok _ w1 V1 Z1) as (w2 & E & _ & V2). eauto. }
  destruct P as (w2 & -> & V2). cbn [bind].
  destruct (Nat.eqb (length (between w2)) 2 && _); [exact Logic.I|].
  destruct (rule && has_lazy (between w2)).
  - destruct (split_vec _ w2 V2) as (ps & -> & N & J & F). split; [destruct ps; [congruence|discriminate]|].
    split; [|apply (joins_edges w2); [auto|apply V2|apply V2]]. rewrite Forall_map. eapply Forall_impl; [|exact F]. intros p Hp. exists p. auto.
  - split; [discriminate|]. split; [repeat constructor; exists w2; auto|]. split; constructor.
Qed.
