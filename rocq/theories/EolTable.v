(** The table of any rules, end of line tokens and clashes included: its shape
    and where end of line tokens can lead. *)
From Verif Require Import Base StringToken StringTokenSpec StringTokenProofs StateMachine Tree TreeSpec
  RegexSpec Glushkov Partition PartitionProofs Generator GenMap GenPrune GenDfa GenBuild Lookup TableSpec
  DfaSpec GenWalk GenRules GenTable EolFix EolWords.
From Coq Require Import Sorted.
Local Open Scope N_scope.

(** Some word of the rule may end with something else than an end of line. *)
Definition ends_char (k : gcfg) (r : drule) : Prop :=
  exists p t, In (p, t) (leaves (dr_tree r)) /\ In p (lastpos (dr_tree r)) /\ t <> eol_tok k.
(** [j] end of line transitions one after the other. *)
Inductive eol_run (t : table) : nat -> N -> N -> Prop :=
| run0 row : eol_run t 0 row row
| runS j row x e : cell t row ix_eol = Some x -> x <> 0 -> eol_run t j x e -> eol_run t (S j) row e.

Record shaped (k : gcfg) (m : charset_map) (rules : list drule) (t : table) (n : N) : Prop := {
  sh_width : ix_trans <= t_width t <= gnpos k;
  sh_n : 2 <= n;
  sh_len : N.of_nat (length (t_dfa t)) = n * t_width t;
  sh_lk : length (t_lookup t) = 256%nat;
  sh_cols : Forall (fun col => ix_dead <= col < t_width t) (t_lookup t);
  sh_cell : forall row col v, row < n -> ix_eol <= col < t_width t -> cell t row col = Some v -> v < n;
  sh_cell0 : exists v, cell t 0 0 = Some v /\ v < n;
  sh_row0 : forall col, 0 < col < ix_trans -> cell t 0 col = Some 0;
  sh_dead : forall row, row < n -> cell t row ix_dead = Some 0;
  sh_info : forall row, 0 < row < n ->
    cell t row ix_end = Some 0 \/ exists r, In r rules /\ row_data t row (dr_info r);
  sh_one : accepting t 1 ->
    exists r, In r rules /\ row_data t 1 (dr_info r) /\ nullable (dr_tree r) = true;
  sh_char : forall row col v, row < n -> ix_trans <= col < t_width t -> cell t row col = Some v ->
    v <> 0 -> accepting t v -> exists r, In r rules /\ row_data t v (dr_info r) /\ ends_char k r;
  sh_run : forall j row e, row < n -> eol_run t (S j) row e ->
    exists r p q, In r rules /\ chain (dr_tree r) p (repeat (eol_tok k) j) q /\
      In (q, eol_tok k) (leaves (dr_tree r));
  sh_blank : forall row0 w0 j e, from_row t row0 w0 -> eol_run t j row0 e -> accepting t e ->
    exists r, In r rules /\ dr_lang k m r (w0 ++ repeat SEol j)
}.

Lemma path_app k m s w : forall u p q, path k m s p (w ++ u) q <->
  exists x, path k m s p w x /\ path k m s x u q.
Proof.
  induction w as [|a w IH]; intros u p q; cbn.
  - split; [eauto|]. intros (x & -> & H). auto.
  - split.
    + intros (H1 & p' & H2 & H3). apply IH in H3 as (x & H4 & H5). exists x. eauto.
    + intros (x & (H1 & p' & H2 & H3) & H5). split; [auto|]. exists p'. split; [auto|]. apply IH. eauto.
Qed.

Section Shape.
  Variables (k : gcfg) (fl : gflags) (s : store) (root : node) (m : charset_map) (used : list N).
  Variable rules : list drule.
  Hypothesis HM : map_wf m.
  Hypothesis HL : N.of_nat (length m) < eol_tok k.
  Hypothesis RO : rules_ok k m s rules.
  Hypothesis RT : root_ok rules root.
  Variables (lk : list N) (sm : list (list N)) (n w : nat) (d : dstate).
  Hypothesis AL : alphabet m lk sm n.
  Hypothesis Hnw : (n + 7 <= w)%nat.
  Hypothesis Hn : N.of_nat w <= gnpos k.
  Variable pf : list nat -> list nat.
  Hypothesis Hpf : forall f x, In x (pf f) -> In x f.
  Hypothesis GI : gen_inv k fl s root used (rV rules) (rrk rules) pf sm w d (length (d_seen d)).
  Variable rows : list (list N).
  Hypothesis FX : ffixed w (d_rows d) rows.

  Let t := {| t_lookup := lk; t_width := N.of_nat w; t_dfa := concat rows |}.
  Let B := i_b _ _ _ _ _ _ _ _ _ _ _ _ _ GI.

  Lemma gcell row col : col < N.of_nat w -> cell t row col = at_ rows (N.to_nat row) (N.to_nat col).
  Proof. apply cell_at; [apply (fx_shape _ _ _ _ FX)|reflexivity|reflexivity]. Qed.
  Lemma glen : length (d_rows d) = S (length (d_seen d)).
  Proof. apply (b_len _ _ _ _ _ _ _ B). Qed.
  Lemma gseen_lt i v : nth_error (d_seen d) i = Some v -> (i < length (d_seen d))%nat.
  Proof. intros E. apply nth_error_Some. congruence. Qed.

  (** One transition of the rows before clashes are resolved. *)
  Lemma gtgt i v c x : nth_error (d_seen d) i = Some v ->
    cell_ok d (Some x) (tgt k s sm pf v c) -> x <> 0 ->
    exists i' u, x = N.of_nat (S i') /\ nth_error (d_seen d) i' = Some u /\
      forall q, In q u -> exists p, In p v /\ nx k s sm p c q.
  Proof.
    intros Ev D Hx.
    assert (HV := b_V _ _ _ _ _ _ _ B _ _ Ev). assert (HS := b_sorted _ _ _ _ _ _ _ B _ _ Ev).
    unfold tgt, otgt in D. destruct (tval k s sm v c) as [(g, f)|] eqn:T; [|cbn in D; congruence].
    destruct (pf f) as [|f0 f'] eqn:Ef; [cbn in D; congruence|].
    destruct (abstains (cell0 s v) g); [cbn in D; congruence|].
    cbn [cell_ok] in D. destruct D as (i' & u & E1 & E2 & SQ). injection E1 as ->.
    exists i', u. split; [auto|]. split; [auto|]. intros q Hq. apply SQ in Hq. rewrite <- Ef in Hq.
    apply Hpf in Hq.
    destruct (tval_follow k s m (rV rules) (rrk rules) HM HL (h_lt k s m rules RO) (h_tok k s m rules RO)
      (h_follow k s m rules RO) (h_inj k s m rules HL RO) sm n w lk v c g f AL Hnw Hn HV HS T) as [_ HF].
    now apply HF.
  Qed.
  Lemma gstep i v c x : nth_error (d_seen d) i = Some v -> allowed k w c -> c <> bol_tok k ->
    at2 d (loc k (S i) c) = Some x -> x <> 0 ->
    exists i' u, x = N.of_nat (S i') /\ nth_error (d_seen d) i' = Some u /\
      forall q, In q u -> exists p, In p v /\ nx k s sm p c q.
  Proof.
    intros Ev Ha Hb Ex Hx. assert (Hi := gseen_lt i v Ev).
    assert (D := i_done _ _ _ _ _ _ _ _ _ _ _ _ _ GI i v c Hi Ev Ha Hb). rewrite Ex in D.
    now apply gtgt with (1 := Ev) (2 := D).
  Qed.
  Lemma gcol i j : (7 <= j < w)%nat -> loc k (S i) (N.of_nat (j - 7)) = (S i, j) /\
    allowed k w (N.of_nat (j - 7)) /\ N.of_nat (j - 7) <> bol_tok k /\ N.of_nat (j - 7) <> eol_tok k.
  Proof.
    intros Hj. assert (Q : N.of_nat (j - 7) <> bol_tok k /\ N.of_nat (j - 7) <> eol_tok k).
    { unfold bol_tok, eol_tok in *. lia. }
    split; [|split; [right; lia|auto]]. unfold loc.
    destruct (N.eqb_spec (N.of_nat (j - 7)) (bol_tok k)); [tauto|].
    destruct (N.eqb_spec (N.of_nat (j - 7)) (eol_tok k)); [tauto|]. f_equal. lia.
  Qed.
  Lemma geol i : loc k (S i) (eol_tok k) = (S i, 5%nat) /\ eol_tok k <> bol_tok k.
  Proof.
    assert (NE : eol_tok k <> bol_tok k) by (unfold eol_tok, bol_tok in *; lia). split; [|auto].
    unfold loc. destruct (N.eqb_spec (eol_tok k) (bol_tok k)); [congruence|]. now rewrite N.eqb_refl.
  Qed.
  Lemma grow i : (i < length (d_rows d))%nat -> i <> O ->
    exists j v, i = S j /\ nth_error (d_seen d) j = Some v.
  Proof.
    intros H H0. rewrite glen in H. destruct i as [|j]; [congruence|]. exists j.
    destruct (nth_error (d_seen d) j) as [v|] eqn:E; [eauto|]. apply nth_error_None in E. lia.
  Qed.
  Lemma gmove v : moves (d_rows d) v -> exists i u j u' c, v = N.of_nat (S j) /\
    nth_error (d_seen d) i = Some u /\ nth_error (d_seen d) j = Some u' /\ (N.to_nat c + 7 < w)%nat /\
    forall q, In q u' -> exists p, In p u /\ nx k s sm p c q.
  Proof.
    intros (i & j & Hj & E & Hv). assert (Hi := at_lt _ _ _ _ E).
    assert (Hw : (j < w)%nat).
    { unfold at_ in E. destruct (nth_error (d_rows d) i) as [r|] eqn:Er; [|discriminate].
      assert (SH := b_shape _ _ _ _ _ _ _ B). rewrite Forall_forall in SH.
      rewrite <- (SH r (nth_error_In _ _ Er)). apply nth_error_Some. congruence. }
    destruct (Nat.eq_dec i O) as [->|Hi0].
    { rewrite (b_zero _ _ _ _ _ _ _ B) in E by lia. congruence. }
    destruct (grow i Hi Hi0) as (i' & u & -> & Eu). destruct (gcol i' j) as (L & A & N1 & N2); [lia|].
    destruct (gstep i' u _ v Eu A N1) as (j' & u' & -> & Eu' & H); [unfold at2; rewrite L; exact E|auto|].
    exists i', u, j', u', (N.of_nat (j - 7)). split; [auto|]. split; [auto|]. split; [auto|]. split; [lia|auto].
  Qed.

  Lemma gaccept i v : nth_error (d_seen d) i = Some v ->
    match first_end s v with
    | None => cell t (N.of_nat (S i)) ix_end = Some 0
    | Some e => row_data t (N.of_nat (S i)) e
    end.
  Proof.
    intros Ev. assert (I := b_info _ _ _ _ _ _ _ B i v). assert (Hi := gseen_lt i v Ev). assert (LR := glen).
    assert (C : forall j, (j < 5)%nat -> cell t (N.of_nat (S i)) (N.of_nat j) =
      nth_error (fresh_row w (first_end s v)) j).
    { intros j Hj. rewrite gcell by lia. rewrite !Nat2N.id. rewrite (fx_old _ _ _ _ FX) by lia. now apply I. }
    destruct (first_end s v) as [e|].
    - unfold row_data. change ix_end with (N.of_nat 0). change ix_id with (N.of_nat 1).
      change ix_uid with (N.of_nat 2). change ix_push with (N.of_nat 3). change ix_next with (N.of_nat 4).
      rewrite !C by lia. cbn. auto 10.
    - change ix_end with (N.of_nat 0). rewrite C by lia. cbn [fresh_row]. apply nth_repeat_lt. lia.
  Qed.
  Lemma gaccept_rule i v : nth_error (d_seen d) i = Some v -> accepting t (N.of_nat (S i)) ->
    exists r, In r rules /\ In (dr_end r) v /\ row_data t (N.of_nat (S i)) (dr_info r).
  Proof.
    intros Ev (e & E & He). assert (A := gaccept i v Ev).
    destruct (first_end s v) as [e'|] eqn:Ee; [|congruence].
    apply first_end_min with (rk := rrk rules) in Ee as (p & Hp & Ep & _);
      [|apply (b_sorted _ _ _ _ _ _ _ B _ _ Ev)].
    assert (Hv := b_V _ _ _ _ _ _ _ B _ _ Ev). rewrite Forall_forall in Hv.
    destruct (h_end k s m rules RO p e' (Hv p Hp) Ep) as (i0 & r & Er & -> & -> & _).
    exists r. split; [eapply nth_error_In; eauto|]. auto.
  Qed.
  Lemma new_not row : N.of_nat (length (d_rows d)) <= row < N.of_nat (length rows) ->
    forall col, col < 7 -> cell t row col = Some 0.
  Proof.
    intros H col Hc. rewrite gcell by lia. apply (fx_new _ _ _ _ FX); lia.
  Qed.
  (** The end node of [r] comes right after [p]. *)
  Lemma gend r p c : In r rules -> rV rules p -> nx k s sm p c (dr_end r) ->
    exists tk, In (p, tk) (leaves (dr_tree r)) /\ In p (lastpos (dr_tree r)) /\ In c (cset k sm tk).
  Proof.
    intros Hr Hp (tk & g & f & E & Hc & Hx). destruct (h_leaf k s m rules RO p tk g f Hp E) as (r' & Hr' & Hl & HF).
    assert (r' = r).
    { apply In_nth_error in Hr as (i & Ei). apply In_nth_error in Hr' as (j & Ej).
      assert (i = j); [|congruence]. apply (proj2 RO i j r r' (dr_end r) Ei Ej); [left; auto|].
      destruct (proj1 (HF _) Hx) as [Hx'|[_ Hx']]; [right|left; auto].
      apply (fol_poss _ p _ (ro_pure _ _ _ _ (rok k s m rules RO r' (nth_error_In _ _ Ej))) Hx'). }
    subst r'. exists tk. split; [auto|]. split; [|auto].
    apply HF in Hx as [Hx|[Hx _]]; [|auto]. exfalso. apply (end_not_poss k s m rules RO r Hr).
    apply (fol_poss _ p _ (ro_pure _ _ _ _ (rok k s m rules RO r Hr)) Hx).
  Qed.
  Lemma gV i v p : nth_error (d_seen d) i = Some v -> In p v -> rV rules p.
  Proof. intros Ev Hp. assert (H := b_V _ _ _ _ _ _ _ B _ _ Ev). rewrite Forall_forall in H. auto. Qed.
  Lemma gcset_small c tk p g f : rV rules p -> nth_error s p = Some (PLeaf tk g f) ->
    (N.to_nat c + 7 < w)%nat -> In c (cset k sm tk) -> tk <> eol_tok k.
  Proof.
    intros Hp E Hc Hi ->. unfold cset in Hi. rewrite N.eqb_refl, orb_true_r in Hi.
    destruct Hi as [<-|[]]. unfold eol_tok in *. lia.
  Qed.
  (** End of line transitions of old rows. *)
  Lemma geol_step i v e : nth_error (d_seen d) i = Some v ->
    cell t (N.of_nat (S i)) ix_eol = Some e -> e <> 0 ->
    exists i' u, e = N.of_nat (S i') /\ nth_error (d_seen d) i' = Some u /\
      forall q, In q u -> exists p, In p v /\ nx k s sm p (eol_tok k) q.
  Proof.
    intros Ev E He. assert (Hi := gseen_lt i v Ev). assert (LR := glen).
    rewrite gcell in E by (unfold ix_eol; lia). rewrite Nat2N.id in E.
    change (N.to_nat ix_eol) with 5%nat in E. rewrite (fx_old _ _ _ _ FX) in E by lia.
    destruct (geol i) as [L NB].
    apply (gstep i v (eol_tok k) e Ev); [left; right; auto|auto|unfold at2; rewrite L; exact E|auto].
  Qed.
  Lemma gold row : 0 < row < N.of_nat (length (d_rows d)) ->
    exists i v, row = N.of_nat (S i) /\ nth_error (d_seen d) i = Some v.
  Proof.
    intros H. destruct (grow (N.to_nat row)) as (j & v & E & Ev); [lia|lia|]. exists j, v. split; [lia|auto].
  Qed.
  Lemma gpath p c q a : rV rules p -> nx k s sm p c q ->
    (rd k s sm p c -> psem k m s p a) -> path k m s p [a] q.
  Proof.
    intros Hp (tk & g & f & E & Hc & Hq) H. cbn. split; [apply H; exists tk, g, f; auto|].
    exists q. split; [exists tk, g, f; auto|auto].
  Qed.
  (** What the start rows contain. *)
  Lemma gstart row0 w0 : from_row t row0 w0 -> exists i v, row0 = N.of_nat (S i) /\
    nth_error (d_seen d) i = Some v /\
    forall q, In q v -> exists p, In p (firstpos root) /\ path k m s p w0 q.
  Proof.
    destruct (i_start _ _ _ _ _ _ _ _ _ _ _ _ _ GI) as (v & Ev & Hv). assert (Hi := gseen_lt O v Ev).
    intros [[-> ->]|(E & Hne & ->)].
    - exists O, v. split; [auto|]. split; [auto|]. intros q Hq. exists q. split; [now apply Hv|reflexivity].
    - rewrite gcell in E by lia. change (N.to_nat 0) with O in E.
      rewrite (fx_old _ _ _ _ FX) in E by (rewrite ?glen; lia).
      assert (D := i_bol _ _ _ _ _ _ _ _ _ _ _ _ _ GI v Hi Ev).
      unfold at2 in D. cbn [fst snd] in D. rewrite E in D.
      destruct (gtgt O v _ row0 Ev D Hne) as (i' & u & -> & Eu & HN).
      exists i', u. split; [auto|]. split; [auto|]. intros q Hq. destruct (HN q Hq) as (p & Hp & HX).
      exists p. split; [now apply Hv|]. assert (Vp := gV O v p Ev Hp). eapply gpath; eauto.
      apply (rd_bol k s m (rV rules) (rrk rules) HM HL (h_lt k s m rules RO) (h_tok k s m rules RO)
        (h_follow k s m rules RO) (h_inj k s m rules HL RO) lk sm n w AL Hnw Hn p Vp).
  Qed.

  (** Several end of line transitions. *)
  Lemma grun j : forall i v e, nth_error (d_seen d) i = Some v -> eol_run t j (N.of_nat (S i)) e ->
    exists i' u, e = N.of_nat (S i') /\ nth_error (d_seen d) i' = Some u /\
      forall q, In q u -> exists p, In p v /\ path k m s p (repeat SEol j) q.
  Proof.
    induction j as [|j IH]; intros i v e Ev H; inversion H; subst.
    - exists i, v. split; [auto|]. split; [auto|]. intros q Hq. exists q. split; [auto|reflexivity].
    - destruct (geol_step i v x Ev) as (i1 & u1 & -> & Eu1 & HN); [auto|auto|].
      destruct (IH i1 u1 e Eu1) as (i2 & u2 & -> & Eu2 & HN2); [auto|].
      exists i2, u2. split; [auto|]. split; [auto|]. intros q Hq. destruct (HN2 q Hq) as (p1 & Hp1 & P).
      destruct (HN p1 Hp1) as (p & Hp & HX). exists p. split; [auto|].
      change (repeat SEol (S j)) with ([SEol] ++ repeat SEol j). apply path_app. exists p1. split; [|auto].
      assert (Vp := gV i v p Ev Hp). eapply gpath; eauto.
      apply (rd_eol k s m (rV rules) (rrk rules) HM HL (h_lt k s m rules RO) (h_tok k s m rules RO)
        (h_follow k s m rules RO) (h_inj k s m rules HL RO) lk sm n w AL Hnw Hn p Vp).
  Qed.
  Lemma path_chain j : forall r p q, In r rules -> In p (poss (dr_tree r)) ->
    path k m s p (repeat SEol (S j)) q ->
    exists x, chain (dr_tree r) p (repeat (eol_tok k) j) x /\ In (x, eol_tok k) (leaves (dr_tree r)).
  Proof.
    induction j as [|j IH]; intros r p q Hr Hp H; cbn [repeat path] in H; destruct H as (HS & p' & HF & H);
      destruct (leaf_pos (dr_tree r) p (ro_pure _ _ _ _ (rok k s m rules RO r Hr)) Hp) as (tk & Hl);
      destruct (ro_leaf _ _ _ _ (rok k s m rules RO r Hr) _ _ Hl) as (g & f & E & HQ);
      destruct HS as (tk' & g' & f' & E' & Ht); rewrite E in E'; injection E' as <- <- <-; cbn in Ht; subst tk.
    - exists p. split; [reflexivity|auto].
    - destruct HF as (tk' & g' & f' & E' & Hi); rewrite E in E'; injection E' as <- <- <-.
      apply HQ in Hi as [Hi|[_ ->]].
      + destruct (IH r p' q Hr) as (x & C & Hx).
        { apply (fol_poss _ p p' (ro_pure _ _ _ _ (rok k s m rules RO r Hr)) Hi). }
        { exact H. }
        exists x. split; [|auto]. cbn [repeat chain]. split; [auto|]. exists p'. auto.
      + exfalso. destruct H as ((tk' & g' & f' & E' & _) & _).
        rewrite (ro_end _ _ _ _ (rok k s m rules RO r Hr)) in E'. discriminate.
  Qed.
  Theorem shaped_ok : shaped k m rules t (N.of_nat (length rows)).
  Proof.
    assert (LR := glen). assert (LF := fx_len _ _ _ _ FX). assert (SH := fx_shape _ _ _ _ FX).
    destruct (i_start _ _ _ _ _ _ _ _ _ _ _ _ _ GI) as (v0 & Ev0 & Hv0). assert (Hi0 := gseen_lt O v0 Ev0).
    assert (EOLV : forall row e, row < N.of_nat (length rows) -> cell t row ix_eol = Some e -> e <> 0 ->
      exists i v i' u, row = N.of_nat (S i) /\ nth_error (d_seen d) i = Some v /\
        e = N.of_nat (S i') /\ nth_error (d_seen d) i' = Some u /\
        forall q, In q u -> exists p, In p v /\ nx k s sm p (eol_tok k) q).
    { intros row e Hr E He. destruct (N.eq_dec row 0) as [->|H0].
      { rewrite gcell in E by (unfold ix_eol; lia). change (N.to_nat 0) with O in E.
        change (N.to_nat ix_eol) with 5%nat in E. rewrite (fx_old _ _ _ _ FX) in E by lia.
        rewrite (b_zero _ _ _ _ _ _ _ B) in E by lia. congruence. }
      destruct (N.lt_ge_cases row (N.of_nat (length (d_rows d)))) as [L|L].
      - destruct (gold row) as (i & v & -> & Ev); [lia|].
        destruct (geol_step i v e Ev E He) as (i' & u & -> & Eu & H). exists i, v, i', u. auto 10.
      - rewrite new_not in E by (unfold ix_eol; lia). congruence. }
    constructor.
    - cbn [t_width t]. unfold ix_trans. lia.
    - lia.
    - cbn [t_dfa t_width t]. rewrite (tconcat k m HL n w Hnw Hn w) by auto. lia.
    - apply (al_lk _ _ _ _ AL).
    - cbn [t_lookup t_width t]. apply Forall_forall. intros col Hc. apply In_nth_error in Hc as (i & Ei).
      assert (Li : (i < length lk)%nat) by (apply nth_error_Some; congruence).
      rewrite (al_lk _ _ _ _ AL) in Li. destruct (al_col _ _ _ _ AL (N.of_nat i)) as (col' & E & HC); [lia|].
      rewrite Nat2N.id, Ei in E. injection E as <-. unfold ix_dead, ix_trans in *.
      destruct HC as [->|(x & Hx & ->)]; lia.
    - intros row col v Hr Hc E. cbn [t_width t] in Hc. destruct (N.eq_dec v 0) as [->|Hv]; [lia|].
      destruct (N.eq_dec col 5) as [->|N5]; [|destruct (N.eq_dec col 6) as [->|N6]].
      + destruct (EOLV row v Hr E Hv) as (_ & _ & i' & u & _ & _ & -> & Eu & _).
        apply gseen_lt in Eu. lia.
      + exfalso. rewrite gcell in E by lia. change (N.to_nat 6) with 6%nat in E.
        destruct (Nat.lt_ge_cases (N.to_nat row) (length (d_rows d))) as [L|L].
        * rewrite (fx_old _ _ _ _ FX) in E by lia. rewrite (b_dead _ _ _ _ _ _ _ B) in E by lia. congruence.
        * rewrite (fx_new _ _ _ _ FX) in E by lia. congruence.
      + unfold ix_eol in Hc. rewrite gcell in E by lia.
        destruct (fx_cell _ _ _ _ FX (N.to_nat row) (N.to_nat col) v) as [H|[H|H]]; [lia|auto|lia|lia|].
        destruct (gmove v H) as (_ & _ & j & u' & _ & -> & _ & Eu & _). apply gseen_lt in Eu. lia.
    - assert (A := at_defined w (d_rows d) 0 0 (b_shape _ _ _ _ _ _ _ B) ltac:(lia) ltac:(lia)).
      destruct A as (v & Ea). exists v. rewrite gcell by lia. change (N.to_nat 0) with O.
      rewrite (fx_old _ _ _ _ FX) by lia. split; [auto|].
      destruct (N.eq_dec v 0) as [->|Hv]; [lia|].
      assert (D := i_bol _ _ _ _ _ _ _ _ _ _ _ _ _ GI v0 Hi0 Ev0).
      unfold at2 in D. cbn [fst snd] in D. rewrite Ea in D.
      destruct (gtgt O v0 _ v Ev0 D Hv) as (i' & u & -> & Eu & _). apply gseen_lt in Eu. lia.
    - intros col Hc. unfold ix_trans in Hc. rewrite gcell by lia. change (N.to_nat 0) with O.
      rewrite (fx_old _ _ _ _ FX) by lia. apply (b_zero _ _ _ _ _ _ _ B); lia.
    - intros row Hr. rewrite gcell by (unfold ix_dead; lia). change (N.to_nat ix_dead) with 6%nat.
      destruct (Nat.lt_ge_cases (N.to_nat row) (length (d_rows d))) as [L|L].
      + rewrite (fx_old _ _ _ _ FX) by lia. apply (b_dead _ _ _ _ _ _ _ B). lia.
      + apply (fx_new _ _ _ _ FX); lia.
    - intros row Hr. destruct (N.lt_ge_cases row (N.of_nat (length (d_rows d)))) as [L|L].
      + destruct (gold row) as (i & v & -> & Ev); [lia|]. assert (A := gaccept i v Ev).
        destruct (first_end s v) as [e|] eqn:Ee; [|left; exact A]. right.
        destruct (gaccept_rule i v Ev) as (r & Hr' & _ & RD); [|eauto].
        exists (end_bits e). split; [apply A|apply end_bits_pos].
      + left. apply new_not; unfold ix_end; lia.
    - intros HA. change 1 with (N.of_nat 1) in HA. destruct (gaccept_rule O v0 Ev0 HA) as (r & Hr & Hi & RD).
      exists r. split; [auto|]. split; [exact RD|]. apply Hv0 in Hi. apply (root_In root rules RT) in Hi as (r' & Hr' & HF).
      destruct HF as [HF|[HN HE]].
      + exfalso. apply firstpos_poss in HF; [|apply (ro_pure _ _ _ _ (rok k s m rules RO r' Hr'))].
        apply (poss_leaf r') in HF as (tk & HF).
        destruct (ro_leaf _ _ _ _ (rok k s m rules RO r' Hr') _ _ HF) as (g & f & E & _).
        rewrite (ro_end _ _ _ _ (rok k s m rules RO r Hr)) in E. discriminate.
      + replace r with r'; [auto|]. apply In_nth_error in Hr as (i & Ei). apply In_nth_error in Hr' as (j & Ej).
        assert (i = j); [|congruence]. eapply (proj2 RO); eauto; [left; auto|]. rewrite HE. left; auto.
    - intros row col v Hr Hc E Hv HA. cbn [t_width t] in Hc. unfold ix_trans in Hc. rewrite gcell in E by lia.
      destruct (fx_cell _ _ _ _ FX (N.to_nat row) (N.to_nat col) v) as [H|[H|H]]; [lia|auto|congruence| |].
      + exfalso. destruct HA as (e & HE & HZ). rewrite new_not in HE by (unfold ix_end; lia). congruence.
      + destruct (gmove v H) as (i & u & j & u' & c & -> & Eu & Eu' & Hcw & HN).
        destruct (gaccept_rule j u' Eu' HA) as (r & Hr' & Hi & RD).
        destruct (HN _ Hi) as (p & Hp & HX). assert (Vp := gV i u p Eu Hp).
        destruct (gend r p c Hr' Vp HX) as (tk & Hl & HLp & HC).
        exists r. split; [auto|]. split; [auto|]. exists p, tk. split; [auto|]. split; [auto|].
        destruct HX as (tk' & g & f & Ep & _).
        destruct (ro_leaf _ _ _ _ (rok k s m rules RO r Hr') _ _ Hl) as (g' & f' & Ep' & _).
        eapply gcset_small; eauto.
    - intros j row e Hr HR. assert (X : exists i v, row = N.of_nat (S i) /\ nth_error (d_seen d) i = Some v).
      { inversion HR as [|? ? x ? E Hx HR']; subst.
        destruct (EOLV row x Hr E Hx) as (i & v & _ & _ & -> & Ev & _). eauto. }
      destruct X as (i & v & -> & Ev). destruct (grun (S j) i v e Ev HR) as (i' & u & -> & Eu & HN).
      assert (NE := b_ne _ _ _ _ _ _ _ B _ _ Eu). destruct u as [|q u]; [congruence|].
      destruct (HN q (or_introl eq_refl)) as (p & Hp & P). destruct (gV i v p Ev Hp) as (r & Hr' & [<-|Hpp]).
      + exfalso. destruct P as ((tk & g & f & E & _) & _).
        rewrite (ro_end _ _ _ _ (rok k s m rules RO r Hr')) in E. discriminate.
      + destruct (path_chain j r p q Hr' Hpp P) as (x & C & Hx). exists r, p, x. auto.
    - intros row0 w0 j e HF HR HA. destruct (gstart row0 w0 HF) as (i & v & -> & Ev & HS).
      destruct (grun j i v e Ev HR) as (i' & u & -> & Eu & HN).
      destruct (gaccept_rule i' u Eu HA) as (r & Hr & Hi & _). exists r. split; [auto|].
      apply (path_lang k s root m rules RO RT r _ Hr).
      destruct (HN _ Hi) as (p & Hp & HX). destruct (HS p Hp) as (p0 & Hp0 & HP0). exists p0. split; [auto|].
      apply path_app. exists p. auto.
  Qed.
End Shape.
