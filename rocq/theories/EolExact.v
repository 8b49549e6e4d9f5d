(** Rules that never go on with a \r or \n where another one has its end of line
    token: nothing is pruned, no clash is resolved, and the table recognises
    exactly the words of the rules. *)
From Verif Require Import Base StringToken StringTokenSpec StringTokenProofs StateMachine Tree TreeSpec
  RegexSpec Glushkov Partition PartitionProofs Generator GenMap GenPrune GenDfa GenBuild Lookup TableSpec
  DfaSpec GenWalk GenRules GenTable EolFix EolWords EolTable EolPrune EolBuild BuildFuel.
From Verif Require ParserTree.
From Coq Require Import Sorted.
Local Open Scope N_scope.

Definition clash_free (k : gcfg) (m : charset_map) (rules : list drule) : Prop :=
  forall r1 r2 w v1 v2 j x, In r1 rules -> In r2 rules -> x = 10 \/ x = 13 ->
    (j = O \/ (compressed k = true /\ j = lim k)) ->
    dr_lang k m r1 (w ++ SEol :: v1) -> ~ dr_lang k m r2 (w ++ repeat (SByte 0) j ++ SByte x :: v2).

Section Exact.
  Variables (k : gcfg) (fl : gflags) (s : store) (root : node) (m : charset_map) (used : list N).
  Variable rules : list drule.
  Hypothesis HM : map_wf m.
  Hypothesis HL : N.of_nat (length m) < eol_tok k.
  Hypothesis RO : rules_ok k m s rules.
  Hypothesis RT : root_ok rules root.
  Variables (lk : list N) (sm : list (list N)) (n w : nat) (d : dstate).
  Hypothesis AL : alphabet m lk sm n.
  Hypothesis Hnw : (n + 7 <= w)%nat.
  Hypothesis Hn : N.of_nat w <= gnpos k.

  Notation VV := (rV rules).
  Notation path := (path k m s).
  Notation psem := (psem k m s).

  (** Some symbol stands for the column [c]. *)
  Lemma rd_cases p c : VV p -> rd k s sm p c -> c = bol_tok k \/ c = eol_tok k \/ c < N.of_nat n.
  Proof.
    intros Hp (t & g & f & E & Hc). destruct (h_tok k s m rules RO p t g f Hp E) as [->|[->|(tk & Ht)]].
    - unfold cset in Hc. rewrite N.eqb_refl in Hc. destruct Hc as [<-|[]]. auto.
    - unfold cset in Hc. rewrite N.eqb_refl, orb_true_r in Hc. destruct Hc as [<-|[]]. auto.
    - destruct (cset_ord k m HM HL lk sm n AL t tk Ht) as (l & El & Ec). rewrite Ec in Hc.
      right. right. eapply (al_range _ _ _ _ AL); eauto.
  Qed.
  Lemma rd_byte p b c : VV p -> b < 256 -> nth_error lk (N.to_nat b) = Some (c + ix_trans) -> rd k s sm p c -> psem p (SByte b).
  Proof.
    intros Hp Hb El H.
    apply (psem_byte k s m VV (rrk rules) HM HL (h_lt k s m rules RO) (h_tok k s m rules RO)
      (h_follow k s m rules RO) (h_inj k s m rules HL RO) lk sm n w d AL Hnw Hn p b (c + ix_trans) Hp Hb).
    - exact El.
    - exists c. split; [reflexivity|auto].
  Qed.
  Lemma rd_sym p0 c : VV p0 -> rd k s sm p0 c -> exists a, forall p, VV p -> rd k s sm p c -> psem p a.
  Proof.
    intros Hp H. destruct (rd_cases p0 c Hp H) as [->|[->|Hc]].
    - exists SBol. intros p Vp. apply (rd_bol k s m VV (rrk rules) HM HL (h_lt k s m rules RO) (h_tok k s m rules RO)
        (h_follow k s m rules RO) (h_inj k s m rules HL RO) lk sm n w AL Hnw Hn p Vp).
    - exists SEol. intros p Vp. apply (rd_eol k s m VV (rrk rules) HM HL (h_lt k s m rules RO) (h_tok k s m rules RO)
        (h_follow k s m rules RO) (h_inj k s m rules HL RO) lk sm n w AL Hnw Hn p Vp).
    - destruct (al_surj _ _ _ _ AL c Hc) as (b & Hb & Eb). exists (SByte b). intros p Vp R. eapply rd_byte; eauto.
  Qed.
  Lemma nx_path p c q a : VV p -> nx k s sm p c q -> (rd k s sm p c -> psem p a) -> path p [a] q.
  Proof.
    intros Hp (tk & g & f & E & Hc & Hq) H. cbn. split; [apply H; exists tk, g, f; auto|].
    exists q. split; [exists tk, g, f; auto|auto].
  Qed.

  (** Every position leads to the end of its rule. *)
  Lemma leaf_sym p t : VV p -> (exists g f, nth_error s p = Some (PLeaf t g f)) -> exists a, psem p a.
  Proof.
    intros Hp (g & f & E). destruct (h_VL k s m rules HM HL RO lk sm n w AL Hnw Hn p t g f Hp E) as (_ & _ & _ & NE & _).
    destruct (cset k sm t) as [|c l] eqn:Q; [congruence|].
    assert (R : rd k s sm p c) by (exists t, g, f; rewrite Q; split; [auto|left; auto]).
    destruct (rd_sym p c Hp R) as (a & Ha). exists a. auto.
  Qed.
  Lemma finish_leaf r a : In r rules -> forall p, In p (poss (dr_tree r)) -> psem p a ->
    exists W, path p (a :: W) (dr_end r).
  Proof.
    intros Hr p Hp. assert (OK := rok k s m rules RO r Hr).
    destruct (coreach (dr_tree r) (ro_pure _ _ _ _ OK) p Hp) as (q & ts & Hq & C).
    revert p a Hp C. induction ts as [|t ts IH]; intros p a Hp C Ha.
    - cbn in C. subst q. destruct (poss_leaf r p Hp) as (t & Hl).
      destruct (ro_leaf _ _ _ _ OK _ _ Hl) as (g & f & E & HF). exists []. cbn. split; [auto|].
      exists (dr_end r). split; [|auto]. exists t, g, f. split; [auto|]. apply HF. auto.
    - destruct C as (Hl & p' & Hf & C). destruct (ro_leaf _ _ _ _ OK _ _ Hl) as (g & f & E & HF).
      assert (Hp' := proj2 (fol_poss _ _ _ (ro_pure _ _ _ _ OK) Hf)).
      destruct (poss_leaf r p' Hp') as (t' & Hl').
      destruct (ro_leaf _ _ _ _ OK _ _ Hl') as (g' & f' & E' & _).
      destruct (leaf_sym p' t') as (a' & Ha'); [exists r; split; [auto|right; auto]|eauto|].
      destruct (IH p' a' Hp' C Ha') as (W & P). exists (a' :: W). cbn [GenWalk.path]. split; [auto|].
      exists p'. split; [exists t, g, f; split; [auto|]; apply HF; auto|exact P].
  Qed.
  Lemma finish y : VV y -> exists r W, In r rules /\ path y W (dr_end r).
  Proof.
    intros (r & Hr & [<-|Hy]).
    - exists r, []. split; [auto|reflexivity].
    - destruct (poss_leaf r y Hy) as (t & Hl). destruct (ro_leaf _ _ _ _ (rok k s m rules RO r Hr) _ _ Hl) as (g & f & E & _).
      destruct (leaf_sym y t) as (a & Ha); [exists r; split; [auto|right; auto]|eauto|].
      destruct (finish_leaf r a Hr y Hy Ha) as (W & P). exists r, (a :: W). auto.
  Qed.
  Lemma finish_at y a : VV y -> psem y a -> exists r W, In r rules /\ path y (a :: W) (dr_end r).
  Proof.
    intros (r & Hr & [<-|Hy]) Ha.
    - destruct Ha as (t & g & f & E & _). rewrite (ro_end _ _ _ _ (rok k s m rules RO r Hr)) in E. discriminate.
    - destruct (finish_leaf r a Hr y Hy Ha) as (W & P). exists r, W. auto.
  Qed.

  Hypothesis CF : clash_free k m rules.
  (** [v] contains only positions reached by [W]. *)
  Definition within (W : list sym) (v : list nat) : Prop :=
    forall q, In q v -> exists p, In p (firstpos root) /\ path p W q.
  Lemma path_V W : forall p q, VV p -> path p W q -> VV q.
  Proof.
    induction W as [|a W IH]; intros p q Hp P; cbn in P; [subst; auto|].
    destruct P as (_ & p' & (t & g & f & E & Hf) & P). destruct (h_follow k s m rules RO p t g f Hp E) as [F _].
    rewrite Forall_forall in F. eapply IH; [|exact P]. auto.
  Qed.
  Lemma root_V p : In p (firstpos root) -> VV p.
  Proof. assert (H := h_root_V k s root m rules RO RT). rewrite Forall_forall in H. auto. Qed.
  Lemma no_clash W p q j x : x = 10 \/ x = 13 -> (j = O \/ (compressed k = true /\ j = lim k)) ->
    (exists p0, In p0 (firstpos root) /\ path p0 W p) -> psem p SEol ->
    (exists q0, In q0 (firstpos root) /\ path q0 (W ++ repeat (SByte 0) j) q) -> psem q (SByte x) -> False.
  Proof.
    intros Hx Hj (p0 & Hp0 & Pp) Sp (q0 & Hq0 & Pq) Sq.
    destruct (finish_at p SEol) as (r1 & v1 & Hr1 & P1); [exact (path_V _ p0 p (root_V p0 Hp0) Pp)|auto|].
    destruct (finish_at q (SByte x)) as (r2 & v2 & Hr2 & P2); [exact (path_V _ q0 q (root_V q0 Hq0) Pq)|auto|].
    apply (CF r1 r2 W v1 v2 j x Hr1 Hr2 Hx Hj).
    - apply (path_lang k s root m rules RO RT r1 _ Hr1). exists p0. split; [auto|]. apply path_app. eauto.
    - apply (path_lang k s root m rules RO RT r2 _ Hr2). exists q0. split; [auto|]. rewrite app_assoc. apply path_app. eauto.
  Qed.

  (** ** The columns of \r, \n and zero *)
  Lemma col_byte x id c p : col_of k sm id c -> id = gnpos k \/ In ([(x, x)], id) m ->
    VV p -> rd k s sm p c -> psem p (SByte x).
  Proof.
    intros C Hi Hp H. destruct C as [[-> ->]|[NE (l & El)]].
    - exfalso. destruct (rd_cases p _ Hp H) as [E|[E|E]]; unfold bol_tok, eol_tok in *; lia.
    - destruct Hi as [->|Hi]; [congruence|].
      assert (Hc : c < N.of_nat n) by (eapply (al_range _ _ _ _ AL); [eauto|left; auto]).
      destruct (al_surj _ _ _ _ AL c Hc) as (b & Hb & Eb).
      assert (Q : memb b [(x, x)] = true).
      { apply (al_mem _ _ _ _ AL _ _ _ b _ Hi El Hb Eb). exists c. split; [left; auto|auto]. }
      apply memb_mem in Q. destruct Q as (a & y & [E|[]] & Hab). injection E as <- <-.
      assert (b = x) by lia. subst b. eapply rd_byte; eauto.
  Qed.

  Variables (cr nl cr' nl' zero : N).
  Hypothesis Ccr : col_of k sm cr cr'.
  Hypothesis Cnl : col_of k sm nl nl'.
  Hypothesis Hcr : cr = gnpos k \/ In ([(13, 13)], cr) m.
  Hypothesis Hnl : nl = gnpos k \/ In ([(10, 10)], nl) m.
  Hypothesis Z : zero_col k m sm cr nl zero.

  Variable pf : list nat -> list nat.
  Hypothesis Hpf : forall f x, In x (pf f) -> In x f.
  Hypothesis GI : gen_inv k fl s root used VV (rrk rules) pf sm w d (length (d_seen d)).
  Hypothesis PR : forall i v c g f, nth_error (d_seen d) i = Some v -> tval k s sm v c = Some (g, f) ->
    prune_clashes (S (length f)) k s sm cr' nl' f 0 = Ok (pf f).
  Let B := i_b _ _ _ _ _ _ _ _ _ _ _ _ _ GI.

  Lemma tval_nx v c g f i : nth_error (d_seen d) i = Some v -> tval k s sm v c = Some (g, f) ->
    (exists p, In p v /\ rd k s sm p c) /\ (forall x, In x f <-> exists p, In p v /\ nx k s sm p c x).
  Proof.
    intros Ev T. apply (tval_follow k s m VV (rrk rules) HM HL (h_lt k s m rules RO) (h_tok k s m rules RO)
      (h_follow k s m rules RO) (h_inj k s m rules HL RO) sm n w lk v c g f AL Hnw Hn).
    - apply (b_V _ _ _ _ _ _ _ B _ _ Ev).
    - apply (b_sorted _ _ _ _ _ _ _ B _ _ Ev).
    - exact T.
  Qed.
  Lemma seen_V i v p : nth_error (d_seen d) i = Some v -> In p v -> VV p.
  Proof. intros Ev Hp. assert (H := b_V _ _ _ _ _ _ _ B _ _ Ev). rewrite Forall_forall in H. auto. Qed.
  Lemma within_step W a v u c : within W v -> (forall p, In p v -> VV p) ->
    (forall p, VV p -> rd k s sm p c -> psem p a) ->
    (forall q, In q u -> exists p, In p v /\ nx k s sm p c q) -> within (W ++ [a]) u.
  Proof.
    intros H HV Ha HN q Hq. destruct (HN q Hq) as (p & Hp & HX). destruct (H p Hp) as (p0 & Hp0 & P).
    exists p0. split; [auto|]. apply path_app. exists p. split; [auto|]. eapply nx_path; eauto.
  Qed.
  Theorem seen_words : forall i v, nth_error (d_seen d) i = Some v -> exists W, within W v.
  Proof.
    induction i as [i IH] using (well_founded_induction Wf_nat.lt_wf). intros v Ev. destruct i as [|i].
    - destruct (i_start _ _ _ _ _ _ _ _ _ _ _ _ _ GI) as (v' & Ev' & Hv). rewrite Ev in Ev'. injection Ev' as <-.
      exists []. intros q Hq. exists q. split; [now apply Hv|reflexivity].
    - destruct (i_came _ _ _ _ _ _ _ _ _ _ _ _ _ GI i v Ev) as (j & u & c & g & f & Hj & Eu & Hc & T & Hf & SQ).
      destruct (IH j ltac:(lia) u Eu) as (W & HW). destruct (tval_nx u c g f j Eu T) as ((p0 & Hp0 & R0) & HF).
      destruct (rd_sym p0 c (seen_V j u p0 Eu Hp0) R0) as (a & Ha). exists (W ++ [a]).
      eapply within_step; eauto.
      + intros p. apply (seen_V j u p Eu).
      + intros q Hq. apply SQ in Hq. apply Hpf in Hq. now apply HF.
  Qed.

  Lemma eol_psem p : eol_leaf k s p -> psem p SEol.
  Proof. intros (g & f & E). exists (eol_tok k), g, f. split; [auto|reflexivity]. Qed.
  Lemma reads_psem p : VV p -> reads_line s sm cr' nl' p -> psem p (SByte 13) \/ psem p (SByte 10).
  Proof.
    intros Hp (t & g & f & set & E & Em & HC).
    assert (Q : forall c, In c set -> rd k s sm p c).
    { intros c Hc. exists t, g, f. split; [auto|].
      assert (Lt : (N.to_nat t < length sm)%nat) by (apply nth_error_Some; congruence).
      rewrite (al_sm _ _ _ _ AL) in Lt.
      destruct (h_tok k s m rules RO p t g f Hp E) as [->|[->|(tk & Ht)]].
      - unfold bol_tok, eol_tok in *. lia.
      - unfold eol_tok in *. lia.
      - destruct (cset_ord k m HM HL lk sm n AL t tk Ht) as (l & El & Ec). rewrite Ec. congruence. }
    destruct HC as [HC|HC]; apply Q in HC.
    - left. apply (col_byte 13 cr cr'); auto.
    - right. apply (col_byte 10 nl nl'); auto.
  Qed.
  Theorem pruned_same i v c g f : nth_error (d_seen d) i = Some v -> tval k s sm v c = Some (g, f) -> pf f = f.
  Proof.
    intros Ev T. apply (prune_clashes_same k s sm cr' nl' (S (length f)) f 0 (pf f)); [|eapply PR; eauto].
    intros p q Hp Hq EL RL. destruct (tval_nx v c g f i Ev T) as ((p0 & Hp0 & R0) & HF).
    destruct (seen_words i v Ev) as (W & HW).
    destruct (rd_sym p0 c (seen_V i v p0 Ev Hp0) R0) as (a & Ha).
    assert (HWf : within (W ++ [a]) f).
    { eapply within_step; eauto; [intros x; apply (seen_V i v x Ev)|]. intros x Hx. now apply HF. }
    apply eol_psem in EL. assert (Vq : VV q).
    { destruct (HWf q Hq) as (q0 & Hq0 & P). exact (path_V _ q0 q (root_V q0 Hq0) P). }
    destruct (reads_psem q Vq RL) as [S|S].
    - apply (no_clash (W ++ [a]) p q 0 13); auto. cbn [repeat]. rewrite app_nil_r. auto.
    - apply (no_clash (W ++ [a]) p q 0 10); auto. cbn [repeat]. rewrite app_nil_r. auto.
  Qed.
  Theorem exact_plain : plain_inv k fl s root used VV (rrk rules) sm w d.
  Proof.
    unfold plain_inv, gen_inv. eapply inv_pf_ext; [exact GI|]. intros i v c g f Ev Hc T.
    eapply pruned_same; eauto.
  Qed.

  (** ** The table keeps its transitions *)
  Lemma cell_step i v c x : nth_error (d_seen d) i = Some v ->
    get_cell (d_rows d) (N.of_nat (S i)) (ix_trans + c) = Ok x -> x <> 0 ->
    exists i' u, x = N.of_nat (S i') /\ nth_error (d_seen d) i' = Some u /\
      forall q, In q u -> exists p, In p v /\ nx k s sm p c q.
  Proof.
    intros Ev E Hx. unfold get_cell in E. rewrite Nat2N.id in E.
    destruct (nth_error (d_rows d) (S i)) as [row|] eqn:Er; [|discriminate].
    destruct (nth_error row (N.to_nat (ix_trans + c))) as [y|] eqn:Ey; [|discriminate].
    cbn in E. injection E as ->.
    assert (Lw : length row = w).
    { assert (SH := b_shape _ _ _ _ _ _ _ B). rewrite Forall_forall in SH. apply SH. eapply nth_error_In; eauto. }
    assert (Lc : (N.to_nat (ix_trans + c) < w)%nat) by (rewrite <- Lw; apply nth_error_Some; congruence).
    unfold ix_trans in *. destruct (gcol k m HL n w Hnw Hn pf Hpf i (N.to_nat (7 + c))) as (L & A & N1 & _); [lia|].
    replace (N.of_nat (N.to_nat (7 + c) - 7)) with c in * by lia.
    apply (gstep k fl s root m used rules HM HL RO lk sm n w d AL Hnw Hn pf Hpf GI i v c x Ev A N1); [|auto].
    unfold at2. rewrite L. cbn [fst snd]. unfold at_. now rewrite Er.
  Qed.
  Lemma cell_zero c x : get_cell (d_rows d) 0 (ix_trans + c) = Ok x -> x = 0.
  Proof.
    unfold get_cell. change (N.to_nat 0) with O. destruct (nth_error (d_rows d) 0) as [row|] eqn:Er; [|discriminate].
    destruct (nth_error row (N.to_nat (ix_trans + c))) as [y|] eqn:Ey; [|discriminate]. cbn. intros [= ->].
    assert (Lw : length row = w).
    { assert (SH := b_shape _ _ _ _ _ _ _ B). rewrite Forall_forall in SH. apply SH. eapply nth_error_In; eauto. }
    assert (Lc : (N.to_nat (ix_trans + c) < w)%nat) by (rewrite <- Lw; apply nth_error_Some; congruence).
    assert (ZZ := b_zero _ _ _ _ _ _ _ B (N.to_nat (ix_trans + c))). unfold at_ in ZZ. rewrite Er in ZZ.
    rewrite ZZ in Ey; [congruence|]. unfold ix_trans in *. lia.
  Qed.
  Lemma zero_walk : compressed k = true -> forall j i v W q, nth_error (d_seen d) i = Some v -> within W v ->
    zero_steps j zero (d_rows d) (N.of_nat (S i)) = Ok q ->
    q = 0 \/ exists i' u, q = N.of_nat (S i') /\ nth_error (d_seen d) i' = Some u /\
      within (W ++ repeat (SByte 0) j) u.
  Proof.
    intros C. assert (Z0 : forall j q, zero_steps j zero (d_rows d) 0 = Ok q -> q = 0).
    { induction j as [|j IH]; cbn [zero_steps]; intros q E; [now injection E as <-|].
      apply bind_ok in E as (x & E1 & E). apply cell_zero in E1. subst x. auto. }
    assert (ZS : forall p, VV p -> rd k s sm p zero -> psem p (SByte 0)).
    { intros p Hp H. unfold zero_col in Z. rewrite C in Z.
      destruct (negb ((cr =? gnpos k) && (nl =? gnpos k))); cbn [andb] in Z.
      - destruct Z as (id & l & E1 & E2). apply ParserTree.map_find_some in E1.
        apply (col_byte 0 id zero); auto. right. split; [|eauto].
        intros ->. assert (X : (N.to_nat (gnpos k) < length sm)%nat) by (apply nth_error_Some; congruence).
        rewrite (al_sm _ _ _ _ AL) in X. unfold eol_tok in HL. lia.
      - subst zero. exfalso. destruct (rd_cases p _ Hp H) as [E|[E|E]]; unfold bol_tok, eol_tok in *; lia. }
    induction j as [|j IH]; cbn [zero_steps]; intros i v W q Ev HW E.
    - injection E as <-. right. exists i, v. cbn [repeat]. rewrite app_nil_r. auto.
    - apply bind_ok in E as (x & E1 & E). destruct (N.eq_dec x 0) as [->|Hx]; [left; eauto|].
      destruct (cell_step i v zero x Ev E1 Hx) as (i' & u & -> & Eu & HN).
      assert (HW' : within (W ++ [SByte 0]) u).
      { eapply within_step; eauto. intros p. apply (seen_V i v p Ev). }
      destruct (IH i' u _ q Eu HW' E) as [->|(i2 & u2 & -> & Eu2 & H2)]; [auto|].
      right. exists i2, u2. split; [auto|]. split; [auto|]. rewrite <- app_assoc in H2. exact H2.
  Qed.
  Theorem eols_unlined : Forall (unlined k cr' nl' zero (d_rows d)) (d_eol d).
  Proof.
    apply Forall_forall. intros e He. apply (i_eol _ _ _ _ _ _ _ _ _ _ _ _ _ GI) in He as (i & v & _ & -> & Ev & T).
    assert (EP : exists p, In p v /\ psem p SEol).
    { unfold tgt in T. destruct (tval k s sm v (eol_tok k)) as [(g, f)|] eqn:TV; [|now exfalso; apply T].
      destruct (tval_nx v _ g f i Ev TV) as ((p & Hp & R) & _). exists p. split; [auto|].
      apply (rd_eol k s m VV (rrk rules) HM HL (h_lt k s m rules RO) (h_tok k s m rules RO)
        (h_follow k s m rules RO) (h_inj k s m rules HL RO) lk sm n w AL Hnw Hn p (seen_V i v p Ev Hp)). exact R. }
    destruct EP as (p & Hp & Sp). destruct (seen_words i v Ev) as (W & HW).
    intros j q c x Hj E Hc G. destruct (N.eq_dec x 0) as [|Hx]; [auto|exfalso].
    assert (Q : q = 0 \/ exists i' u, q = N.of_nat (S i') /\ nth_error (d_seen d) i' = Some u /\
      within (W ++ repeat (SByte 0) j) u).
    { destruct Hj as [->|[C ->]].
      - cbn in E. injection E as <-. right. exists i, v. cbn [repeat]. rewrite app_nil_r. auto.
      - eapply zero_walk; eauto. }
    destruct Q as [->|(i' & u & -> & Eu & HU)]; [apply cell_zero in G; congruence|].
    destruct (cell_step i' u c x Eu G Hx) as (i2 & u2 & -> & Eu2 & HN).
    assert (NE := b_ne _ _ _ _ _ _ _ B _ _ Eu2). destruct u2 as [|y u2]; [congruence|].
    destruct (HN y (or_introl eq_refl)) as (p' & Hp' & HX). apply nx_char in HX as [HX _].
    assert (Vp := seen_V i' u p' Eu Hp').
    assert (S : psem p' (SByte 13) \/ psem p' (SByte 10)).
    { destruct Hc as [->| ->]; [left; apply (col_byte 13 cr cr')|right; apply (col_byte 10 nl nl')]; auto. }
    destruct S as [S|S]; [apply (no_clash W p p' j 13)|apply (no_clash W p p' j 10)]; auto.
  Qed.
  Theorem exact_rows rows' : fix_clashes k w cr' nl' zero (d_eol d) 0 (d_rows d) = Ok rows' -> rows' = d_rows d.
  Proof. apply fix_clashes_same; [apply eols_unlined|auto]. Qed.
End Exact.

(** Every row reached still leads to the end of some rule. *)
Definition live (k : gcfg) (m : charset_map) (rules : list drule) (t : table) : Prop :=
  forall row0 w0 w row, from_row t row0 w0 -> Forall line_sym w -> swalk t row0 w row ->
    exists r v, In r rules /\ dr_lang k m r (w0 ++ w ++ v).

Section Live.
  Variables (k : gcfg) (fl : gflags) (s : store) (root : node) (m : charset_map) (used : list N).
  Variable rules : list drule.
  Hypothesis HM : map_wf m.
  Hypothesis HL : N.of_nat (length m) < eol_tok k.
  Hypothesis RO : rules_ok k m s rules.
  Hypothesis RT : root_ok rules root.
  Variables (lk : list N) (sm : list (list N)) (n w : nat) (d : dstate).
  Hypothesis AL : alphabet m lk sm n.
  Hypothesis Hnw : (n + 7 <= w)%nat.
  Hypothesis Hn : N.of_nat w <= gnpos k.
  Hypothesis PI : plain_inv k fl s root used (rV rules) (rrk rules) sm w d.
  Theorem live_ok : live k m rules {| t_lookup := lk; t_width := N.of_nat w; t_dfa := concat (d_rows d) |}.
  Proof.
    intros row0 w0 wd row HF Hw SW.
    apply (from_row_state k fl s root m used rules HM HL RO lk sm n w d AL Hnw Hn PI) in HF as (i & v & -> & Ev & HR).
    destruct (swalk_sound k fl s root m used (rV rules) (rrk rules) HM HL (h_lt k s m rules RO) (h_tok k s m rules RO)
        (h_follow k s m rules RO) (h_inj k s m rules HL RO) lk sm n w d AL Hnw Hn PI wd Hw i v row Ev SW)
      as (i' & v' & -> & Ev' & Hv').
    assert (HR' := reached_app k s root m _ _ _ _ HR Hv').
    assert (B := i_b _ _ _ _ _ _ _ _ _ _ _ _ _ PI).
    assert (NE := b_ne _ _ _ _ _ _ _ B _ _ Ev'). destruct v' as [|y v']; [congruence|].
    assert (Vy : rV rules y) by (assert (H := b_V _ _ _ _ _ _ _ B _ _ Ev'); now inversion H).
    destruct (finish k s m rules HM HL RO lk sm n w d AL Hnw Hn y Vy) as (r & W & Hr & P).
    exists r, W. split; [auto|]. apply (path_lang k s root m rules RO RT r _ Hr).
    destruct (proj1 (HR' y) (or_introl eq_refl)) as (p & Hp & P0). exists p. split; [auto|].
    rewrite app_assoc. apply path_app. eauto.
  Qed.
End Live.

Theorem build_dfa_exact fuel k fl s root m cr nl used rules o :
  map_wf m -> N.of_nat (length m) < eol_tok k -> rules_ok k m s rules -> root_ok rules root ->
  clash_free k m rules ->
  cr = gnpos k \/ In ([(13, 13)], cr) m -> nl = gnpos k \/ In ([(10, 10)], nl) m ->
  build_dfa fuel k fl s root m cr nl used = Ok o ->
  erecognises k m s rules (out_table o) (N.of_nat (length (o_rows o))) /\
  live k m rules (out_table o).
Proof.
  intros HM HL RO RT CF Hcr Hnl E.
  set (f' := (fuel + S (2 ^ length s))%nat).
  assert (E' : build_dfa f' k fl s root m cr nl used = Ok o).
  { apply (build_dfa_mono fuel); [unfold f'; lia|auto|discriminate]. }
  destruct (build_dfa_gen k fl s root m used (rV rules) (rrk rules) HM HL
     (h_lt k s m rules RO) (h_tok k s m rules RO)
     (h_follow k s m rules RO) (h_inj k s m rules HL RO) (h_root_ne k s root m rules RO RT)
     (h_root_V k s root m rules RO RT) (h_root_sorted k s root m rules HL RO RT) f' cr nl ltac:(unfold f'; lia)
     ltac:(destruct Hcr; eauto) ltac:(destruct Hnl; eauto))
    as (cl & lk & sm & _ & AL & _ & _ & cr' & nl' & Ccr & Cnl & H).
  cbv zeta in H. destruct H as [(zero & Z & [[_ H]|[(_ & _ & H)|(Hw & d & GI & PR & H)]])|[_ H]].
  - congruence.
  - exfalso. eapply H; eauto.
  - rewrite E' in H. symmetry in H. apply bind_ok in H as (rows & HF & H). injection H as <-.
    set (w := gen_width k (length cl) cr' nl') in *.
    assert (Hnw : (length cl + 7 <= w)%nat) by (unfold w, gen_width; lia).
    pose proof (exact_plain k fl s root m used rules HM HL RO RT lk sm (length cl) w d AL Hnw Hw CF cr nl cr' nl' 
      Ccr Cnl Hcr Hnl (prf k s sm cr' nl') (prf_sub k s sm cr' nl') GI PR) as PI.
    assert (RW : rows = d_rows d).
    { eapply (exact_rows k fl s root m used rules HM HL RO RT lk sm (length cl) w d AL Hnw Hw CF cr nl cr' nl' zero
        Ccr Cnl Hcr Hnl Z (prf k s sm cr' nl') (prf_sub k s sm cr' nl') GI); eauto. }
    subst rows. split.
    + apply (erecognises_ok k fl s root m used rules HM HL RO RT lk sm (length cl) w d AL Hnw Hw PI).
    + apply (live_ok k fl s root m used rules HM HL RO RT lk sm (length cl) w d AL Hnw Hw PI).
  - exfalso. eapply H; eauto.
Qed.
