(** A rule whose only repetition is abstemious: its part of every state, and the
    transitions dropped once it has matched. *)
From Verif Require Import Base StringToken StringTokenSpec StringTokenProofs StateMachine Tree TreeSpec
  RegexSpec Glushkov Partition PartitionProofs Generator GenMap GenPrune GenDfa GenBuild Lookup TableSpec
  DfaSpec GenWalk GenRules GenTable EolFix EolWords EolTable EolExact GenOrder.
From Coq Require Import Sorted.
Local Open Scope N_scope.

(** The positions of a rule of the form X L*? Y, where X and Y are sequences and L
    is a choice of characters: [pre] one after the other, then [loop], of which
    each can be followed by all and by what comes after, then [post]; whatever
    [post] reads [loop] reads too. *)
Record looping (k : gcfg) (m : charset_map) (s : store) (r : drule) (pre loop post : list nat) : Prop := {
  lp_nodup : NoDup loop;
  lp_pre : forall p, In p pre -> exists t f, nth_error s p = Some (PLeaf t GYes f) /\
    ((exists q, f = [q] /\ In q pre) \/ exists rest, f = loop ++ rest /\ incl rest (dr_end r :: post));
  lp_loop : forall p, In p loop -> exists t rest, nth_error s p = Some (PLeaf t GNo (loop ++ rest)) /\
    incl rest (dr_end r :: post);
  lp_post : forall p, In p post -> exists t f, nth_error s p = Some (PLeaf t GYes f) /\ incl f (dr_end r :: post);
  lp_cover : forall p a, In p post -> psem k m s p a -> exists q, In q loop /\ psem k m s q a;
  lp_first : incl (firstpos (dr_tree r)) pre;
  lp_null : nullable (dr_tree r) = false;
  lp_one : forall p p' a, In p (firstpos (dr_tree r)) -> In p' (firstpos (dr_tree r)) ->
    psem k m s p a -> psem k m s p' a -> p = p';
  lp_in : incl (pre ++ loop ++ post) (poss (dr_tree r));
  lp_lazy : e_greedy (dr_info r) = GNo
}.

(** Once [r] has matched and no other rule can go on with [b], there is no
    transition for [b]. *)
Definition drops (k : gcfg) (m : charset_map) (s : store) (rules : list drule) (t : table) : Prop :=
  forall r pre loop post row0 w0 w row b row1, looping k m s r pre loop post ->
    from_row t row0 w0 -> Forall line_sym w -> swalk t row0 w row -> b < 256 ->
    first_rule k m rules (w0 ++ w) r ->
    (forall r' w', In r' rules -> r' <> r -> ~ dr_lang k m r' (w0 ++ w ++ SByte b :: w')) ->
    ~ swalk t row [SByte b] row1.

Section Loop.
  Variables (k : gcfg) (fl : gflags) (s : store) (root : node) (m : charset_map) (used : list N).
  Variable rules : list drule.
  Hypothesis HM : map_wf m.
  Hypothesis HL : N.of_nat (length m) < eol_tok k.
  Hypothesis RO : rules_ok k m s rules.
  Hypothesis RT : root_ok rules root.
  Variables (lk : list N) (sm : list (list N)) (n w : nat) (d : dstate).
  Hypothesis AL : alphabet m lk sm n.
  Hypothesis Hnw : (n + 7 <= w)%nat.
  Hypothesis Hn : N.of_nat w <= gnpos k.
  Hypothesis PI : plain_inv k fl s root used (rV rules) (rrk rules) sm w d.
  Let B := i_b _ _ _ _ _ _ _ _ _ _ _ _ _ PI.
  Let t := {| t_lookup := lk; t_width := N.of_nat w; t_dfa := concat (d_rows d) |}.

  Variables (r : drule) (j : nat) (pre loop post : list nat).
  Hypothesis Hr : nth_error rules j = Some r.
  Hypothesis LP : looping k m s r pre loop post.

  Notation VV := (rV rules).
  Notation covers := (covers k s sm).
  Notation E := (dr_end r :: post).
  Let P (p : nat) : bool := Nat.eqb (rrk rules p) j.

  Lemma in_r : In r rules.
  Proof. eapply nth_error_In; eauto. Qed.
  Lemma lp_V p : In p (pre ++ loop ++ post) -> VV p.
  Proof. intros H. exists r. split; [apply in_r|right; apply (lp_in _ _ _ _ _ _ _ LP); auto]. Qed.
  Lemma vecV i v p : nth_error (d_seen d) i = Some v -> In p v -> VV p.
  Proof. intros Ev Hp. assert (H := b_V _ _ _ _ _ _ _ B _ _ Ev). rewrite Forall_forall in H. auto. Qed.
  Lemma sym_of p0 c : VV p0 -> rd k s sm p0 c -> exists a, forall p, VV p -> rd k s sm p c <-> psem k m s p a.
  Proof.
    intros Hp H. destruct (rd_cases k s m rules HM HL RO lk sm n AL p0 c Hp H) as [->|[->|Hc]].
    - exists SBol. intros p Vp. apply (rd_bol k s m VV (rrk rules) HM HL (h_lt k s m rules RO) (h_tok k s m rules RO)
        (h_follow k s m rules RO) (h_inj k s m rules HL RO) lk sm n w AL Hnw Hn p Vp).
    - exists SEol. intros p Vp. apply (rd_eol k s m VV (rrk rules) HM HL (h_lt k s m rules RO) (h_tok k s m rules RO)
        (h_follow k s m rules RO) (h_inj k s m rules HL RO) lk sm n w AL Hnw Hn p Vp).
    - destruct (al_surj _ _ _ _ AL c Hc) as (b & Hb & Eb). exists (SByte b). intros p Vp.
      rewrite (psem_byte k s m VV (rrk rules) HM HL (h_lt k s m rules RO) (h_tok k s m rules RO)
        (h_follow k s m rules RO) (h_inj k s m rules HL RO) lk sm n w d AL Hnw Hn p b (c + ix_trans) Vp Hb); [|exact Eb].
      unfold ix_trans. split; [eauto|]. intros (c' & Ec & R). replace c with c' by lia. auto.
  Qed.

  (** The part of rule [j] in a state. *)
  Definition shape (v : list nat) : Prop :=
    (incl v pre /\ forall c, (length (covers v c) <= 1)%nat) \/
    exists rest, v = loop ++ rest /\ incl rest E.

  Lemma covers_one v c : NoDup v -> (forall p p', In p v -> In p' v -> rd k s sm p c -> rd k s sm p' c -> p = p') ->
    (length (covers v c) <= 1)%nat.
  Proof.
    induction v as [|p v IH]; intros ND H; [cbn; lia|]. inversion ND as [|? ? N1 N2]; subst.
    assert (IH' : (length (covers v c) <= 1)%nat) by (apply IH; auto; intros x y Hx Hy; apply H; now right).
    cbn [GenOrder.covers]. destruct (nth_error s p) as [[tt g f|e]|] eqn:Ep; auto.
    destruct (inb c (cset k sm tt)) eqn:Ei; auto.
    assert (Rp : rd k s sm p c) by (exists tt, g, f; split; [auto|now apply inb_In]).
    destruct (covers v c) as [|[g' f'] l] eqn:Ec; [cbn; lia|]. exfalso.
    destruct (covers_In k s sm v c g' f') as (q & tq & Hq & Eq & Hc); [rewrite Ec; now left|].
    apply N1. replace p with q; [auto|]. symmetry. apply H; auto; [now left|now right|]. exists tq, g', f'. auto.
  Qed.
  Lemma shape_nil : shape [].
  Proof. left. split; [intros x []|]. intros c. cbn. lia. Qed.
  Lemma follows_loop l : forall x, incl x E -> Forall (fun y : greedy * list nat => incl (snd y) (loop ++ E)) l ->
    exists x', follows l (loop ++ x) = loop ++ x' /\ incl x' E.
  Proof.
    unfold follows. induction l as [|y l IH]; intros x Hx H; cbn [fold_left]; [eauto|].
    inversion H as [|? ? H1 H2]; subst. destruct (adds_app (snd y) (loop ++ x)) as (z & -> & Hz).
    rewrite <- app_assoc. apply IH; [|auto]. apply incl_app; [auto|]. intros q Hq. destruct (Hz q Hq) as [Q1 Q2].
    apply H1 in Q1. apply in_app_or in Q1 as [Q1|Q1]; [|auto]. exfalso. apply Q2. apply in_or_app. auto.
  Qed.
  Lemma loop_covers c : Forall (fun y => fst y = GNo /\ exists rest, snd y = loop ++ rest /\ incl rest E) (covers loop c).
  Proof.
    apply Forall_forall. intros [g f] H. apply covers_In in H as (p & tp & Hp & Ep & _).
    destruct (lp_loop _ _ _ _ _ _ _ LP p Hp) as (t' & rest & E' & Hi). rewrite Ep in E'. injection E' as _ -> ->.
    cbn. eauto.
  Qed.
  Lemma rest_covers x c : incl x E -> Forall (fun y => fst y = GYes /\ incl (snd y) E) (covers x c).
  Proof.
    intros Hx. apply Forall_forall. intros [g f] H. apply covers_In in H as (p & tp & Hp & Ep & _).
    apply Hx in Hp as [<-|Hp].
    - exfalso. rewrite (ro_end _ _ _ _ (rok k s m rules RO r in_r)) in Ep. discriminate.
    - destruct (lp_post _ _ _ _ _ _ _ LP p Hp) as (t' & f' & E' & Hi). rewrite Ep in E'. injection E' as _ -> ->.
      cbn. auto.
  Qed.
  Lemma rest_none x c : incl x E -> covers loop c = [] -> covers x c = [].
  Proof.
    intros Hx H. destruct (covers x c) as [|[g f] l] eqn:Ec; [auto|]. exfalso.
    destruct (covers_In k s sm x c g f) as (p & tp & Hp & Ep & Hc); [rewrite Ec; now left|].
    assert (Rp : rd k s sm p c) by (exists tp, g, f; auto).
    apply Hx in Hp as [<-|Hp].
    - rewrite (ro_end _ _ _ _ (rok k s m rules RO r in_r)) in Ep. discriminate.
    - assert (Vp : VV p) by (apply lp_V; rewrite !in_app_iff; auto).
      destruct (sym_of p c Vp Rp) as (a & Ha). apply Ha in Rp; [|auto].
      destruct (lp_cover _ _ _ _ _ _ _ LP p a Hp Rp) as (q & Hq & Sq).
      apply (covers_rd k s sm loop c q); auto. apply Ha; [|auto]. apply lp_V. rewrite !in_app_iff. auto.
  Qed.

  Theorem shapes : forall i v, nth_error (d_seen d) i = Some v -> shape (filter P v).
  Proof.
    induction i as [i IH] using (well_founded_induction Wf_nat.lt_wf). intros v Ev. destruct i as [|i].
    - rewrite (i_0 _ _ _ _ _ _ _ _ _ _ _ _ _ PI) in Ev. injection Ev as <-.
      assert (F : forall p, In p (filter P (vec (firstpos root))) -> In p (firstpos (dr_tree r))).
      { intros p Hp. apply filter_In in Hp as [Hp Pp]. rewrite vec_In in Hp. apply Nat.eqb_eq in Pp.
        apply (root_In root rules RT) in Hp as (r' & Hr' & Fp). assert (r' = r) as ->.
        { apply In_nth_error in Hr' as (j' & Ej').
          assert (rrk rules p = j').
          { apply (rule_idx_eq k s m rules RO j' r' p Ej'). apply (first_in_poss k s m rules RO); [eapply nth_error_In; eauto|auto]. }
          congruence. }
        destruct Fp as [Fp|[Fp _]]; [auto|]. rewrite (lp_null _ _ _ _ _ _ _ LP) in Fp. discriminate. }
      left. split; [intros p Hp; apply (lp_first _ _ _ _ _ _ _ LP); auto|]. intros c.
      apply covers_one; [apply NoDup_filter, vec_NoDup|]. intros p p' Hp Hp' Rp Rp'.
      assert (FV : forall x, In x (firstpos (dr_tree r)) -> VV x).
      { intros x Hx. apply lp_V. apply in_or_app. left. apply (lp_first _ _ _ _ _ _ _ LP). auto. }
      destruct (sym_of p c (FV p (F p Hp)) Rp) as (a & Ha).
      apply (lp_one _ _ _ _ _ _ _ LP p p' a); auto; apply Ha; auto.
    - destruct (i_from _ _ _ _ _ _ _ _ _ _ _ _ _ PI i v Ev) as (i0 & u & c & g & f & Hi & Eu & _ & T & _ & ->).
      rewrite (tval_vec k s sm u c g f T). rewrite covers_filter.
      2: { intros p tp g' f' Hp Ep q Hq. destruct (h_follow k s m rules RO p tp g' f' (vecV _ _ _ Eu Hp) Ep) as [_ F].
           rewrite Forall_forall in F. unfold P. now rewrite (F q Hq). }
      cbn [filter]. destruct (IH i0 ltac:(lia) u Eu) as [[Hp HC]|(rest & Ev' & Hx)].
      + specialize (HC c). destruct (covers (filter P u) c) as [|[g' f'] [|? ?]] eqn:Ec; [apply shape_nil| |cbn in HC; lia].
        destruct (covers_In k s sm (filter P u) c g' f') as (p & tp & Hq & Ep & _); [rewrite Ec; now left|].
        apply Hp in Hq. destruct (lp_pre _ _ _ _ _ _ _ LP p Hq) as (t' & f0 & E' & D). rewrite Ep in E'. injection E' as _ -> ->.
        unfold follows. cbn [fold_left snd]. destruct D as [(q & -> & Hq')|(rest & -> & Hi')].
        * cbn. left. split; [intros x [<-|[]]; auto|]. intros c'. cbn.
          destruct (nth_error s q) as [[]|]; cbn; auto. destruct (inb _ _); cbn; auto.
        * right. rewrite (fold_left_app add_follow loop), (adds_nodup loop) by (auto using (lp_nodup _ _ _ _ _ _ _ LP)).
          cbn [app]. destruct (adds_app rest loop) as (x & -> & H). exists x. split; [auto|].
          intros y Hy. apply Hi'. apply H. auto.
      + rewrite Ev', covers_app. destruct (covers loop c) as [|[g' f'] l] eqn:Ec.
        * rewrite rest_none by auto. apply shape_nil.
        * assert (FL := loop_covers c). rewrite Ec in FL. inversion FL as [|? ? (_ & r1 & E1 & I1) FL']; subst.
          cbn [snd] in E1. subst f'. right. unfold follows. cbn [app fold_left snd].
          rewrite (fold_left_app add_follow loop), (adds_nodup loop) by (auto using (lp_nodup _ _ _ _ _ _ _ LP)).
          cbn [app]. destruct (adds_app r1 loop) as (x & -> & H).
          change (fold_left ?f (l ++ covers rest c) (loop ++ x)) with (follows (l ++ covers rest c) (loop ++ x)).
          apply follows_loop.
          -- intros y Hy. apply I1. apply H. auto.
          -- apply Forall_app. split.
             ++ eapply Forall_impl; [|exact FL']. intros [g1 f1] (_ & r2 & E2 & I2). cbn in *. subst f1.
                intros y Hy. apply in_app_or in Hy as [Hy|Hy]; apply in_or_app; auto.
             ++ eapply Forall_impl; [|exact (rest_covers rest c Hx)]. intros [g1 f1] (_ & I2) y Hy. apply in_or_app. auto.
  Qed.

  (** The transition is dropped. *)
  Lemma drop_tgt W i v b c : nth_error (d_seen d) i = Some v -> reached k s root m W v ->
    b < 256 -> nth_error lk (N.to_nat b) = Some (c + ix_trans) ->
    first_rule k m rules W r ->
    (forall r' w', In r' rules -> r' <> r -> ~ dr_lang k m r' (W ++ SByte b :: w')) ->
    tgt k s sm (fun f => f) v c = None.
  Proof.
    intros Ev HR Hb El FR NO.
    assert (ON : forall p, In p v -> rd k s sm p c -> P p = true).
    { intros p Hp Rp. apply Nat.eqb_eq. assert (Vp := vecV _ _ _ Ev Hp).
      assert (Sp : psem k m s p (SByte b)) by (eapply rd_byte; eauto).
      destruct Vp as (r' & Hr' & [<-|Hpp]).
      { destruct Sp as (t' & g & f & Et & _). rewrite (ro_end _ _ _ _ (rok k s m rules RO r' Hr')) in Et. discriminate. }
      destruct (finish_leaf k s m rules HM HL RO lk sm n w d AL Hnw Hn r' (SByte b) Hr' p Hpp Sp) as (W' & PW).
      assert (D : dr_lang k m r' (W ++ SByte b :: W')).
      { apply (path_lang k s root m rules RO RT r' _ Hr'). destruct (proj1 (HR p) Hp) as (p0 & Hp0 & P0).
        exists p0. split; [auto|]. apply path_app. eauto. }
      apply In_nth_error in Hr' as (j' & Ej').
      assert (J : rrk rules p = j') by (apply (rule_idx_eq k s m rules RO j' r' p Ej'); now right).
      destruct (Nat.eq_dec j' j) as [->|NE]; [auto|]. exfalso. apply (NO r' W' (nth_error_In _ _ Ej')); [|auto].
      intros ->. apply NE. destruct RO as [_ RD]. apply (RD j' j r r (dr_end r)); auto; now left. }
    assert (EV : In (dr_end r) (filter P v)).
    { apply filter_In. split.
      - apply HR. apply (path_lang k s root m rules RO RT r _ in_r). destruct FR as (? & _ & FR & _). exact FR.
      - apply Nat.eqb_eq. apply (rule_idx_eq k s m rules RO j r _ Hr). now left. }
    destruct (shapes i v Ev) as [[Hp _]|(rest & Ev' & Hx)].
    { exfalso. apply Hp in EV. destruct (lp_pre _ _ _ _ _ _ _ LP _ EV) as (t' & f & Et & _).
      rewrite (ro_end _ _ _ _ (rok k s m rules RO r in_r)) in Et. discriminate. }
    unfold tgt. rewrite tval_covers, (covers_only k s sm P v c ON), Ev', covers_app.
    destruct (covers loop c) as [|x l] eqn:Ec.
    { rewrite rest_none by auto. reflexivity. }
    cbn [app]. assert (FL := loop_covers c). rewrite Ec in FL. inversion FL as [|? ? (G & _) FL']; subst.
    assert (GN : fst (fold_left eq_comb (l ++ covers rest c) x) = GNo).
    { apply comb_greedy; [auto|]. apply Forall_app. split.
      - eapply Forall_impl; [|exact FL']. intros y (Gy & _). rewrite Gy. discriminate.
      - eapply Forall_impl; [|exact (rest_covers rest c Hx)]. intros y (Gy & _). rewrite Gy. discriminate. }
    destruct (fold_left eq_comb (l ++ covers rest c) x) as [g f]. cbn [fst] in GN. subst g. cbn [otgt].
    destruct f as [|f0 f]; [auto|].
    assert (RE := reached_end k fl s root m used rules HL RO RT sm n w d Hnw Hn PI W v i Ev HR).
    unfold cell0. destruct (first_end s v) as [e|].
    - destruct RE as (r' & FR' & ->). assert (r' = r) as ->.
      { destruct FR as (a & A1 & A2 & A3), FR' as (b' & B1 & B2 & B3).
        assert (a = b') as <-; [|congruence].
        destruct (Nat.lt_trichotomy a b') as [Hlt|[?|Hlt]]; [|auto|]; exfalso; [eapply B3|eapply A3]; eauto. }
      unfold abstains, end_bits. rewrite (lp_lazy _ _ _ _ _ _ _ LP). destruct (e_pop (dr_info r)); reflexivity.
    - exfalso. destruct FR as (a & _ & FR & _). apply (RE r in_r FR).
  Qed.
End Loop.

Section Drops.
  Variables (k : gcfg) (fl : gflags) (s : store) (root : node) (m : charset_map) (used : list N).
  Variable rules : list drule.
  Hypothesis HM : map_wf m.
  Hypothesis HL : N.of_nat (length m) < eol_tok k.
  Hypothesis RO : rules_ok k m s rules.
  Hypothesis RT : root_ok rules root.
  Variables (lk : list N) (sm : list (list N)) (n w : nat) (d : dstate).
  Hypothesis AL : alphabet m lk sm n.
  Hypothesis Hnw : (n + 7 <= w)%nat.
  Hypothesis Hn : N.of_nat w <= gnpos k.
  Hypothesis PI : plain_inv k fl s root used (rV rules) (rrk rules) sm w d.
  Theorem drops_ok : drops k m s rules {| t_lookup := lk; t_width := N.of_nat w; t_dfa := concat (d_rows d) |}.
  Proof.
    intros r pre loop post row0 w0 wd row b row1 LP HF Hw SW Hb FR NO ST.
    assert (B := i_b _ _ _ _ _ _ _ _ _ _ _ _ _ PI).
    apply (from_row_state k fl s root m used rules HM HL RO lk sm n w d AL Hnw Hn PI) in HF as (i0 & v0 & -> & Ev0 & HR).
    destruct (swalk_sound k fl s root m used (rV rules) (rrk rules) HM HL (h_lt k s m rules RO) (h_tok k s m rules RO)
        (h_follow k s m rules RO) (h_inj k s m rules HL RO) lk sm n w d AL Hnw Hn PI wd Hw i0 v0 row Ev0 SW)
      as (i & v & -> & Ev & Hv).
    assert (HR' := reached_app k s root m _ _ _ _ HR Hv). clear HR Hv SW v0 Ev0.
    assert (Hi : (i < length (d_seen d))%nat) by (apply nth_error_Some; congruence).
    inversion ST as [|? ? col row2 ? ? Hc He Hne _|]; subst. unfold column in Hc. cbn [t_lookup] in Hc.
    destruct (al_col _ _ _ _ AL b Hb) as (col' & Ecol & HC). rewrite Hc in Ecol. injection Ecol as <-.
    rewrite (cell_d k fl s root used (rV rules) (rrk rules) lk sm w d PI) in He
      by (unfold ix_dead, ix_trans in HC; destruct HC as [->|(x & Hx & ->)]; lia).
    rewrite Nat2N.id in He. destruct HC as [->|(c & Hcn & ->)].
    { change (N.to_nat ix_dead) with 6%nat in He. rewrite (b_dead _ _ _ _ _ _ _ B) in He by lia. congruence. }
    assert (Hal : allowed k w c) by (right; lia).
    assert (Hnb : c <> bol_tok k /\ c <> eol_tok k) by (unfold bol_tok, eol_tok; lia).
    assert (D := i_done _ _ _ _ _ _ _ _ _ _ _ _ _ PI i v c Hi Ev Hal (proj1 Hnb)).
    unfold loc in D. destruct (N.eqb_spec c (bol_tok k)); [tauto|].
    destruct (N.eqb_spec c (eol_tok k)); [tauto|]. unfold at2 in D. cbn [fst snd] in D.
    replace (N.to_nat (c + ix_trans)) with (N.to_nat c + 7)%nat in He by (unfold ix_trans; lia).
    pose proof FR as (j & Ej & _).
    rewrite (drop_tgt k fl s root m used rules HM HL RO RT lk sm n w d AL Hnw Hn PI r j pre loop post Ej LP
       (w0 ++ wd) i v b c Ev HR' Hb Hc FR) in D.
    - cbn [cell_ok] in D. congruence.
    - intros r' w' Hr' NE. rewrite <- app_assoc. auto.
  Qed.
End Drops.
