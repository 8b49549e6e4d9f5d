(** Transitions that no abstemious rule gives up: those of the marked characters. *)
From Verif Require Import Base StringToken StringTokenSpec StringTokenProofs StateMachine Tree TreeSpec
  RegexSpec Glushkov Partition PartitionProofs Generator GenMap GenPrune GenDfa GenBuild Lookup TableSpec
  DfaSpec GenWalk GenRules GenTable EolFix EolWords EolTable EolExact GenOrder MarkTree.
Local Open Scope N_scope.

(** Where a rule can go on with a marked character there is a transition for it. *)
Definition hards (k : gcfg) (m : charset_map) (s : store) (rules : list drule) (t : table) : Prop :=
  forall r row0 w0 w row b W1 W2, In r rules ->
    mden (token_sem k m) s (dr_tree r) (W1 ++ (SByte b, true) :: W2) -> map fst W1 = w0 ++ w ->
    from_row t row0 w0 -> Forall line_sym w -> swalk t row0 w row -> b < 256 ->
    exists row1, swalk t row [SByte b] row1.

(** ** Marked words as paths *)
(** The tree with its positions as tokens. *)
Fixpoint relabel (n : node) : node :=
  match n with
  | NLeaf _ p => NLeaf (N.of_nat p) p
  | NSeq l r => NSeq (relabel l) (relabel r)
  | NSel l r => NSel (relabel l) (relabel r)
  | NIter n g => NIter (relabel n) g
  | _ => n
  end.
Lemma relabel_null n : nullable (relabel n) = nullable n.
Proof. induction n; cbn; rewrite ?IHn1, ?IHn2; congruence. Qed.
Lemma relabel_first n : firstpos (relabel n) = firstpos n.
Proof. induction n; cbn; rewrite ?relabel_null, ?IHn1, ?IHn2; congruence. Qed.
Lemma relabel_last n : lastpos (relabel n) = lastpos n.
Proof. induction n; cbn; rewrite ?relabel_null, ?IHn1, ?IHn2; congruence. Qed.
Lemma relabel_leaves n : leaves (relabel n) = map (fun x => (fst x, N.of_nat (fst x))) (leaves n).
Proof. induction n; cbn; rewrite ?map_app, ?IHn1, ?IHn2; congruence. Qed.
Lemma relabel_poss n : poss (relabel n) = poss n.
Proof. unfold poss. rewrite relabel_leaves, map_map. apply map_ext. auto. Qed.
Lemma relabel_pure n : pure (relabel n) = pure n.
Proof. induction n; cbn; rewrite ?IHn1, ?IHn2; congruence. Qed.
Lemma relabel_fol n p q : fol (relabel n) p q <-> fol n p q.
Proof.
  induction n; cbn; rewrite ?relabel_first, ?relabel_last; try rewrite IHn1, IHn2; try rewrite IHn; tauto.
Qed.

Section Path.
  Variables (k : gcfg) (m : charset_map) (s : store).
  (** Position [x] reads [fst a] in the tree [n0] and is hard if [snd a]. *)
  Definition at_pos (n0 : node) (x : N) (a : sym * bool) : Prop :=
    (exists t, In (N.to_nat x, t) (leaves n0) /\ token_sem k m t (fst a)) /\ (snd a = true -> hard s (N.to_nat x)).
  Lemma mden_den n0 n W : incl (leaves n) (leaves n0) -> mden (token_sem k m) s n W -> den (at_pos n0) (relabel n) W.
  Proof.
    revert W. induction n; intros W I H; cbn in *; auto.
    - destruct H as (a & h & -> & S & Hh). exists (a, h). split; [auto|]. split; cbn [fst snd]; rewrite Nat2N.id; [|auto].
      eexists. split; [apply I; now left|auto].
    - destruct H as (u & v & -> & H1 & H2). apply incl_app_inv in I as [I1 I2]. exists u, v. auto.
    - apply incl_app_inv in I as [I1 I2]. destruct H; auto.
    - eapply star_mono; [|exact H]. auto.
  Qed.
  Lemma suf_hard n : (forall p t, In (p, t) (leaves n) -> exists g f, nth_error s p = Some (PLeaf t g f) /\
        forall q, fol n p q -> In q f) ->
    forall W1 b W2 p, suf (at_pos n) (relabel n) (W1 ++ (b, true) :: W2) p ->
    exists q, path k m s p (map fst W1) q /\ psem k m s q b /\ hard s q.
  Proof.
    intros HL. induction W1 as [|a W1 IH]; intros b W2 p H; cbn in H.
    - destruct H as [(t & Ht & (t' & Ht' & S) & Hh) _]. rewrite relabel_leaves in Ht.
      apply in_map_iff in Ht as ((p', t0) & [= <- <-] & _). cbn [fst snd] in *. rewrite Nat2N.id in *.
      exists p'. split; [reflexivity|]. split; [|auto]. destruct (HL _ _ Ht') as (g & f & E & _). exists t', g, f. auto.
    - destruct H as [(t & Ht & (t' & Ht' & S) & _) [[Hw _]|(q & Hq & HS)]].
      { destruct W1; discriminate. }
      rewrite relabel_leaves in Ht. apply in_map_iff in Ht as ((p', t0) & [= <- <-] & _). cbn [fst snd] in *.
      rewrite Nat2N.id in *. destruct (HL _ _ Ht') as (g & f & E & F). apply (proj1 (relabel_fol n p' q)) in Hq.
      destruct (IH b W2 q HS) as (x & P & H). exists x. split; [|auto]. cbn. split; [exists t', g, f; auto|].
      exists q. split; [exists t', g, f; split; auto|auto].
  Qed.
End Path.

(** ** The fold of a transition *)
Lemma comb_not_no l : forall x, fst x <> GNo -> fst (fold_left eq_comb l x) <> GNo.
Proof.
  induction l as [|y l IH]; intros x H; cbn; [auto|]. apply IH. cbn. destruct (fst x); cbn; congruence.
Qed.
Lemma comb_hard l : forall x, fst x = GHard \/ (exists y, In y l /\ fst y = GHard) -> fst (fold_left eq_comb l x) <> GNo.
Proof.
  induction l as [|y l IH]; intros x H; cbn.
  - destruct H as [H|(y & [] & _)]. congruence.
  - destruct H as [H|(z & [<-|Hz] & H)].
    + apply comb_not_no. cbn. rewrite H. discriminate.
    + apply comb_not_no. cbn. rewrite H. destruct (fst x); discriminate.
    + apply IH. right. eauto.
Qed.
Lemma follows_in l : forall v x y, In x l -> In y (snd x) -> In y (follows l v).
Proof.
  assert (K : forall f v y, In y v \/ In y f -> In y (fold_left add_follow f v)).
  { induction f as [|z f IH]; intros v y H; cbn; [destruct H as [H|[]]; auto|]. apply IH. unfold add_follow.
    destruct (existsb (Nat.eqb z) v) eqn:Ez; destruct H as [H|[<-|H]]; auto.
    - left. apply existsb_exists in Ez as (u & Hu & E'). apply Nat.eqb_eq in E'. now subst.
    - left. apply in_or_app. auto.
    - left. apply in_or_app. right. now left. }
  assert (M : forall l v y, In y v -> In y (follows l v)).
  { unfold follows. clear - K. induction l as [|z l IH]; intros v y H; cbn; [auto|]. apply IH. apply K. auto. }
  induction l as [|z l IH]; intros v x y Hx Hy; [destruct Hx|]. destruct Hx as [<-|Hx].
  - cbn. apply M. apply K. auto.
  - cbn. eapply IH; eauto.
Qed.

Section Hards.
  Variables (k : gcfg) (fl : gflags) (s : store) (root : node) (m : charset_map) (used : list N).
  Variable rules : list drule.
  Hypothesis HM : map_wf m.
  Hypothesis HL : N.of_nat (length m) < eol_tok k.
  Hypothesis RO : rules_ok k m s rules.
  Hypothesis RT : root_ok rules root.
  Variables (lk : list N) (sm : list (list N)) (n w : nat) (d : dstate).
  Hypothesis AL : alphabet m lk sm n.
  Hypothesis Hnw : (n + 7 <= w)%nat.
  Hypothesis Hn : N.of_nat w <= gnpos k.
  Hypothesis PI : plain_inv k fl s root used (rV rules) (rrk rules) sm w d.

  Lemma mark_path r W1 b W2 : In r rules -> mden (token_sem k m) s (dr_tree r) (W1 ++ (b, true) :: W2) ->
    exists p q, In p (firstpos root) /\ path k m s p (map fst W1) q /\ In q (poss (dr_tree r)) /\
      psem k m s q b /\ hard s q.
  Proof.
    intros Hr H. assert (OK := rok k s m rules RO r Hr). apply (mden_den k m s (dr_tree r)) in H; [|apply incl_refl].
    apply glushkov in H; [|rewrite relabel_pure; apply OK|rewrite relabel_poss; apply OK].
    destruct H as [[H _]|(p & Hp & H)]; [destruct W1; discriminate|]. rewrite relabel_first in Hp.
    destruct (suf_hard k m s (dr_tree r)) with (W1 := W1) (b := b) (W2 := W2) (p := p) as (q & P & S & Hh).
    - intros p0 t0 Hl. destruct (ro_leaf _ _ _ _ OK _ _ Hl) as (g & f & E & F). exists g, f. split; [auto|].
      intros q Hq. apply F. auto.
    - exact H.
    - exists p, q. split; [apply (root_In root rules RT); exists r; split; [auto|now left]|]. split; [auto|].
      split; [|auto]. assert (Hpp : In p (dr_poss r)) by (right; apply firstpos_poss; auto; apply OK).
      assert (V : rV rules q).
      { eapply path_V; eauto. exists r. auto. }
      destruct V as (r' & Hr' & Hq). assert (R := path_rk k s m rules RO _ p q ltac:(exists r; auto) P).
      apply In_nth_error in Hr as (i & Ei). apply In_nth_error in Hr' as (j & Ej).
      rewrite (rule_idx_eq k s m rules RO j r' q Ej Hq), (rule_idx_eq k s m rules RO i r p Ei Hpp) in R. subst j.
      rewrite Ei in Ej. injection Ej as <-. destruct Hq as [<-|Hq]; [|auto]. exfalso.
      destruct S as (t & g & f & E & _). rewrite (ro_end _ _ _ _ OK) in E. discriminate.
  Qed.

  Theorem hards_ok : hards k m s rules {| t_lookup := lk; t_width := N.of_nat w; t_dfa := concat (d_rows d) |}.
  Proof.
    intros r row0 w0 wd row b W1 W2 Hr MD EW HF Hw SW Hb.
    assert (B := i_b _ _ _ _ _ _ _ _ _ _ _ _ _ PI).
    apply (from_row_state k fl s root m used rules HM HL RO lk sm n w d AL Hnw Hn PI) in HF as (i0 & v0 & -> & Ev0 & HR).
    destruct (swalk_sound k fl s root m used (rV rules) (rrk rules) HM HL (h_lt k s m rules RO) (h_tok k s m rules RO)
        (h_follow k s m rules RO) (h_inj k s m rules HL RO) lk sm n w d AL Hnw Hn PI wd Hw i0 v0 row Ev0 SW)
      as (i & v & -> & Ev & Hv).
    assert (HR' := reached_app k s root m _ _ _ _ HR Hv). clear HR Hv SW v0 Ev0.
    assert (Hi : (i < length (d_seen d))%nat) by (apply nth_error_Some; congruence).
    destruct (mark_path r W1 (SByte b) W2 Hr MD) as (p0 & p & Hp0 & P & Hp & S & (tp & fp & Ep)).
    rewrite EW in P.
    assert (Hpv : In p v) by (apply HR'; eauto).
    assert (Vp : rV rules p) by (exists r; split; [auto|now right]).
    destruct (al_col _ _ _ _ AL b Hb) as (col & Ecol & HC).
    pose proof S as S0.
    apply (psem_byte k s m (rV rules) (rrk rules) HM HL (h_lt k s m rules RO) (h_tok k s m rules RO)
        (h_follow k s m rules RO) (h_inj k s m rules HL RO) lk sm n w d AL Hnw Hn p b col Vp Hb Ecol) in S as (c & -> & Rp).
    assert (Hcn : c < N.of_nat n).
    { destruct HC as [HC|(x & Hx & HC)]; unfold ix_dead, ix_trans in HC; [lia|]. lia. }
    assert (Hal : allowed k w c) by (right; lia).
    assert (Hnb : c <> bol_tok k /\ c <> eol_tok k) by (unfold bol_tok, eol_tok; lia).
    assert (D := i_done _ _ _ _ _ _ _ _ _ _ _ _ _ PI i v c Hi Ev Hal (proj1 Hnb)).
    unfold loc in D. destruct (N.eqb_spec c (bol_tok k)); [tauto|].
    destruct (N.eqb_spec c (eol_tok k)); [tauto|]. unfold at2 in D. cbn [fst snd] in D.
    assert (CV : In (GHard, fp) (covers k s sm v c)).
    { apply in_split in Hpv as (u & u' & ->). rewrite covers_app. apply in_or_app. right. cbn [covers].
      destruct Rp as (t' & g' & f' & E' & Hc'). rewrite Ep in E'. injection E' as <- <- <-. rewrite Ep.
      apply inb_In in Hc'. rewrite Hc'. now left. }
    assert (FN : exists y, In y fp).
    { destruct (finish_leaf k s m rules HM HL RO lk sm n w d AL Hnw Hn r (SByte b) Hr p Hp S0) as (W' & _ & y & (t' & g' & f' & E' & Hy) & _).
      rewrite Ep in E'. injection E' as <- <- <-. eauto. }
    destruct FN as (y & Hy).
    unfold tgt in D. rewrite tval_covers in D. destruct (covers k s sm v c) as [|x l] eqn:Ec; [destruct CV|].
    assert (G : fst (fold_left eq_comb l x) <> GNo).
    { apply comb_hard. destruct CV as [->|CV]; [now left|right]. exists (GHard, fp). auto. }
    assert (F : In y (snd (fold_left eq_comb l x))).
    { rewrite comb_follow. change (follows l (snd x)) with (follows l (snd x)).
      destruct CV as [->|CV]; [|eapply follows_in; eauto].
      cbn [snd]. assert (X := follows_in ((GHard, fp) :: l) [] (GHard, fp) y ltac:(now left) Hy).
      cbn [follows fold_left snd] in X.
      assert (M : forall l v v' y, (forall z, In z v -> In z v') -> In y (follows l v) -> In y (follows l v')).
      { clear. unfold follows. induction l as [|z l IH]; intros v v' y I H; cbn in *; [auto|].
        eapply IH; [|exact H]. clear IH H. revert v v' I. induction (snd z) as [|q f IHf]; intros v v' I x Hx; cbn in *; [auto|].
        eapply IHf; [|exact Hx]. intros a Ha. unfold add_follow in *.
        destruct (existsb (Nat.eqb q) v) eqn:E1, (existsb (Nat.eqb q) v') eqn:E2; auto.
        - apply in_or_app. auto.
        - apply in_app_or in Ha as [Ha|[<-|[]]]; auto. apply existsb_exists in E2 as (u & Hu & E').
          apply Nat.eqb_eq in E'. now subst.
        - apply in_app_or in Ha as [Ha|Ha]; apply in_or_app; auto. }
      eapply M; [|exact X]. intros z Hz.
      assert (Q : forall f v z, In z (fold_left add_follow f v) -> In z v \/ In z f).
      { clear. induction f as [|q f IH]; intros v z H; cbn in *; [auto|]. apply IH in H as [H|H]; [|auto].
        unfold add_follow in H. destruct (existsb _ _); [auto|]. apply in_app_or in H as [H|[<-|[]]]; auto. }
      apply Q in Hz as [[]|Hz]. auto. }
    destruct (fold_left eq_comb l x) as [g f]. cbn [fst snd] in G, F. cbn [otgt] in D. destruct f as [|f0 f]; [destruct F|].
    assert (AB : abstains (cell0 s v) g = false).
    { unfold abstains. destruct g; try congruence; cbn [greedyb negb]; now rewrite andb_false_r. }
    rewrite AB in D. cbn [cell_ok] in D. destruct D as (i' & w' & D & _).
    exists (N.of_nat (S i')). econstructor; [exact Ecol| | |constructor]; [|lia].
    rewrite (cell_d k fl s root used (rV rules) (rrk rules) lk sm w d PI) by lia.
    rewrite Nat2N.id. replace (N.to_nat (c + 7)) with (N.to_nat c + 7)%nat by lia. exact D.
  Qed.
End Hards.
