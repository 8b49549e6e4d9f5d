(** build_dfa produces a table that recognises the rules. *)
From Verif Require Import Base StringToken StringTokenSpec StringTokenProofs StateMachine Tree TreeSpec
  RegexSpec Glushkov Partition PartitionProofs Generator GenMap GenDfa GenBuild Lookup TableSpec
  DfaSpec GenWalk GenRules.
From Coq Require Import Sorted.
Local Open Scope N_scope.

Section Table.
  Variables (k : gcfg) (fl : gflags) (s : store) (root : node) (m : charset_map) (used : list N).
  Variable rules : list drule.
  Hypothesis HM : map_wf m.
  Hypothesis HL : N.of_nat (length m) < eol_tok k.
  Hypothesis RO : rules_ok k m s rules.
  Hypothesis RT : root_ok rules root.
  Variables (lk : list N) (sm : list (list N)) (n wd : nat) (d : dstate).
  Hypothesis AL : alphabet m lk sm n.
  Hypothesis Hnw : (n + 7 <= wd)%nat.
  Hypothesis Hn : N.of_nat wd <= gnpos k.
  Hypothesis PI : plain_inv k fl s root used (rV rules) (rrk rules) sm wd d.
  Let t := {| t_lookup := lk; t_width := N.of_nat wd; t_dfa := concat (d_rows d) |}.
  Let B := i_b _ _ _ _ _ _ _ _ _ _ _ _ _ PI.

  Lemma tcell row col : col < N.of_nat wd ->
    cell t row col = at_ (d_rows d) (N.to_nat row) (N.to_nat col).
  Proof. apply cell_at; [apply (b_shape _ _ _ _ _ _ _ B)|reflexivity|reflexivity]. Qed.
  Lemma trows : N.of_nat (length (d_rows d)) = N.of_nat (S (length (d_seen d))).
  Proof. now rewrite (b_len _ _ _ _ _ _ _ B). Qed.
  Lemma seen_row row : 0 < row < N.of_nat (length (d_rows d)) ->
    exists i v, row = N.of_nat (S i) /\ nth_error (d_seen d) i = Some v.
  Proof.
    intros H. rewrite trows in H. exists (N.to_nat row - 1)%nat.
    destruct (nth_error (d_seen d) (N.to_nat row - 1)) as [v|] eqn:E.
    - exists v. split; [lia|auto].
    - apply nth_error_None in E. lia.
  Qed.
  Lemma teol i v : nth_error (d_seen d) i = Some v ->
    exists x, at_ (d_rows d) (S i) 5 = Some x /\ x < N.of_nat (length (d_rows d)) /\ (eolless k rules -> x = 0).
  Proof.
    intros Ev. assert (Hi : (i < length (d_seen d))%nat) by (apply nth_error_Some; congruence).
    assert (A : allowed k wd (eol_tok k)) by (left; right; auto).
    assert (NE : eol_tok k <> bol_tok k) by (unfold eol_tok, bol_tok in *; lia).
    assert (D := i_done _ _ _ _ _ _ _ _ _ _ _ _ _ PI i v _ Hi Ev A NE).
    unfold loc in D. destruct (N.eqb_spec (eol_tok k) (bol_tok k)); [congruence|].
    rewrite N.eqb_refl in D. unfold at2 in D. cbn [fst snd] in D.
    assert (EN : eolless k rules -> tgt k s sm (fun f => f) v (eol_tok k) = None).
    { intros EL. apply (eol_none k s m) with (1 := HM) (2 := HL) (3 := RO) (4 := AL) (5 := Hnw) (6 := Hn); auto.
      - apply (b_V _ _ _ _ _ _ _ B _ _ Ev).
      - apply (b_sorted _ _ _ _ _ _ _ B _ _ Ev). }
    rewrite trows. destruct (tgt k s sm (fun f => f) v (eol_tok k)) as [f|]; cbn [cell_ok] in D.
    - destruct D as (i' & w & D1 & D2 & _).
      assert (i' < length (d_seen d))%nat by (apply nth_error_Some; congruence).
      eexists. split; [exact D1|]. split; [lia|]. intros EL. now specialize (EN EL).
    - exists 0. split; [exact D|]. split; [lia|auto].
  Qed.
  Lemma tconcat {A} w (l : list (list A)) : Forall (fun r => length r = w) l ->
    length (concat l) = (length l * w)%nat.
  Proof. induction 1; cbn; [auto|]. rewrite app_length. lia. Qed.

  Theorem erecognises_ok : erecognises k m s rules t (N.of_nat (length (d_rows d))).
  Proof.
    assert (R1 := root_reached k fl s root m used rules sm wd d PI).
    assert (SH := b_shape _ _ _ _ _ _ _ B).
    assert (TB := dfa_bol k fl s root m used rules HM HL RO RT lk sm n wd d AL Hnw Hn PI).
    constructor.
    - cbn [t_width t]. unfold ix_trans. lia.
    - rewrite trows. destruct R1 as (v & Ev & _).
      assert (0 < length (d_seen d))%nat by (apply nth_error_Some; congruence). lia.
    - cbn [t_dfa t_width t]. rewrite (tconcat wd) by auto. lia.
    - apply (al_lk _ _ _ _ AL).
    - cbn [t_lookup t_width t]. apply Forall_forall. intros col Hc. apply In_nth_error in Hc as (i & Ei).
      assert (Li : (i < length lk)%nat) by (apply nth_error_Some; congruence).
      rewrite (al_lk _ _ _ _ AL) in Li. destruct (al_col _ _ _ _ AL (N.of_nat i)) as (col' & E & HC); [lia|].
      rewrite Nat2N.id, Ei in E. injection E as <-. unfold ix_dead, ix_trans in *.
      destruct HC as [->|(x & Hx & ->)]; lia.
    - intros row col v Hr Hc. cbn [t_width t] in Hc. unfold ix_eol in Hc. rewrite tcell by lia.
      destruct (N.eq_dec row 0) as [->|Hr0].
      + rewrite (b_zero _ _ _ _ _ _ _ B) by lia. intros E. injection E as <-. lia.
      + destruct (seen_row row) as (i & u & -> & Ev); [lia|]. rewrite Nat2N.id.
        assert (Hi : (i < length (d_seen d))%nat) by (apply nth_error_Some; congruence).
        destruct (N.eq_dec col 5) as [->|]; [|destruct (N.eq_dec col 6) as [->|]].
        * change (N.to_nat 5) with 5%nat. destruct (teol i u Ev) as (x & Ex & Hx & _). rewrite Ex. intros E. injection E as <-. auto.
        * change (N.to_nat 6) with 6%nat. rewrite (b_dead _ _ _ _ _ _ _ B) by lia.
          intros E. injection E as <-. lia.
        * assert (A : allowed k wd (col - 7)) by (right; lia).
          assert (NB : col - 7 <> bol_tok k /\ col - 7 <> eol_tok k) by (unfold bol_tok, eol_tok; lia).
          assert (D := i_done _ _ _ _ _ _ _ _ _ _ _ _ _ PI i u _ Hi Ev A (proj1 NB)).
          unfold loc in D. destruct (N.eqb_spec (col - 7) (bol_tok k)); [tauto|].
          destruct (N.eqb_spec (col - 7) (eol_tok k)); [tauto|]. unfold at2 in D. cbn [fst snd] in D.
          replace (N.to_nat (col - 7) + 7)%nat with (N.to_nat col) in D by lia.
          intros E. rewrite E in D. rewrite trows.
          destruct (tgt k s sm (fun f => f) u (col - 7)) as [f|]; cbn [cell_ok] in D.
          -- destruct D as (i' & w & D1 & D2 & _). injection D1 as ->.
             assert (i' < length (d_seen d))%nat by (apply nth_error_Some; congruence). lia.
          -- injection D as ->. lia.
    - destruct TB as ((b & Eb) & _). exists b. split; [auto|].
      destruct (N.eq_dec b 0) as [->|Hb]; [rewrite trows; lia|].
      destruct (from_row_state k fl s root m used rules HM HL RO lk sm n wd d AL Hnw Hn PI b [SBol])
        as (i & v & -> & Ev & _); [right; auto|].
      assert (i < length (d_seen d))%nat by (apply nth_error_Some; congruence). rewrite trows. lia.
    - intros col Hc. cbn [t_width t] in Hc. rewrite tcell by lia. rewrite (b_zero _ _ _ _ _ _ _ B) by lia. auto.
    - intros EL row Hr. rewrite tcell by (unfold ix_eol; lia).
      destruct (N.eq_dec row 0) as [->|Hr0].
      + change (N.to_nat ix_eol) with 5%nat. rewrite (b_zero _ _ _ _ _ _ _ B) by lia. auto.
      + destruct (seen_row row) as (i & u & -> & Ev); [lia|]. rewrite Nat2N.id. destruct (teol i u Ev) as (x & Ex & _ & Hx). rewrite <- (Hx EL). exact Ex.
    - intros row Hr. rewrite tcell by (unfold ix_dead; lia).
      destruct (N.eq_dec row 0) as [->|Hr0].
      + change (N.to_nat ix_dead) with 6%nat. rewrite (b_zero _ _ _ _ _ _ _ B) by lia. auto.
      + change (N.to_nat ix_dead) with 6%nat. apply (b_dead _ _ _ _ _ _ _ B). rewrite trows in Hr. lia.
    - intros row Hr. destruct (seen_row row) as (i & v & -> & Ev); [lia|].
      assert (A := row_accepts k fl s root m used (rV rules) (rrk rules) HL
        (h_lt k s m rules RO) (h_tok k s m rules RO)
        (h_follow k s m rules RO) (h_inj k s m rules HL RO) lk sm n wd d Hnw Hn PI i v Ev).
      destruct (first_end s v) as [e|] eqn:Ee; [|left; apply A]. right.
      apply first_end_min with (rk := rrk rules) in Ee as (p & Hp & Ep & _);
        [|apply (b_sorted _ _ _ _ _ _ _ B _ _ Ev)].
      assert (Hv := b_V _ _ _ _ _ _ _ B _ _ Ev). rewrite Forall_forall in Hv.
      destruct (h_end k s m rules RO p e (Hv p Hp) Ep) as (i0 & r & Er & -> & -> & _).
      exists r. split; [eapply nth_error_In; eauto|auto].
    - intros row0 w0 bs row. apply (dfa_sound k fl s root m used rules HM HL RO RT lk sm n wd d AL Hnw Hn PI).
    - intros row0 w0 bs r. apply (dfa_complete k fl s root m used rules HM HL RO RT lk sm n wd d AL Hnw Hn PI).
    - apply TB.
    - intros row0 w0 w row a w' r. apply (dfa_stop k fl s root m used rules HM HL RO RT lk sm n wd d AL Hnw Hn PI).
    - intros r w. apply (dfa_bol_stop k fl s root m used rules HM HL RO RT lk sm n wd d AL Hnw Hn PI).
    - intros b. apply (bol_leaf k fl s root m used rules HM HL RO RT lk sm n wd d AL Hnw Hn PI).
  Qed.
End Table.

(** Words without end of line markers. *)
Lemma swalk_walk t row bs row' : swalk t row (map SByte bs) row' <-> walk t row bs row'.
Proof.
  split; intros H.
  - remember (map SByte bs) as w eqn:Ew. revert bs Ew.
    induction H as [|r b c r1 w r2 Hc Hr Hn H IH|]; intros bs Ew; destruct bs as [|b' bs]; try discriminate.
    + constructor.
    + cbn in Ew. injection Ew as -> ->. econstructor; eauto.
  - induction H; cbn; [constructor|econstructor; eauto].
Qed.
Lemma recognises_plain k m s rules t n : eolless k rules -> erecognises k m s rules t n ->
  recognises k m s rules t n.
Proof.
  intros EL R.
  assert (LS : forall bs, Forall (fun b => b < 256) bs -> Forall line_sym (map SByte bs)).
  { intros bs H. apply Forall_map. exact H. }
  destruct R. constructor; auto.
  - intros row0 w0 bs row HF Hbs HW. apply (er_sound row0 w0 (map SByte bs)); auto. now apply swalk_walk.
  - intros row0 w0 bs r NL HF Hbs Hr HD.
    destruct (er_complete row0 w0 (map SByte bs) r NL HF (LS _ Hbs) Hr HD) as (row & H1 & H2).
    exists row. split; [now apply swalk_walk|auto].
  - intros row0 w0 bs row b w' r HF Hbs HW Hb Hr HD.
    destruct (er_stop row0 w0 (map SByte bs) row (SByte b) w' r HF (LS _ Hbs)) as [(row1 & H)|H]; auto.
    + now apply swalk_walk.
    + left. exists row1. now apply (swalk_walk t row [b]).
Qed.

(** More classes than columns fit the id type: rejected; otherwise a table. *)
Theorem build_dfa_rules fuel k fl s root m used rules :
  map_wf m -> N.of_nat (length m) < eol_tok k -> rules_ok k m s rules -> root_ok rules root ->
  eolless k rules -> bol_first k rules -> (2 ^ length s < fuel)%nat ->
  build_dfa fuel k fl s root m (gnpos k) (gnpos k) used = Throw EOverflow \/
  exists o, build_dfa fuel k fl s root m (gnpos k) (gnpos k) used = Ok o /\
    recognises k m s rules (out_table o) (N.of_nat (length (o_rows o))) /\
    Forall (fun r => length r = N.to_nat (o_width o)) (o_rows o) /\
    (forall u, In u (o_used o) -> In u used \/
      (suppressed_ok fl = false /\ exists w r, texty w /\ first_rule k m rules w r /\
                                               e_unique (dr_info r) = u)) /\
    (forall u, In u used -> In u (o_used o)) /\
    (forall w r, no_lazy s rules -> suppressed_ok fl = false -> texty w ->
       first_rule k m rules w r -> In (e_unique (dr_info r)) (o_used o)).
Proof.
  intros HM HL RO RT EL BF HF.
  destruct (build_dfa_plain k fl s root m used (rV rules) (rrk rules) HM HL
     (h_lt k s m rules RO) (h_tok k s m rules RO)
     (h_follow k s m rules RO) (h_inj k s m rules HL RO) (h_root_ne k s root m rules RO RT)
     (h_root_V k s root m rules RO RT) (h_root_sorted k s root m rules HL RO RT) fuel HF)
    as (cl & lk & sm & _ & AL & _ & _ & H1 & H2).
  { intros p t g f Hp E. split; [|eapply h_followW; eauto].
    intros ->. destruct (h_leaf k s m rules RO p _ _ _ Hp E) as (r & Hr & Hl & _). eapply EL; eauto. }
  destruct (N.ltb_spec (gnpos k) (N.of_nat (length cl + 7))) as [Hw|Hw]; [left; auto|].
  right. destruct (H2 Hw) as (d & E & PI). eexists. split; [exact E|].
  assert (RC := recognises_plain _ _ _ _ _ _ EL (erecognises_ok k fl s root m used rules HM HL RO RT lk sm (length cl) (length cl + 7) d AL (le_n _) Hw PI)).
  split; [exact RC|]. cbn [o_used o_rows o_width].
  assert (B := i_b _ _ _ _ _ _ _ _ _ _ _ _ _ PI).
  split; [rewrite Nat2N.id; apply (b_shape _ _ _ _ _ _ _ B)|].
  split; [|split].
  - intros u Hu. apply (used_sound k fl s root m used rules HM HL RO RT lk sm (length cl) (length cl + 7) d AL (le_n _) Hw PI) in Hu
      as [Hu|(Hs & w & r & _ & Tw & HFr)]; [auto|]. right. split; [auto|]. exists w, r. split; [auto|exact HFr].
  - intros u Hu. apply (b_used _ _ _ _ _ _ _ B). auto.
  - intros w r NL Hs (bs & Hbs & Tw).
    apply (used_complete k fl s root m used rules HM HL RO RT lk sm (length cl) (length cl + 7) d AL (le_n _) Hw PI w r NL Hs).
    exists (map SByte bs). split; [|auto]. apply Forall_map. exact Hbs.
Qed.
