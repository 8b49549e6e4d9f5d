(** The lookup loop computes the last accepting configuration of the walk. *)
From Verif Require Import Base StateMachine Lookup TableSpec.
Local Open Scope N_scope.

Lemma walk_det t row bs a b : walk t row bs a -> walk t row bs b -> a = b.
Proof.
  intros H; revert b; induction H as [row|row x col row1 bs row2 Hc Hd Hn Hw IH]; intros b' H'.
  - inversion H'; subst; auto.
  - inversion H'; subst. apply IH. congruence.
Qed.

Lemma walk_inv t row b bs row' col st :
  column t b = Some col -> cell t row col = Some st -> walk t row (b :: bs) row' ->
  st <> 0 /\ walk t st bs row'.
Proof.
  intros Hc Hs Hw. inversion Hw; subst. replace col0 with col in * by congruence.
  replace row1 with st in * by congruence. auto.
Qed.

Section Tab.
Variables (k : cfg) (t : table) (n : N) (inp : list N).
Hypothesis Hwf : twf k t n.
Hypothesis Hch : chars_ok k inp.

Lemma cell_some row col : row < n -> col < t_width t -> exists v, cell t row col = Some v.
Proof.
  destruct Hwf as (H1 & H2 & H3 & H4 & _). intros Hr Hc. unfold cell.
  destruct (nth_error (t_dfa t) (N.to_nat (row * t_width t + col))) eqn:E; eauto.
  exfalso. apply nth_error_None in E. 
  assert (row * t_width t + col < n * t_width t).
  { apply N.lt_le_trans with ((row + 1) * t_width t); [lia|]. apply N.mul_le_mono_r. lia. }
  lia.
Qed.

Lemma width7 col : col < 7 -> col < t_width t.
Proof. destruct Hwf as (_ & _ & H & _). unfold ix_trans in H. lia. Qed.

Lemma target_ok row col v : row < n -> ix_eol <= col < t_width t -> cell t row col = Some v -> v < n.
Proof. destruct Hwf as (_ & _ & _ & _ & _ & _ & H & _). apply H. Qed.

Lemma column_some b : b < 256 -> exists col, column t b = Some col /\ ix_dead <= col < t_width t.
Proof.
  destruct Hwf as (_ & _ & _ & _ & H5 & H6 & _). intros Hb. unfold column.
  destruct (nth_error (t_lookup t) (N.to_nat b)) as [col|] eqn:E.
  - exists col. split; auto. rewrite Forall_forall in H6. apply H6. eapply nth_error_In; eauto.
  - exfalso. apply nth_error_None in E. lia.
Qed.

Lemma byte_step row b : row < n -> b < 256 ->
  exists col st, column t b = Some col /\ cell t row col = Some st /\ st < n.
Proof.
  intros Hr Hb. destruct (column_some b Hb) as (col & Hc & Hcol).
  destruct (cell_some row col) as (st & Hst); [auto|lia|].
  exists col, st. repeat split; auto. eapply target_ok; [| |exact Hst]; auto. unfold ix_dead, ix_eol in *; lia.
Qed.

Definition step_res (row : N) (bs : list N) (r : option (N * N)) : Prop :=
  exists st p, r = Some (st, p) /\ p < n /\
    (st = 0 -> forall row', ~ walk t row bs row') /\
    (st <> 0 -> p = st /\ walk t row bs st).

Lemma next_bytes_spec c sh : forall row st0, row < n ->
  step_res row (map (fun i => (c / 256 ^ N.of_nat i) mod 256) (rev (seq 0 (S sh))))
    (next_bytes t c sh row st0).
Proof.
  induction sh as [|sh IH]; intros row st0 Hr.
  - cbn [rev seq app map next_bytes].
    destruct (byte_step row ((c / 256 ^ N.of_nat 0) mod 256)) as (col & st & Ec & Es & Hst);
      [auto|apply N.mod_lt; discriminate|].
    rewrite Ec, Es. destruct (N.eqb_spec st 0) as [->|Hz].
    + exists 0, row. split; [reflexivity|]. split; [auto|]. split; [|congruence].
      intros _ row' Hw. eapply walk_inv in Hw; eauto. tauto.
    + exists st, st. split; [reflexivity|]. split; [auto|]. split; [congruence|]. intros _; split; [reflexivity|].
      econstructor; eauto. constructor.
  - rewrite seq_S, rev_app_distr. cbn [rev app map]. cbn [next_bytes].
    destruct (byte_step row ((c / 256 ^ N.of_nat (S sh)) mod 256)) as (col & st & Ec & Es & Hst);
      [auto|apply N.mod_lt; discriminate|].
    change (0 + S sh)%nat with (S sh).
    rewrite Ec, Es. destruct (N.eqb_spec st 0) as [->|Hz].
    + exists 0, row. split; [reflexivity|]. split; [auto|]. split; [|congruence].
      intros _ row' Hw. eapply walk_inv in Hw; eauto. tauto.
    + destruct (IH st st Hst) as (st2 & p & E & Hp & H0 & H1). rewrite E.
      exists st2, p. split; [reflexivity|]. split; [auto|]. split.
      * intros Hz2 row' Hw. eapply walk_inv in Hw; eauto. apply (H0 Hz2 row'). tauto.
      * intros Hnz. destruct (H1 Hnz) as [-> Hw]. split; [reflexivity|]. econstructor; eauto.
Qed.

Lemma char_bytes_map c : c_bytes k <> 1 ->
  char_bytes k c = map (fun i => (c / 256 ^ N.of_nat i) mod 256)
    (rev (seq 0 (S (if c_bytes k =? 2 then 1 else 2)))).
Proof.
  intros H. unfold char_bytes. destruct (N.eqb_spec (c_bytes k) 1); [congruence|].
  destruct (c_bytes k =? 2); cbn [rev seq app map];
    change (256 ^ N.of_nat 0) with 1; change (256 ^ N.of_nat 1) with 256;
    change (256 ^ N.of_nat 2) with 65536; rewrite N.div_1_r; reflexivity.
Qed.

Lemma next_char_spec c row : row < n -> In c inp -> step_res row (char_bytes k c) (next_char k t c row).
Proof.
  intros Hr Hin. unfold next_char. destruct (N.eqb_spec (c_bytes k) 1) as [E|E].
  - unfold char_bytes. rewrite E. cbn [N.eqb Pos.eqb].
    assert (Hc : c < 256). { specialize (Hch E). rewrite Forall_forall in Hch. auto. }
    destruct (byte_step row c Hr Hc) as (col & st & Ec & Es & Hst). rewrite Ec, Es.
    change (1 =? 1) with true. cbv iota.
    destruct (N.eqb_spec st 0) as [->|Hz].
    + exists 0, row. split; [reflexivity|]. split; [auto|]. split; [|congruence].
      intros _ row' Hw. eapply walk_inv in Hw; eauto. tauto.
    + exists st, st. split; [reflexivity|]. split; [auto|]. split; [congruence|]. intros _; split; [reflexivity|].
      econstructor; eauto. constructor.
  - rewrite char_bytes_map by auto. apply next_bytes_spec; auto.
Qed.

Lemma next_char_total c row : row < n -> In c inp ->
  exists st p, next_char k t c row = Some (st, p).
Proof. intros H1 H2. destruct (next_char_spec c row H1 H2) as (st & p & E & _). eauto. Qed.

(** Steps are deterministic. *)
Lemma vstep_det a b c : vstep k t inp a b -> vstep k t inp a c -> b = c.
Proof.
  intros H1 H2. inversion H1; subst; inversion H2; subst; try congruence.
  all: repeat match goal with
    | A : nth_error ?l ?q = Some ?x, B : nth_error ?l ?q = Some ?y |- _ =>
      assert (x = y) by congruence; subst; clear B
    | A : nth_error inp (length inp) = Some _ |- _ =>
      exfalso; rewrite (proj2 (nth_error_None inp (length inp))) in A; [discriminate|lia]
    | A : eol_to k t ?r ?x, B : eol_to k t ?r ?y |- _ =>
      assert (x = y) by (destruct A as (_ & ? & _), B as (_ & ? & _); congruence); subst; clear B
    | A : walk t ?r ?w ?x, B : walk t ?r ?w ?y |- _ =>
      assert (x = y) by (eapply walk_det; eauto); subst; clear B
    end; auto.
  all: exfalso; match goal with
    | A : _ -> forall e, ~ eol_to k t _ e, B : eol_to k t _ _ |- _ => eapply A; eauto end.
Qed.

Lemma vplus_first a b c : vstep k t inp a b -> vplus k t inp a c -> c = b \/ vplus k t inp b c.
Proof.
  intros H1 H2. inversion H2; subst.
  - left. eapply vstep_det; eauto.
  - right. replace b with b0; auto. eapply vstep_det; eauto.
Qed.

Lemma vplus_stuck a c : (forall b, ~ vstep k t inp a b) -> ~ vplus k t inp a c.
Proof. intros H H2. inversion H2; subst; eapply H; eauto. Qed.

(** end_state *)
Lemma end_state_ok s et cur : ls_ptr s < n ->
  exists s' et', end_state k t s et cur = Some (s', et') /\
    ls_ptr s' = ls_ptr s /\ ls_bol s' = ls_bol s /\ ls_eol s' = ls_eol s /\
    ((~ accepting t (ls_ptr s) /\ s' = s /\ et' = et) \/
     (accepting t (ls_ptr s) /\ ls_end s' = true /\ et' = cur /\
      row_info k t (ls_ptr s) s' /\ (f_bol k = true -> ls_end_bol s' = ls_bol s))).
Proof.
  intros Hp. unfold end_state.
  destruct (cell_some (ls_ptr s) ix_end Hp) as (e & He); [apply width7; reflexivity|].
  destruct (cell_some (ls_ptr s) ix_id Hp) as (i & Hi); [apply width7; reflexivity|].
  destruct (cell_some (ls_ptr s) ix_uid Hp) as (u & Hu); [apply width7; reflexivity|].
  destruct (cell_some (ls_ptr s) ix_push Hp) as (p & Hpp); [apply width7; reflexivity|].
  destruct (cell_some (ls_ptr s) ix_next Hp) as (x & Hx); [apply width7; reflexivity|].
  rewrite He, Hi, Hu, Hpp, Hx. destruct (N.eqb_spec e 0) as [->|Hz].
  - exists s, et. repeat split; auto. left. repeat split; auto.
    intros (e & He' & Hne). congruence.
  - eexists _, cur. split; [reflexivity|]. cbn. repeat split. right.
    split; [exists e; auto|]. repeat split; auto; cbn.
    + intros ->; auto.
    + intros ->. exists e; auto.
    + intros ->; auto.
Qed.

Variables (p0 : nat) (bol0 : bool).

(** Fields a scan keeps when it meets no accepting row. *)
Definition same_best (s s' : lstate) : Prop :=
  ls_end s' = ls_end s /\ ls_id s' = ls_id s /\ ls_uid s' = ls_uid s /\
  ls_end_bol s' = ls_end_bol s /\ ls_start s' = ls_start s /\
  ls_pop s' = ls_pop s /\ ls_push s' = ls_push s.

Definition marked (s : lstate) (et : nat) (c : config) : Prop :=
  ls_end s = true /\ et = cpos c /\ row_info k t (crow c) s /\
  (f_bol k = true -> ls_end_bol s = bol_at inp bol0 p0 (cpos c)).

Definition outcome_from (s : lstate) (et : nat) (a : config) (s' : lstate) (et' : nat) : Prop :=
  (no_match k t inp a /\ same_best s s' /\ et' = et) \/
  (exists b, last_match k t inp a b /\ marked s' et' b).

Lemma eol_ptr s c s1 b : ls_ptr s < n -> is_eol k t c s = Some (b, s1) ->
  ls_ptr s1 < n /\ same_best s s1 /\ ls_bol s1 = ls_bol s /\
  (f_eol k = true -> ls_eol s1 <> npos k) /\ (f_eol k = false -> ls_eol s1 = ls_eol s) /\
  (b = true -> (c = 13 \/ c = 10) /\ eol_to k t (ls_ptr s) (ls_ptr s1)) /\
  (b = false -> ls_ptr s1 = ls_ptr s /\ (c = 13 \/ c = 10 -> forall e, ~ eol_to k t (ls_ptr s) e)).
Proof.
  intros Hp. unfold is_eol. destruct (f_eol k) eqn:Fe.
  - destruct (cell_some (ls_ptr s) ix_eol Hp) as (e & He); [apply width7; reflexivity|].
    assert (Hen : e < n).
    { eapply target_ok; [exact Hp| |exact He]. split; [reflexivity|]. apply width7; reflexivity. }
    assert (Henp : e <> npos k) by (destruct Hwf as (_ & ? & _); lia).
    rewrite He. destruct (negb (e =? 0) && ((c =? 13) || (c =? 10))) eqn:T; intros H; inversion H; subst; clear H.
    + cbn. repeat split; auto; try discriminate.
      all: unfold eol_to; repeat split; auto; lia.
    + cbn. repeat split; auto; try discriminate.
      intros Hc e' (_ & He' & Hne). replace e' with e in Hne by congruence. lia.
  - intros H; inversion H; subst. repeat split; auto; try discriminate.
    intros _ e (Fe' & _). congruence.
Qed.

Lemma is_eol_some s c : ls_ptr s < n -> exists b s1, is_eol k t c s = Some (b, s1).
Proof.
  intros Hp. unfold is_eol. destruct (f_eol k); eauto.
  destruct (cell_some (ls_ptr s) ix_eol Hp) as (e & He); [apply width7; reflexivity|].
  rewrite He. destruct (negb (e =? 0) && ((c =? 13) || (c =? 10))); eauto.
Qed.

Lemma bol_at_step cur c : (p0 <= cur)%nat -> nth_error inp cur = Some c ->
  bol_at inp bol0 p0 (S cur) = (c =? 10).
Proof.
  intros H1 H2. unfold bol_at. destruct (Nat.eqb_spec p0 (S cur)); [lia|].
  replace (S cur - 1)%nat with cur by lia. rewrite H2. reflexivity.
Qed.

(** Result of a step taken by the loop followed by end_state. *)
Lemma outcome_step s et a b s1 s2 et2 s' et' :
  vstep k t inp a b ->
  same_best s s1 -> ls_ptr s1 = crow b ->
  (f_bol k = true -> ls_bol s1 = bol_at inp bol0 p0 (cpos b)) ->
  end_state k t s1 et (cpos b) = Some (s2, et2) -> crow b < n ->
  outcome_from s2 et2 b s' et' ->
  outcome_from s et a s' et'.
Proof.
  intros Hst Hsame Hptr Hbol He Hn Ho.
  destruct (end_state_ok s1 et (cpos b)) as (s2' & et2' & E & _ & _ & _ & D); [congruence|].
  rewrite He in E; inversion E; subst s2' et2'; clear E.
  destruct Ho as [(Hno & Hs2 & Het)|(c & (Hc1 & Hc2 & Hc3) & Hm)].
  - destruct D as [(Hna & -> & ->)|(Ha & D1 & -> & D2 & D3)].
    + left. split; [|split; auto].
      * intros c Hc. destruct (vplus_first _ _ _ Hst Hc) as [->|Hc']; [|apply Hno; auto].
        congruence.
      * unfold same_best in *. intuition congruence.
    + right. exists b. split.
      * split; [constructor; auto|]. split; [congruence|]. exact Hno.
      * subst et'. unfold marked. unfold same_best in Hs2.
        destruct Hs2 as (E1 & E2 & E3 & E4 & E5 & E6 & E7). split; [congruence|]. split; [reflexivity|].
        split.
        { unfold row_info in *. rewrite E2, E3, E5, E6, E7. rewrite <- Hptr. exact D2. }
        { intros Hb. rewrite E4, D3, Hbol by auto. reflexivity. }
  - right. exists c. split; auto. split; [econstructor 2; eauto|]. split; auto.
Qed.

Lemma stuck_at_end row : (forall e, ~ eol_to k t row e) -> no_match k t inp (row, length inp, false).
Proof.
  intros H c Hc. exfalso. revert Hc. apply vplus_stuck. intros b Hb. inversion Hb; subst.
  - rewrite (proj2 (nth_error_None inp (length inp))) in *; [discriminate|lia].
  - rewrite (proj2 (nth_error_None inp (length inp))) in *; [discriminate|lia].
  - eapply H; eauto.
Qed.

Lemma at_end_spec cur et s : ls_ptr s < n -> cur = length inp ->
  (f_bol k = true -> ls_bol s = bol_at inp bol0 p0 cur) ->
  (f_eol k = true -> ls_eol s <> npos k) ->
  match check_eol k t inp s et cur with
  | Some (s', et') => outcome_from s et (ls_ptr s, cur, false) s' et'
  | None => False
  end.
Proof.
  intros Hp -> Hbol Heol. unfold check_eol. rewrite Nat.eqb_refl, andb_true_r.
  destruct (f_eol k) eqn:Fe; cbn [andb].
  - rewrite (proj2 (N.eqb_neq _ _) (Heol eq_refl)). cbn [negb].
    destruct (cell_some (ls_ptr s) ix_eol Hp) as (e & He); [apply width7; reflexivity|].
    rewrite He. destruct (N.eqb_spec e 0) as [->|Hz].
    + left. split; [|repeat split]. apply stuck_at_end. intros e (_ & He' & Hne). congruence.
    + assert (Hen : e < n).
      { eapply target_ok; [exact Hp| |exact He]. split; [reflexivity|apply width7; reflexivity]. }
      destruct (end_state_ok (set_ptr (set_eol s e) e) et (length inp)) as (s2 & et2 & E2 & _); [exact Hen|].
      rewrite E2.
      apply (outcome_step s et (ls_ptr s, length inp, false) (e, length inp, true)
        (set_ptr (set_eol s e) e) s2 et2); auto.
      * constructor. repeat split; auto.
      * repeat split.
      * left. split; [|repeat split]. intros c Hc. exfalso. revert Hc. apply vplus_stuck.
        intros b Hb. inversion Hb.
  - left. split; [|repeat split]. apply stuck_at_end. intros e (He & _). congruence.
Qed.

Lemma scan_spec fuel : forall cur et s,
  ls_ptr s < n -> (p0 <= cur <= length inp)%nat ->
  (f_bol k = true -> ls_bol s = bol_at inp bol0 p0 cur) ->
  (f_eol k = true -> ls_eol s <> npos k) ->
  match scan fuel k t inp cur et s with
  | Ok (s1, et1, cur1) =>
    match check_eol k t inp s1 et1 cur1 with
    | Some (s', et') => outcome_from s et (ls_ptr s, cur, false) s' et'
    | None => False
    end
  | Fuel => True
  | _ => False
  end.
Proof.
  induction fuel as [|fuel IH]; intros cur et s Hp Hcur Hbol Heol.
  all: cbn [scan]; destruct (Nat.eqb_spec cur (length inp)) as [Hend|Hne].
  1, 3: apply at_end_spec; auto.
  1: exact I.
  (* a character is left *)
  destruct (nth_error inp cur) as [c|] eqn:Ec; [|apply nth_error_None in Ec; lia].
  destruct (is_eol_some s c Hp) as (b & s1 & E1). rewrite E1.
  destruct (eol_ptr s c s1 b Hp E1) as (P1 & P2 & P3 & P4 & P4' & P5 & P6).
  destruct b.
  - destruct (P5 eq_refl) as (Hc & He).
    destruct (end_state_ok s1 et cur P1) as (s2 & et2 & E2 & Q1 & Q2 & Q3 & _).
    rewrite E2.
    assert (IH' := IH cur et2 s2 ltac:(congruence) Hcur
      ltac:(intros Hfb; rewrite Q2, P3; apply Hbol; exact Hfb)
      ltac:(intros Hfe; rewrite Q3; apply P4; exact Hfe)).
    destruct (scan fuel k t inp cur et2 s2) as [[[s3 et3] cur3]| | |] eqn:E3; auto.
    destruct (check_eol k t inp s3 et3 cur3) as [[s' et']|] eqn:E4; auto.
    eapply (outcome_step s et _ (ls_ptr s1, cur, false) s1 s2 et2); eauto.
    + eapply vs_eol; eauto.
    + rewrite <- Q1. exact IH'.
  - destruct (P6 eq_refl) as (Hpt & Hnot).
    destruct (next_char_spec c (ls_ptr s1)) as (st & p & En & Hpn & Hz & Hnz); [auto|eapply nth_error_In; eauto|].
    rewrite En. set (s3 := if f_bol k then set_bol (set_ptr s1 p) (c =? 10) else set_ptr s1 p).
    assert (S3 : ls_ptr s3 = p /\ same_best s s3 /\ ls_eol s3 = ls_eol s1 /\
                 (f_bol k = true -> ls_bol s3 = (c =? 10))).
    { subst s3. destruct (f_bol k); cbn; repeat split; try apply P2; auto; discriminate. }
    destruct S3 as (S31 & S32 & S33 & S34). clearbody s3.
    destruct (N.eqb_spec st 0) as [Hst|Hst].
    + destruct (is_eol_some s3 (npos k)) as (b4 & s4 & E4); [congruence|]. rewrite E4.
      destruct (eol_ptr s3 (npos k) s4 b4) as (R1 & R2 & _); [congruence|auto|].
      unfold check_eol. destruct (Nat.eqb_spec cur (length inp)); [congruence|].
      rewrite andb_false_r. left. split; [|split; auto].
      * intros c' Hc'. exfalso. revert Hc'. apply vplus_stuck. intros b' Hb'.
        inversion Hb'; subst.
        { match goal with H : nth_error _ _ = Some ?x |- _ => replace x with c in * by congruence end.
          rewrite Hpt in Hz. eapply Hz; eauto. }
        { match goal with H : nth_error _ _ = Some ?x |- _ => replace x with c in * by congruence end.
          eapply Hnot; eauto. }
        { congruence. }
      * unfold same_best in *. intuition congruence.
    + destruct (Hnz Hst) as (-> & Hw).
      destruct (end_state_ok s3 et (S cur)) as (s4 & et4 & E4 & Q1 & Q2 & Q3 & _); [congruence|].
      rewrite E4. 
      assert (Hcur' : (S cur <= length inp)%nat) by lia.
      assert (IH' := IH (S cur) et4 s4 ltac:(congruence) ltac:(lia)
        ltac:(intros; rewrite Q2, S34 by auto; rewrite (bol_at_step cur c); auto; lia)
        ltac:(intros; rewrite Q3, S33; auto)).
      destruct (scan fuel k t inp (S cur) et4 s4) as [[[s5 et5] cur5]| | |] eqn:E5; auto.
      destruct (check_eol k t inp s5 et5 cur5) as [[s' et']|] eqn:E6; auto.
      rewrite Hpt in *.
      eapply (outcome_step s et _ (st, S cur, false) s3 s4 et4); eauto.
      * eapply vs_char; eauto.
      * cbn. intros. rewrite S34 by auto. rewrite (bol_at_step cur c); auto; lia.
      * replace st with (ls_ptr s4) by congruence. exact IH'.
Qed.

(** Enough fuel. *)
Lemma scan_terminates b rank :
  (forall row, (rank row <= b)%nat /\
     forall e, cell t row ix_eol = Some e -> e <> 0 -> (rank e < rank row)%nat) ->
  forall fuel cur et s, ls_ptr s < n -> (cur <= length inp)%nat ->
  ((length inp - cur) * S b + rank (ls_ptr s) < fuel)%nat ->
  scan fuel k t inp cur et s <> Fuel.
Proof.
  intros Hrank. induction fuel as [|fuel IH]; intros cur et s Hp Hcur Hf; [exfalso; exact (Nat.nlt_0_r _ Hf)|].
  cbn [scan]. destruct (Nat.eqb_spec cur (length inp)) as [|Hne]; [discriminate|].
  destruct (nth_error inp cur) as [c|] eqn:Ec; [|discriminate].
  destruct (is_eol k t c s) as [[bb s1]|] eqn:E1; [|discriminate].
  destruct (eol_ptr s c s1 bb Hp E1) as (P1 & P2 & P3 & P4 & P4' & P5 & P6).
  destruct bb.
  - destruct (P5 eq_refl) as (_ & (_ & He & Hne0)).
    destruct (end_state_ok s1 et cur P1) as (s2 & et2 & E2 & Q1 & _). rewrite E2.
    apply IH; auto; try congruence. rewrite Q1.
    pose proof (proj2 (Hrank (ls_ptr s)) _ He Hne0). lia.
  - destruct (P6 eq_refl) as (Hpt & _).
    destruct (next_char_spec c (ls_ptr s1)) as (st & p & En & Hpn & _ & _); [auto|eapply nth_error_In; eauto|].
    rewrite En. set (s3 := if f_bol k then _ else _).
    assert (S31 : ls_ptr s3 = p) by (subst s3; destruct (f_bol k); reflexivity). clearbody s3.
    destruct (N.eqb_spec st 0).
    + destruct (is_eol k t (npos k) s3) as [[? ?]|]; discriminate.
    + destruct (end_state_ok s3 et (S cur)) as (s4 & et4 & E4 & Q1 & _); [congruence|].
      rewrite E4. apply IH; try congruence; try lia.
      pose proof (proj1 (Hrank (ls_ptr s4))). nia.
Qed.

End Tab.

(** One attempt. *)
Definition row1_info (k : cfg) (t : table) (s : lstate) : Prop :=
  (ls_end s = true <-> accepting t 1) /\
  cell t 1 ix_id = Some (ls_id s) /\ cell t 1 ix_uid = Some (ls_uid s) /\
  (exists e, cell t 1 ix_end = Some e /\ ls_pop s = negb (N.land e sb_pop =? 0)) /\
  cell t 1 ix_push = Some (ls_push s).

Lemma attempt_spec fuel k m t n inp bol state p :
  get_table m state = Some t -> twf k t n -> chars_ok k inp -> (p <= length inp)%nat ->
  match attempt fuel k m inp bol state p with
  | Ok (s, et) => exists row, start_row k t bol row /\ row < n /\
      ((no_match k t inp (row, p, false) /\ et = p /\ row1_info k t s /\
        ls_start s = state /\ ls_end_bol s = bol) \/
       (exists b, last_match k t inp (row, p, false) b /\ marked k t inp p bol s et b))
  | Fuel => True
  | _ => False
  end.
Proof.
  intros Ht Hwf Hch Hp. unfold attempt. rewrite Ht.
  assert (H1n : 1 < n) by (destruct Hwf; lia).
  unfold ls_init.
  destruct (cell_some k t n Hwf 1 ix_end H1n) as (e & He); [eapply width7; eauto; reflexivity|].
  destruct (cell_some k t n Hwf 1 ix_id H1n) as (i & Hi); [eapply width7; eauto; reflexivity|].
  destruct (cell_some k t n Hwf 1 ix_uid H1n) as (u & Hu); [eapply width7; eauto; reflexivity|].
  destruct (cell_some k t n Hwf 1 ix_push H1n) as (ps & Hps); [eapply width7; eauto; reflexivity|].
  rewrite He, Hi, Hu, Hps.
  set (s0 := {| ls_ptr := 1 |}).
  assert (HI : row1_info k t s0).
  { subst s0. unfold row1_info; cbn. repeat split; eauto.
    - intros Hn. exists e. split; auto. lia.
    - intros (e' & He' & Hne). replace e' with e in Hne by congruence. lia. }
  assert (Hb : exists s1, bol_start k t s0 = Some s1 /\ start_row k t bol (ls_ptr s1) /\ ls_ptr s1 < n /\
            same_best s0 s1 /\ ls_bol s1 = bol /\ ls_eol s1 = 0).
  { unfold bol_start, start_row. cbn [ls_bol s0].
    destruct (f_bol k && bol).
    - destruct (cell_some k t n Hwf 0 0) as (b & Hb); [lia|eapply width7; eauto; reflexivity|].
      rewrite Hb. assert (b < n) by (destruct Hwf as (_&_&_&_&_&_&_&Hz); auto).
      destruct (N.eqb_spec b 0); (eexists; split; [reflexivity|]); cbn; repeat split; auto.
      + exists b; split; auto. destruct (N.eqb_spec b 0); congruence.
      + exists b; split; auto. destruct (N.eqb_spec b 0); congruence.
    - eexists; split; [reflexivity|]. cbn. repeat split; auto. }
  destruct Hb as (s1 & -> & Hstart & Hr & Hsame & Hbol & Heol).
  assert (Hnz : npos k <> 0) by (destruct Hwf as (? & ? & _); lia).
  pose proof (scan_spec k t n inp Hwf Hch p bol fuel p p s1 Hr ltac:(lia)) as HS.
  assert (HS' := HS ltac:(intros; unfold bol_at; rewrite Nat.eqb_refl; auto) ltac:(intros; congruence)).
  clear HS. destruct (scan fuel k t inp p p s1) as [[[s2 et2] cur2]| | |]; cbn [bind]; auto.
  destruct (check_eol k t inp s2 et2 cur2) as [[s' et']|]; [|tauto].
  exists (ls_ptr s1). repeat split; auto.
  destruct HS' as [(Hno & Hs & Het)|H]; [left|right; exact H].
  unfold same_best in *. destruct Hsame as (A1&A2&A3&A4&A5&A6&A7), Hs as (B1&B2&B3&B4&B5&B6&B7).
  repeat split; auto.
  all: unfold row1_info in *; rewrite ?B1, ?B2, ?B3, ?B4, ?B5, ?B6, ?B7, ?A1, ?A2, ?A3, ?A4, ?A5, ?A6, ?A7; tauto.
Qed.

Lemma attempt_terminates fuel k m t n inp bol state p b :
  get_table m state = Some t -> twf k t n -> chars_ok k inp -> (p <= length inp)%nat ->
  eol_ranked t b -> ((length inp - p) * S b + b < fuel)%nat ->
  attempt fuel k m inp bol state p <> Fuel.
Proof.
  intros Ht Hwf Hch Hp (rank & Hrank) Hf. unfold attempt. rewrite Ht.
  destruct (ls_init t bol state) as [s0|] eqn:E0; [|discriminate].
  assert (Hp0 : ls_ptr s0 = 1).
  { unfold ls_init in E0. destruct (cell t 1 ix_end), (cell t 1 ix_id), (cell t 1 ix_uid), (cell t 1 ix_push);
      inversion E0; reflexivity. }
  destruct (bol_start k t s0) as [s1|] eqn:E1; [|discriminate].
  assert (Hp1 : ls_ptr s1 < n).
  { unfold bol_start in E1. destruct Hwf as (? & _ & _ & _ & _ & _ & _ & Hz).
    destruct (f_bol k && ls_bol s0); [|inversion E1; subst; lia].
    destruct (cell t 0 0) as [z|] eqn:Ez; [|discriminate]. specialize (Hz z eq_refl).
    destruct (z =? 0); inversion E1; subst; cbn; lia. }
  pose proof (scan_terminates k t n inp Hwf Hch b rank Hrank fuel p p s1 Hp1 Hp) as HT.
  destruct (scan fuel k t inp p p s1) as [[[s2 et2] cur2]| | |]; cbn [bind]; try discriminate.
  - destruct (check_eol k t inp s2 et2 cur2); discriminate.
  - exfalso. apply HT; auto. pose proof (proj1 (Hrank (ls_ptr s1))). lia.
Qed.
